(** From annotated trees back to the statements of SpecAlloc. *)
From Coq Require Import Lia Permutation Arith.
From Verif Require Import Base Value ValueOps ObjFacts ValueProofs Heap SpecHeap HeapGhost HeapPaths HeapOps HeapProofs HeapMain Alloc SpecAlloc AllocRules AllocProofs.
Open Scope nat_scope.

(** ** rep and holds_but *)
Lemma owns_env_ghost : forall h e S ps, owns_env h e S ps -> exists G, e = cells G /\ S = vals G /\ map fst (fblocks G) = ps /\ at_heap h (fblocks G).
Proof.
  intros h e S ps O. induction O as [|e S ps O (G & E1 & E2 & E3 & E4)|c v e S ps qs Oc O (G & E1 & E2 & E3 & E4)].
  - exists []. split; [reflexivity|]. split; [reflexivity|]. split; [reflexivity|]. intros q b [].
  - exists (None :: G). cbn. split; [rewrite E1; reflexivity|]. split; [rewrite E2; reflexivity|]. auto.
  - apply owns_ghost in Oc. destruct Oc as (x & C & V & P & H). exists (Some x :: G). cbn. split; [rewrite E1, C; reflexivity|]. split; [rewrite E2, V; reflexivity|].
    split; [rewrite map_app; unfold fblocks in E3; congruence|]. apply at_heap_app. auto.
Qed.

Lemma owns_all_ghost : forall h cs vs qs, owns_all h cs vs qs -> exists L, map fst (lblocks L) = qs /\ at_heap h (lblocks L).
Proof.
  intros h cs vs qs O. induction O as [|c cs v vs ps qs Oc O (L & E1 & E2)].
  - exists []. split; [reflexivity|]. intros q b [].
  - apply owns_ghost in Oc. destruct Oc as (x & C & V & P & H). exists (x :: L). cbn [lblocks flat_map]. fold (lblocks L).
    split; [rewrite map_app; congruence|]. apply at_heap_app. auto.
Qed.

Lemma but_rep : forall s S qs, holds_but s S qs -> exists G L, rep s G L /\ S = vals G /\ qs = map fst (lblocks L).
Proof.
  intros s S qs (ps & cs & vs & O1 & O2 & Nd & Hl). apply owns_env_ghost in O1. destruct O1 as (G & E1 & E2 & E3 & E4).
  apply owns_all_ghost in O2. destruct O2 as (L & E5 & E6). exists G, L. split; [|auto]. split; [assumption|].
  assert (A : at_heap (heap s) (fblocks G ++ lblocks L)) by (apply at_heap_app; auto).
  split; [rewrite map_app; congruence|]. intros q b. split; [|apply A]. intro H. assert (Lv : live s q) by (exists b; assumption). apply Hl in Lv.
  rewrite <- E3, <- E5, <- map_app in Lv.
  apply in_map_iff in Lv. destruct Lv as ([q' b'] & X & I). cbn [fst] in X. subst q'. pose proof (A _ _ I) as Y. rewrite H in Y. injection Y as <-. assumption.
Qed.

Lemma rep_but : forall s G L, rep s G L -> holds_but s (vals G) (map fst (lblocks L)).
Proof.
  intros s G L [E [Nd H]]. assert (A : at_heap (heap s) (fblocks G ++ lblocks L)) by (intros q b I; apply H; assumption).
  apply at_heap_app in A. destruct A as [A1 A2]. rewrite map_app in Nd. exists (map fst (fblocks G)), (map cell_of L), (map val_of L). split; [|split; [|split; [assumption|]]].
  - rewrite E. clear -A1.
    induction G as [|[g|] G IH]; cbn [cells vals map option_map fblocks flat_map tblocks] in *; [constructor| |].
    + apply at_heap_app in A1. destruct A1 as [A1 A2]. rewrite map_app. apply oe_live; [apply ghost_owns; assumption|apply IH; assumption].
    + apply oe_dead. apply IH. assumption.
  - clear -A2. induction L as [|x L IH]; cbn [map lblocks flat_map] in *; [constructor|]. apply at_heap_app in A2. destruct A2 as [A1 A2].
    rewrite map_app. constructor; [apply ghost_owns; assumption|apply IH; assumption].
  - intro p. rewrite <- map_app. split.
    + intros (b & Hb). apply H in Hb. apply in_map_iff. exists (p, b). auto.
    + intro I. apply in_map_iff in I. destruct I as ([q b] & X & I). cbn [fst] in X. subst. exists b. apply H. assumption.
Qed.

Lemma but_nothing : forall s S, holds_but s S [] <-> holds s S.
Proof.
  intros s S. split.
  - intro H. destruct H as (ps & cs & vs & O1 & O2 & Nd & Hl). rewrite app_nil_r in *. exists ps. auto.
  - intros (ps & O & Nd & Hl). exists ps, [], []. rewrite app_nil_r. split; [assumption|]. split; [constructor|auto].
Qed.

Lemma raw_names : forall K L, map fst (lblocks (map raw K ++ L)) = K ++ map fst (lblocks L).
Proof. intros K L. rewrite lblocks_raw, map_app. f_equal. unfold raws. rewrite map_map. cbn [fst]. apply map_id. Qed.

(** ** Steps and runs *)
Definition ran_out (c : cmd) (s : hstate) (pl : plan) (S : store) (qs : list nat) (s' : hstate) (pl' : plan) : Prop :=
  exists S2 ks, fexec c (s, pl) = ((s', pl'), Throw EAlloc) /\ refused pl pl' /\ half c S S2 /\ loses c S (length ks) /\
    (forall p, In p ks -> bare s' p) /\ holds_but s' S2 (ks ++ qs).

Lemma raw_bare : forall s G K L p, rep s G (map raw K ++ L) -> In p K -> bare s p.
Proof.
  intros s G K L p [_ [_ H]] I. apply H. apply in_or_app. right. rewrite lblocks_raw. apply in_or_app. left. unfold raws. apply in_map_iff. exists p. auto.
Qed.

Lemma alloc_step : forall c S S' r s pl qs, tstep c S S' r -> no_reset c -> holds_but s S qs -> exists s' pl',
  (fexec c (s, pl) = ((s', pl'), r) /\ granted pl pl' /\ holds_but s' S' qs) \/ ran_out c s pl S qs s' pl'.
Proof.
  intros c S S' r s pl qs T NR H. apply but_rep in H. destruct H as (G & L & H & -> & ->).
  destruct (fstep_ok _ _ _ _ T NR s pl G L H eq_refl) as [(s' & pl' & G' & E & P & H' & ->)|(s' & pl' & E & P & G' & K & H' & Hh & Hl)]; exists s', pl'.
  - left. split; [assumption|]. split; [assumption|]. apply rep_but. assumption.
  - right. exists (vals G'), K. split; [assumption|]. split; [assumption|]. split; [assumption|]. split; [assumption|].
    split; [intros p; apply (raw_bare _ _ _ _ _ H')|]. rewrite <- raw_names. apply rep_but. assumption.
Qed.

Lemma alloc_run : forall cs s S pl qs, holds_but s S qs -> sane_always cs S -> exists s' pl' S' rs ks,
  fexec_all cs (s, pl) = ((s', pl'), rs) /\ arun cs S S' rs (length ks) /\ holds_but s' S' (ks ++ qs) /\
  (forall r, In r rs -> (exists a, r = Ret a) \/ (exists e, r = Throw e)) /\
  (Forall (eq false) pl -> trun cs S S' rs /\ ks = [] /\ Forall (eq false) pl').
Proof.
  induction cs as [|c cs IH]; intros s S pl qs H Hs.
  - exists s, pl, S, [], []. split; [reflexivity|]. split; [constructor|]. split; [assumption|]. split; [intros r []|]. intro A. split; [constructor|auto].
  - destruct Hs as (Hc & NR & Hn). destruct (covered _ _ Hc) as (S1 & r & T).
    destruct (alloc_step _ _ _ _ _ pl _ T NR H) as (s1 & pl1 & [(E1 & P1 & H1)|(S2 & k1 & E1 & P1 & Hh & Hl & _ & H1)]).
    + destruct (IH s1 S1 pl1 qs H1) as (s2 & pl2 & S' & rs & ks & E2 & R & H2 & A & Z); [apply Hn; left; eauto|].
      exists s2, pl2, S', (r :: rs), ks. split.
      { cbn [fexec_all]. rewrite E1. destruct (tstep_ends _ _ _ _ T) as [[a ->]|[e ->]]; rewrite E2; reflexivity. }
      split; [econstructor; eassumption|]. split; [assumption|]. split.
      { intros r' [<-|I]; [eapply tstep_ends; eassumption|auto]. }
      intro F0. destruct P1 as (u & -> & Fu). apply Forall_app in F0. destruct (Z (proj2 F0)) as (R' & Z'). split; [econstructor; eassumption|assumption].
    + destruct (IH s1 S2 pl1 (k1 ++ qs) H1) as (s2 & pl2 & S' & rs & ks & E2 & R & H2 & A & Z); [apply Hn; right; assumption|].
      exists s2, pl2, S', (Throw EAlloc :: rs), (ks ++ k1). split.
      { cbn [fexec_all]. rewrite E1, E2. reflexivity. }
      split; [rewrite app_length, Nat.add_comm; econstructor; eassumption|]. split; [rewrite <- app_assoc; assumption|]. split.
      { intros r' [<-|I]; [eauto|auto]. }
      intro F0. exfalso. destruct P1 as (u & -> & Fu). apply Forall_app in F0. destruct F0 as [_ F0]. inversion F0. discriminate.
Qed.

Lemma only_lost_left : forall s S qs p, holds_but s S qs -> all_ended S -> (live s p <-> In p qs).
Proof.
  intros s S qs p (ps & cs & vs & O & _ & Nd & Hl) A. assert (X : ps = []).
  { clear -O A. induction O as [|e S ps O IH|c v e S ps qs Oc O IH].
    - reflexivity.
    - apply IH. intros n v. apply (A (Datatypes.S n) v).
    - exfalso. apply (A 0 v). reflexivity. }
  subst. apply Hl.
Qed.

(** ** reset *)
Lemma freed : forall h B q, heap_is h B -> ~ In q (map fst B) -> q < length h -> nth_error h q = Some None.
Proof.
  intros h B q [_ H] N Lt. destruct (nth_error h q) as [[b|]|] eqn:E; [|reflexivity|apply nth_error_None in E; lia].
  exfalso. apply N. apply in_map_iff. exists (q, b). split; [reflexivity|]. apply H. assumption.
Qed.

(** destroying what a failed reset leaves *)
Definition broken (s : hstate) (c : cell) : Prop :=
  match c_ty c with TString | TArray | TObject => True | _ => False end /\
  match c_data c with WPtr q => nth_error (heap s) q = Some None | _ => True end.

Lemma broken_destroy : forall s c, broken s c -> destroy_cell c s = (s, UB).
Proof.
  intros s [t d] [Ht Hd]. cbn [c_ty c_data] in *. unfold destroy_cell, budget. cbn [destroy c_ty].
  destruct t; try contradiction; unfold seqm, ptr_of; cbn [c_data]; destruct d; try reflexivity; cbn [ret]; unfold get_block; rewrite Hd; reflexivity.
Qed.

(** a construction that fails only adds blocks *)
Lemma fconstruct_grows : forall i s pl s' pl' e, fconstruct i (s, pl) = ((s', pl'), Throw e) ->
  in_block i /\ env s' = env s /\ exists t, heap s' = heap s ++ t.
Proof.
  intros i s pl s' pl' e H.
  assert (A : forall b, (fcreate (fret b)) (s, pl) = ((s', pl'), Throw e) -> env s' = env s /\ exists t, heap s' = heap s ++ t).
  { intros b X. unfold fcreate, fseq, alloc, lift, create, fret, set_block in X. cbn [fst snd] in X.
    destruct pl as [|[|] pl]; cbn [fst snd heap set_heap] in X.
    - rewrite nth_error_app2, Nat.sub_diag in X by lia. discriminate.
    - injection X as <- <- _. split; [reflexivity|]. exists []. symmetry. apply app_nil_r.
    - rewrite nth_error_app2, Nat.sub_diag in X by lia. discriminate. }
  destruct i; cbn [fconstruct] in H; try discriminate H.
  - split; [exact Logic.I|]. unfold fcreate, fseq, alloc, lift, create, fret, set_block in H. cbn [fst snd] in H.
    destruct pl as [|[|] [|[|] pl]]; cbn [fst snd heap set_heap] in H;
      try (rewrite nth_error_app2, Nat.sub_diag in H by lia; discriminate);
      injection H as <- <- _; cbn [env heap set_heap]; (split; [reflexivity|]); first [exists []; symmetry; apply app_nil_r | eexists; reflexivity].
  - split; [exact Logic.I|]. unfold fseq at 1 in H. destruct (fcreate (fret (BArr 0 [])) (s, pl)) as [[s1 pl1] []] eqn:E; try discriminate. injection H as <- <- <-. eapply A. eassumption.
  - split; [exact Logic.I|]. unfold fseq at 1 in H. destruct (fcreate (fret (BObj [])) (s, pl)) as [[s1 pl1] []] eqn:E; try discriminate. injection H as <- <- <-. eapply A. eassumption.
Qed.

Lemma reset_breaks : forall s S qs n i pl s' pl' e, holds_but s S qs -> alive S n -> fexec (ReplaceBy (n, []) i) (s, pl) = ((s', pl'), Throw e) ->
  in_block i /\ forall pl2, fexec (End n) (s', pl2) = ((s', pl2), UB).
Proof.
  intros s S qs n i pl s' pl' e H (v & Nv) E. apply but_rep in H. destruct H as (G & L & H & -> & ->).
  unfold vals in Nv. rewrite nth_error_map in Nv. destruct (nth_error G n) as [[g|]|] eqn:Ng; cbn [option_map] in Nv; try discriminate. clear v Nv.
  assert (W : fwalk G (n, []) = Some (LSlot n, g)) by (unfold fwalk; cbn [fst snd]; rewrite Ng; reflexivity).
  cbn [fexec] in E. rewrite (lift_seq _ _ _ _ _ _ _ _ (locate_ok _ _ _ _ _ _ H W)) in E. unfold fseq at 1 in E.
  destruct (freset (LSlot n) i (s, pl)) as [[s1 pl1] o] eqn:Er. destruct o; try discriminate. injection E as <- <- <-.
  unfold freset in Er. rewrite (lift_seq _ _ _ _ _ _ _ _ (read_ok _ _ _ _ _ _ H W)) in Er.
  destruct (rep_focus _ _ _ _ _ _ H W) as (R & HR). destruct (destroy_cell_ok g s _ HR) as (s2 & D2 & V2 & H2 & Len). rewrite (lift_seq _ _ _ _ _ _ _ _ D2) in Er.
  assert (Lt : n < length (env s2)). { rewrite V2, (proj1 H), cells_len. eapply nth_lt. eassumption. }
  assert (Rd : exists c0, nth_error (env s2) n = Some (Some c0)).
  { rewrite V2, (proj1 H). unfold cells. rewrite nth_error_map, Ng. cbn. eauto. }
  destruct Rd as (c0 & Rd). set (c1 := mkCell (init_ty i) (c_data (cell_of g))) in *.
  assert (Wr : write_loc (LSlot n) c1 s2 = (set_env (set_nth n (Some c1) (env s2)) s2, Ret tt)) by (cbn [write_loc]; rewrite Rd; reflexivity).
  rewrite (lift_seq _ _ _ _ _ _ _ _ Wr) in Er. unfold fseq at 1 in Er.
  set (s3 := set_env (set_nth n (Some c1) (env s2)) s2) in *.
  destruct (fconstruct i (s3, pl)) as [[s4 pl4] o4] eqn:Ec.
  destruct o4; try discriminate.
  - exfalso. unfold lift in Er. cbn [fst snd write_loc] in Er. destruct (nth_error (env s4) n) as [[?|]|]; discriminate.
  - injection Er as <- <- <-. destruct (fconstruct_grows _ _ _ _ _ _ Ec) as (Ib & Ev & t & Eh). split; [assumption|]. intro pl2.
    assert (Rd4 : read_loc (LSlot n) s4 = (s4, Ret c1)).
    { cbn [read_loc]. rewrite Ev. unfold s3. cbn [set_env env]. rewrite nth_set_same by assumption. reflexivity. }
    assert (Bk : broken s4 c1).
    { split; [unfold c1; cbn [c_ty]; destruct i; cbn in *; tauto|]. unfold c1. cbn [c_data].
      assert (X : forall q b T, blocks g = (q, b) :: T -> nth_error (heap s4) q = Some None).
      { intros q b T Eg. rewrite Eg in HR. cbn [app] in HR. pose proof (heap_at _ _ _ _ HR) as Y. apply nth_lt in Y.
        rewrite Eh. unfold s3. cbn [set_env heap]. rewrite nth_error_app1 by lia. apply (freed _ _ _ H2); [|lia].
        destruct HR as [Nd _]. cbn [map fst] in Nd. inversion Nd as [|? ? Nin Nd']. intro I. apply Nin. rewrite map_app. apply in_or_app. right. exact I. }
      destruct g; cbn [cell_of c_data]; try exact Logic.I; eapply X; reflexivity. }
    cbn [fexec]. unfold lift. cbn [fst snd exec]. unfold seqm at 1, end_slot. unfold seqm at 1. rewrite Rd4. unfold seqm at 1. rewrite (broken_destroy _ _ Bk). reflexivity.
Qed.

Lemma reset_step : forall a i S S' s pl qs y, sget S a y -> sset S a (init_value i) S' -> holds_but s S qs -> exists s' pl',
  (fexec (ReplaceBy a i) (s, pl) = ((s', pl'), Ret RUnit) /\ granted pl pl' /\ holds_but s' S' qs) \/
  (fexec (ReplaceBy a i) (s, pl) = ((s', pl'), Throw EAlloc) /\ refused pl pl' /\ in_block i).
Proof.
  intros a i S S' s pl qs y Ha Hs H. apply but_rep in H. destruct H as (G & L & H & -> & ->). apply sget_walk in Ha. destruct Ha as (la & xa & Wa & Va).
  assert (O : outF (fexec (ReplaceBy a i)) s pl (fun s' r => r = RUnit /\ put G L a (init_value i) s') (fun _ => in_block i)).
  { cbn [fexec]. eapply out_step; [apply (locate_ok _ _ _ _ _ _ H Wa)|]. apply out_unit. apply (freset_ok i _ _ _ _ _ _ _ H Wa). }
  destruct O as [(s' & pl' & r & E & P & -> & X)|(s' & pl' & E & P & X)]; exists s', pl'; [left|right]; auto.
  split; [assumption|]. split; [assumption|]. destruct (sset_put _ _ _ _ _ _ _ _ Wa Hs X) as (G' & H' & ->). apply rep_but. assumption.
Qed.
(** ** A variable made from a vector *)
Fixpoint count (v : value) : nat :=
  match v with
  | VStr _ => 1
  | VArr l => S (list_sum (map count l))
  | VObj m => S (list_sum (map (fun kv => count (snd kv)) m))
  | _ => 0
  end.

Lemma flat_sum : forall A B (f : A -> list B) l, length (flat_map f l) = list_sum (map (fun x => length (f x)) l).
Proof. intros A B f l. induction l as [|x l IH]; cbn; [reflexivity|]. rewrite app_length, IH. reflexivity. Qed.

Lemma count_blocks : forall x, length (blocks x) = count (val_of x).
Proof.
  intro x. induction x as [|b|z|f|p s0|p g l IH|p m IH] using gt_deep; try reflexivity; cbn [blocks val_of count length]; f_equal; rewrite flat_sum, map_map.
  - f_equal. apply map_ext_in. rewrite Forall_forall in IH. exact IH.
  - f_equal. cbn [snd]. apply map_ext_in. rewrite Forall_forall in IH. exact IH.
Qed.

Lemma count_init : forall i, count (init_value i) <= 1.
Proof. intros []; cbn; lia. Qed.

Lemma count_inits : forall l, count (VArr (map init_value l)) <= S (length l).
Proof. intro l. cbn [count]. apply le_n_S. induction l as [|i l IH]; cbn [map list_sum fold_right length]; [lia|]. pose proof (count_init i). unfold list_sum in IH. lia. Qed.

Lemma count_app : forall l v, count (VArr (l ++ [v])) = count (VArr l) + count v.
Proof.
  intros l v. cbn [count]. rewrite map_app. cbn [map]. assert (X : forall a b, list_sum (a ++ b) = list_sum a + list_sum b).
  { intros a b. unfold list_sum. rewrite fold_right_app. induction a as [|x a IH]; cbn; [reflexivity|]. rewrite IH. lia. }
  rewrite X. cbn. lia.
Qed.

(** the value being built is lost with what it has *)
Definition dropped (G : forest) (L : list gt) (n : nat) (s : hstate) : Prop :=
  exists g K, rep s (G ++ [Some g]) (map raw K ++ L) /\ 1 <= length (blocks g) /\ length (blocks g) + length K <= n.

Lemma append_idx : forall l i, N.to_nat i = length l -> (i < 18446744073709551615)%N ->
  via_idx i idf (VArr l) = (VArr (l ++ [VNull]), Ret RUnit).
Proof.
  intros l i E Lt. cbn [via_idx]. assert (X : len l = i) by (unfold len; lia). rewrite X, N.leb_refl.
  replace (N.to_nat (u64 (i + 18446744073709551616 - i + 1))) with 1.
  - cbn [repeat]. unfold in_elem. rewrite E, nth_mid. cbn [idf]. rewrite set_mid. reflexivity.
  - replace (i + 18446744073709551616 - i + 1)%N with 18446744073709551617%N by lia. reflexivity.
Qed.

Lemma ffill_ok : forall l done s pl G L g i, rep s (G ++ [Some g]) L -> val_of g = VArr (map init_value done) -> N.to_nat i = length done ->
  (i + N.of_nat (length l) < 18446744073709551615)%N ->
  outF (ffill (LSlot (length G)) i l) s pl (fun s' _ => exists g', val_of g' = VArr (map init_value (done ++ l)) /\ rep s' (G ++ [Some g']) L)
    (dropped G L (S (length (done ++ l)))).
Proof.
  induction l as [|x l IH]; intros done s pl G L g i H V Ei Lt; cbn [ffill].
  - apply out_ret. exists g. rewrite app_nil_r. auto.
  - cbn [length] in Lt. assert (Ev : via_idx i idf (val_of g) = (VArr (map init_value done ++ [VNull]), Ret RUnit)) by (rewrite V; apply append_idx; [rewrite map_length; assumption|lia]).
    pose proof V as V0. apply gt_arr in V0. destruct V0 as (q & n & xs & -> & Ex).
    destruct (fsub_idx_ok s pl _ _ _ _ _ _ _ _ H (last_slot G (GArr q n xs)) Ev) as [(_ & O)|(e & X & _)]; [discriminate| |discriminate].
    eapply out_seq; [eapply out_weak; [exact O| |]|].
    + intros s' lc X. exact X.
    + intros s' [R|(X & _)]; [|discriminate]. exists (GArr q n xs), []. split; [exact R|]. split; [cbn; lia|]. rewrite count_blocks, V. pose proof (count_inits done).
      rewrite app_length. cbn [length]. lia.
    + intros s1 lc pl1 (z & Vz & H1 & x' & Wx). rewrite fput_new in H1, Wx. cbn [gput] in H1, Wx.
      eapply out_seq; [eapply out_weak; [apply (fassign_new_ok x s1 pl1 _ _ _ _ _ H1 Wx)| |]|].
      * intros s' u X. exact X.
      * intros s' (K & LK & R). exists z, K. split; [exact R|]. rewrite count_blocks, Vz, count_app. pose proof (count_inits done).
        cbn [count] in *. rewrite app_length. cbn [length]. destruct x; cbn [ilost] in LK; lia.
      * intros s2 u pl2 (y & Vy & H2). unfold ext in H2. cbn [fst snd app] in H2. rewrite fput_new in H2.
        apply gt_arr in Vz. destruct Vz as (q2 & n2 & zs & -> & Ez). cbn [gput] in H2.
        assert (Ln : nth_error zs (N.to_nat i) <> None).
        { apply nth_error_Some. apply (f_equal (@length value)) in Ez. rewrite app_length, !map_length in Ez. cbn [length] in Ez. lia. }
        destruct (nth_error zs (N.to_nat i)) as [w|] eqn:Ew; [|congruence]. cbn [gput] in H2.
        replace (done ++ x :: l) with ((done ++ [x]) ++ l) by (rewrite <- app_assoc; reflexivity).
        eapply (IH (done ++ [x])); [exact H2| | |].
        -- cbn [val_of]. rewrite <- set_map, <- Ez, Ei, <- (map_length init_value done), set_mid, map_app. cbn [map]. rewrite Vy. reflexivity.
        -- rewrite app_length. cbn [length]. lia.
        -- lia.
Qed.

Lemma forget_ok : forall s e c, env s = e ++ [c] -> forget_slot s = (set_env e s, Ret tt).
Proof. intros s e c E. unfold forget_slot. rewrite E, removelast_last. reflexivity. Qed.

Lemma new_list : forall l s S pl qs, holds_but s S qs -> (len l < 18446744073709551615)%N -> exists s' pl',
  (fnew_list l (s, pl) = ((s', pl'), Ret tt) /\ granted pl pl' /\ holds_but s' (S ++ [Some (VArr (map init_value l))]) qs) \/
  (exists ks, fnew_list l (s, pl) = ((s', pl'), Throw EAlloc) /\ refused pl pl' /\ holds_but s' S (ks ++ qs) /\
     length ks <= Datatypes.S (length l) /\ (ks = [] <-> pl = true :: pl')).
Proof.
  intros l s S pl qs H Hl. apply but_rep in H. destruct H as (G & L & H & -> & ->). unfold fnew_list.
  assert (H0 : rep s G (GNull :: L)) by (apply (rep_scalar _ _ _ GNull); [reflexivity|assumption]).
  destruct (push_slot_ok _ _ _ _ H0) as (s1 & E1 & H1). change (cell_of GNull) with null_cell in E1. rewrite (lift_seq _ _ _ _ _ _ _ _ E1).
  pose proof (last_slot G GNull) as W.
  set (s2 := set_env (cells G ++ [Some (mkCell TArray WZero)]) s1).
  assert (E2 : forall k : unit -> F unit, fseq (freset (LSlot (length G)) IArr) k (s1, pl) =
     fseq (fseq (fconstruct IArr) (fun c' => lift (write_loc (LSlot (length G)) c'))) k (s2, pl)).
  { intro k. unfold fseq at 1 3. unfold freset. rewrite (lift_seq _ _ _ _ _ _ _ _ (read_ok _ _ _ _ _ _ H1 W)).
    assert (D : destroy_cell (cell_of GNull) s1 = (s1, Ret tt)) by reflexivity. rewrite (lift_seq _ _ _ _ _ _ _ _ D).
    assert (Wr : write_loc (LSlot (length G)) (mkCell (init_ty IArr) (c_data (cell_of GNull))) s1 = (s2, Ret tt)).
    { cbn [write_loc]. rewrite (proj1 H1). unfold cells. rewrite map_app. cbn [map option_map]. rewrite <- (map_length (option_map cell_of) G), nth_mid, set_mid. reflexivity. }
    rewrite (lift_seq _ _ _ _ _ _ _ _ Wr). reflexivity. }
  unfold on_throw. rewrite E2.
  destruct H1 as [Ee Eh].
  assert (H2 : heap_is (heap s2) (fblocks G ++ lblocks L)).
    { unfold s2. cbn [set_env heap]. eapply heap_is_perm; [|exact Eh]. rewrite fblocks_app. cbn [fblocks flat_map tblocks]. rewrite !app_nil_r. reflexivity. }
  assert (Hf : hd false pl = true \/ alloc (s2, pl) = ((s2, tl pl), Ret tt) /\ granted pl (tl pl) /\ hd false pl = false).
  { destruct pl as [|[|] pl]; [right|left|right]; cbn; auto; (split; [reflexivity|]); (split; [|reflexivity]); [exists []|exists [false]]; auto. }
  destruct Hf as [Hf|(Ea & Pa & Hd)].
  - destruct pl as [|[|] pl]; cbn [hd] in Hf; try discriminate.
    exists (set_env (cells G) s2), pl. right. exists []. cbn [fconstruct]. unfold fcreate. unfold fseq at 1 2 3 4, alloc. cbn [fst snd].
    rewrite (lift_seq _ _ _ _ _ _ _ _ (forget_ok s2 (cells G) _ eq_refl)). split; [reflexivity|]. split; [exists []; auto|]. split; [|split; [cbn; lia|tauto]].
    cbn [app]. apply rep_but. split; [reflexivity|]. exact H2.
  - set (q := length (heap s2)). set (s3 := set_heap (heap s2 ++ [Some (BStr [])]) s2).
    assert (H3 : heap_is (heap s3) ((q, BStr []) :: fblocks G ++ lblocks L)) by (apply heap_new; assumption).
    assert (E4 : fconstruct IArr (s2, pl) = ((set_heap (set_nth q (Some (BArr 0 [])) (heap s3)) s3, tl pl), Ret (mkCell TArray (WPtr q)))).
    { cbn [fconstruct]. unfold fcreate. unfold fseq at 1 2. rewrite Ea. assert (Cr : create (BStr []) s2 = (s3, Ret q)) by reflexivity.
      rewrite (lift_seq _ _ _ _ _ _ _ _ Cr). unfold fseq at 1, fret at 1. rewrite (lift_seq _ _ _ _ _ _ _ _ (set_block_ok _ _ _ (BArr 0 []) _ H3)). reflexivity. }
    set (s4 := set_heap (set_nth q (Some (BArr 0 [])) (heap s3)) s3) in *.
    set (s5 := set_env (cells G ++ [Some (mkCell TArray (WPtr q))]) s4).
    assert (E5 : fseq (fconstruct IArr) (fun c' => lift (write_loc (LSlot (length G)) c')) (s2, pl) = ((s5, tl pl), Ret tt)).
    { unfold fseq. rewrite E4. unfold lift. cbn [fst snd write_loc]. change (env s4) with (cells G ++ [Some (mkCell TArray WZero)]).
      rewrite <- (cells_len G), nth_mid, set_mid. reflexivity. }
    assert (E7 : forall k : unit -> F unit, fseq (fseq (fconstruct IArr) (fun c' => lift (write_loc (LSlot (length G)) c'))) k (s2, pl) = k tt (s5, tl pl)).
    { intro k. unfold fseq at 1. rewrite E5. reflexivity. }
    rewrite !E7.
    assert (H5 : rep s5 (G ++ [Some (GArr q 0 [])]) L).
    { split; [unfold s5, cells; cbn [set_env env]; rewrite map_app; reflexivity|]. unfold s5. cbn [set_env heap]. unfold s4. cbn [set_heap heap].
      eapply heap_is_perm; [|apply (heap_set _ _ _ (BArr 0 []) _ H3)]. rewrite fblocks_app. cbn [fblocks flat_map tblocks blocks map app]. psolve. }
    destruct (ffill_ok l [] s5 (tl pl) G L _ 0%N H5 eq_refl eq_refl) as [(s6 & pl6 & u & E6 & P6 & g' & V6 & H6)|(s6 & pl6 & E6 & P6 & g' & K & H6 & G1 & G2)].
    + unfold len in Hl. lia.
    + exists s6, pl6. left. cbv beta. unfold plan in *. rewrite E6. destruct u. split; [reflexivity|]. split; [eapply granted_trans; eassumption|].
      cbn [app] in V6. rewrite <- V6. change [Some (val_of g')] with (vals [Some g']). rewrite <- vals_app. apply rep_but. assumption.
    + pose proof H6 as [En Hh]. unfold cells in En. rewrite map_app in En. cbn [map option_map] in En. fold (cells G) in En.
      exists (set_env (cells G) s6), pl6. right. exists (map fst (lblocks (g' :: map raw K))). cbv beta. unfold plan in *. rewrite E6.
      rewrite (lift_seq _ _ _ _ _ _ _ _ (forget_ok s6 (cells G) _ En)). split; [reflexivity|]. split; [eapply granted_refused; eassumption|].
      assert (Len : length (map fst (lblocks (g' :: map raw K))) = length (blocks g') + length K).
      { rewrite map_length. cbn [lblocks flat_map]. fold (lblocks (map raw K)). rewrite app_length. f_equal. rewrite <- (app_nil_r (map raw K)), lblocks_raw.
        unfold raws. cbn. rewrite app_nil_r, map_length. reflexivity. }
      split; [|split].
      * rewrite <- map_app. unfold lblocks at 1 2. rewrite <- flat_map_app. fold (lblocks ((g' :: map raw K) ++ L)). apply rep_but. split; [reflexivity|]. cbn [set_env heap].
        eapply heap_is_perm; [|exact Hh]. rewrite fblocks_app. cbn [fblocks flat_map tblocks lblocks app]. fold (lblocks (map raw K ++ L)). psolve.
      * rewrite Len. exact G2.
      * split; [intro Z; rewrite Z in Len; cbn in Len; lia|]. intros ->. discriminate.
Qed.

(** ** Consequences *)
Lemma half_keeps : forall c S S', half c S S' -> keeps c -> S' = S.
Proof. intros c S S' [c0 S0|c0 a S0 S1 P ? ?|a i S0 S1 ? ?|a k S0 S1 ? ?] K; [reflexivity| |contradiction|contradiction]. destruct c0; contradiction. Qed.

Lemma via_no_alloc : forall p v, snd (via (map at_acc p) (fun x => (x, Ret x)) v) <> Throw EAlloc.
Proof.
  induction p as [|[i|k] p IH]; intro v; cbn [map at_acc via via1]; [discriminate| |].
  - destruct v; cbn [via_at_idx]; try discriminate. destruct (len l <=? i)%N; [discriminate|]. unfold in_elem. destruct (nth_error l (N.to_nat i)) as [x|]; [|discriminate].
    specialize (IH x). destruct (via (map at_acc p) (fun x => (x, Ret x)) x). exact IH.
  - destruct v; cbn [via_at_key]; try discriminate. destruct (obj_find k m) as [x|] eqn:E; [|discriminate]. unfold in_member. rewrite E.
    specialize (IH x). destruct (via (map at_acc p) (fun x => (x, Ret x)) x). exact IH.
Qed.

Lemma tstep_no_alloc : forall c S S' r, tstep c S S' r -> r <> Throw EAlloc.
Proof.
  intros c S S' r T. destruct T as
    [i S|b S x Hb|b S x S1 Hb Hs|a b S x y S' Ha Hb Hs|a S x Ha|a b S x y S1 S' Nab Nb Ha Hb Hs1 Hs2|a S x Ha|a b S x y S1 S' Nab Nba Ha Hb Hs1 Hs2
    |a i S y S' Ha Hs|a i S y S' Ha Hs|a b S y l x0 S1 x S' Ha Al Hb Hs1 Hb1 Hs2|a b S y l x S1 y1 l1 S' Ha Al Hb Nb Hs1 Ha1 Al1 Hs2
    |a i S y l S' Ha Al Hs|c a S y Ha Na Hc|c a f S y y' r S' Hl Ha Hf Nr Hs|S1 v S2|c a b S e Hc (v & Hn & Hf)|c a b S y e Hc Ha (v & Hn & Hf)]; try discriminate.
  - destruct c as [| | | | | | | | | | |a0 [i|k]|a0 k|a0 i|a0|]; cbn [local] in Hl; try discriminate; injection Hl as <- <-; intro X; subst r.
    + cbn [via1] in Hf. unfold via_idx in Hf. destruct y; cbn [of_type] in Hf; try discriminate Hf;
        match type of Hf with in_elem ?i ?f ?l = _ => destruct (in_elem_id i l _ _ Hf Nr) as (_ & X & _); discriminate X end.
    + destruct y; cbn [touch] in Hf; discriminate Hf.
    + unfold run_op, rmap in Hf. destruct y; cbn in Hf; discriminate Hf.
    + unfold run_op, rmap in Hf. destruct y; cbn in Hf; try discriminate Hf. destruct (i <? len l)%N; cbn in Hf; discriminate Hf.
    + cbn in Hf. discriminate Hf.
  - intro X. injection X as ->. exact (via_no_alloc _ _ Hf).
  - intro X. injection X as ->. exact (via_no_alloc _ _ Hf).
Qed.

(** the store is as before *)
Lemma unchanged : forall c S S' r s pl qs s' pl', tstep c S S' r -> no_reset c -> keeps c -> holds_but s S qs ->
  fexec c (s, pl) = ((s', pl'), Throw EAlloc) -> exists ks, loses c S (length ks) /\ holds_but s' S (ks ++ qs).
Proof.
  intros c S S' r s pl qs s' pl' T NR K H E. destruct (alloc_step _ _ _ _ _ pl _ T NR H) as (s1 & pl1 & [(E1 & P & H1)|(S2 & ks & E1 & P & Hh & Hl & _ & H1)]).
  - exfalso. rewrite E in E1. injection E1 as _ _ X. exact (tstep_no_alloc _ _ _ _ T (eq_sym X)).
  - rewrite E in E1. injection E1 as <- <-. exists ks. split; [assumption|]. rewrite (half_keeps _ _ _ Hh K) in H1. assumption.
Qed.

Lemma never_fails : forall c S S' r s pl qs, tstep c S S' r -> no_memory c -> holds_but s S qs ->
  exists s', fexec c (s, pl) = ((s', pl), r) /\ holds_but s' S' qs.
Proof.
  intros c S S' r s pl qs T N H. apply but_rep in H. destruct H as (G & L & H & -> & ->).
  destruct (step_ok _ _ _ _ T s G L H eq_refl) as (s' & G' & E & H' & ->). exists s'. split; [|apply rep_but; assumption].
  assert (X : fexec c = lift (exec c)) by (destruct c; try contradiction; reflexivity). rewrite X. unfold lift. cbn [fst snd]. rewrite E. reflexivity.
Qed.

(** a refused allocation is reported *)
Lemma no_refusal : forall c S S' r s pl qs, tstep c S S' r -> holds_but s S qs -> Forall (eq false) pl -> exists s' pl',
  fexec c (s, pl) = ((s', pl'), r) /\ granted pl pl' /\ holds_but s' S' qs.
Proof.
  intros c S S' r s pl qs T H A.
  assert (X : forall pl', refused pl pl' -> False).
  { intros pl' (u & -> & _). apply Forall_app in A. destruct A as [_ A]. inversion A. discriminate. }
  assert (Y : no_reset c \/ exists a i, c = ReplaceBy a i) by (destruct c; cbn; eauto).
  destruct Y as [NR|(a & i & ->)].
  - destruct (alloc_step _ _ _ _ _ pl _ T NR H) as (s' & pl' & [Z|(S2 & ks & E1 & P & _)]); [eauto|]. exfalso. eauto.
  - inversion T as [| | | | | | | | |a0 i0 S0 y S0' Ha Hs E1 E2| | | |c0 a0 S0 y Ha Na Hc E1|c0 a0 f S0 y y' r0 S0' Hl| |c0 a0 b S0 e Hc Hf E1|c0 a0 b S0 y e Hc]; subst.
    + destruct (reset_step a i S S' s pl qs y Ha Hs H) as (s' & pl' & [Z|(_ & P & _)]); [eauto|]. exfalso. eauto.
    + destruct Hc as [(b & x & [Z|Z] & _)|(j & Z)]; discriminate.
    + discriminate.
    + destruct Hc as [Z|Z]; [discriminate|]. injection Z as <-. apply but_rep in H. destruct H as (G & L & H & -> & ->).
      exists s, pl. split; [|split; [apply granted_refl|apply rep_but; assumption]].
      cbn [fexec]. unfold fseq at 1, lift at 1. cbn [fst snd]. rewrite (locate_bad _ _ _ _ _ H Hf). reflexivity.
    + discriminate.
Qed.
