(** References follow the trees, or dangle. *)
From Coq Require Import Lia Permutation Arith.
From Verif Require Import Base Value ValueOps SpecGrammar SpecText ObjFacts SpecValue ValueProofs Heap SpecHeap HeapGhost HeapPaths HeapOps HeapProofs HeapMain Refs SpecRefs RefsFacts.
Open Scope nat_scope.

Definition kept (c : cmd) (S : store) (o : outcome result) (s' : hstate) (G G' : forest) : Prop :=
  (forall r r' l x, follows c S o r r' -> fwalk G r = Some (l, x) -> exists x', fwalk G' r' = Some (l, x')) /\
  (forall r l x, fwalk G r = Some (l, x) -> (exists r', follows c S o r r') \/ snd (read_loc l s') = UB).

Lemma kept_throw : forall c S e s G, kept c S (Throw e) s G G.
Proof.
  intros c S e s G. split.
  - intros r r' l x F W. inversion F; subst. eauto.
  - intros r l x W. left. eexists. constructor.
Qed.

(** ** Overwriting *)
Definition freed (s' : hstate) (x : gt) : Prop := forall q, In q (map fst (blocks x)) -> no_block s' q.

Lemma freed_lost : forall s' G a la x s t l z, fwalk G a = Some (la, x) -> freed s' x -> fwalk G (under a (s :: t)) = Some (l, z) -> snd (read_loc l s') = UB.
Proof.
  intros s' G a la x s t l z W F W2. rewrite (from_walk _ _ _ _ _ _ W) in W2. apply walk_holder in W2. destruct W2 as (q & Hq & I).
  eapply read_lost; [exact Hq|]. apply F. assumption.
Qed.

Lemma over_freed : forall s1 s' G L y a la x, rep s1 G (y :: L) -> fwalk G a = Some (la, x) -> rep s' (fput G a y) L -> freed s' x.
Proof. intros s1 s' G L y a la x H1 W H' q I. eapply rep_lost; [exact H'|]. eapply overwritten; eassumption. Qed.

Lemma dropped_all : forall s G T L q, rep s G (T ++ L) -> In q (map fst (lblocks T)) -> ~ In q (map fst (fblocks G ++ lblocks L)).
Proof.
  intros s G T L q [_ [N _]] I J. unfold lblocks in N. rewrite flat_map_app in N. fold (lblocks L) (lblocks T) in N.
  assert (P : Permutation (map fst (fblocks G ++ lblocks T ++ lblocks L)) (map fst (lblocks T) ++ map fst (fblocks G ++ lblocks L))).
  { rewrite !map_app. psolve. }
  eapply Permutation_NoDup in P; [|exact N]. apply in_split in J. destruct J as (j1 & j2 & E). rewrite E in P. rewrite app_assoc in P.
  apply NoDup_remove_2 in P. apply P. apply in_or_app. left. apply in_or_app. left. assumption.
Qed.

Lemma copy_over : forall s G L a b la lb x y, rep s G L -> fwalk G a = Some (la, x) -> fwalk G b = Some (lb, y) -> a <> b ->
  exists s' y', assign_copy la lb s = (s', Ret tt) /\ val_of y' = val_of y /\ rep s' (fput G a y') L /\ freed s' x.
Proof.
  intros s G L a b la lb x y H Wa Wb D. unfold assign_copy. rewrite (loc_eqb_no la lb) by (eapply loc_diff; eassumption).
  unfold seqm at 1. rewrite (read_ok _ _ _ _ _ _ H Wb). destruct (copy_at _ _ _ _ _ _ H Wb) as (s1 & y' & E1 & V & H1).
  unfold seqm. rewrite E1.
  destruct (with_temp_ok unit (fun t => swap la t) s1 G L y' (Ret tt) (fun G' L' => G' = fput G a y' /\ L' = L) Logic.I H1) as (s' & G' & L' & E2 & H2 & [-> ->]).
  - intros s2 H2. destruct (swap_ok _ _ _ a (length G, []) _ _ _ _ H2 (fwalk_grow _ _ _ _ _ Wa) (last_slot G y') (new_apart _ _ _ _ _ Wa)) as (s3 & E3 & H3).
    rewrite (fput_grow _ _ _ _ _ _ Wa) in H3. rewrite <- (length_fput G a y') in H3. rewrite fput_new in H3.
    exists s3, (fput G a y'), x, L. auto.
  - exists s', y'. split; [assumption|]. split; [assumption|]. split; [assumption|]. exact (over_freed _ _ _ _ _ _ _ _ H1 Wa H2).
Qed.

Lemma copy_self : forall l s, assign_copy l l s = (s, Ret tt).
Proof. intros l s. unfold assign_copy. rewrite (proj2 (loc_eqb_iff l l) eq_refl). reflexivity. Qed.

Lemma new_over : forall i s G L a la x, rep s G L -> fwalk G a = Some (la, x) ->
  exists s' y, assign_new la i s = (s', Ret tt) /\ val_of y = init_value i /\ rep s' (fput G a y) L /\ freed s' x.
Proof.
  intros i s G L a la x H Wa. unfold assign_new. destruct (construct_ok i _ _ _ H) as (s1 & y & E1 & V & H1). unfold seqm at 1. rewrite E1.
  destruct (with_temp_ok unit (fun t => assign_move la t) s1 G L y (Ret tt) (fun G' L' => G' = fput G a y /\ L' = L) Logic.I H1) as (s' & G' & L' & E2 & H2 & [-> ->]).
  - intros s2 H2. pose proof (new_apart _ _ [] _ _ Wa) as P.
    destruct (assign_move_ok _ _ _ a (length G, []) _ _ _ _ H2 (fwalk_grow _ _ _ _ _ Wa) (last_slot G y)) as (s3 & E3 & H3).
    { apply fapart_not_below. apply fapart_sym. assumption. }
    exists s3, (fput G a y), GNull, L. split; [assumption|]. split; [|auto]. rewrite fput_new in H3. cbn [gput] in H3.
    rewrite (fput_grow _ _ _ _ _ _ Wa) in H3. exact H3.
  - exists s', y. split; [assumption|]. split; [assumption|]. split; [assumption|]. exact (over_freed _ _ _ _ _ _ _ _ H1 Wa H2).
Qed.

Lemma keys_bound : forall h B q, heap_is h B -> In q (map fst B) -> q < length h.
Proof. intros h B q [_ H] I. apply in_map_iff in I. destruct I as ([p b] & <- & I). apply H in I. cbn [fst]. apply nth_error_Some. congruence. Qed.

Lemma replace_over : forall i s G L a la x, rep s G L -> fwalk G a = Some (la, x) ->
  exists s' y, replace_with la i s = (s', Ret tt) /\ val_of y = init_value i /\ rep s' (fput G a y) L /\ freed s' x.
Proof.
  intros i s G L a la x [E H] W. destruct (frame _ _ _ _ W) as (F & C & P1 & E1 & P2 & Hw).
  assert (H1 : heap_is (heap s) (F (cell_of x) ++ blocks x ++ lblocks L)) by (eapply heap_is_perm; [|exact H]; rewrite P1; psolve).
  destruct (Hw _ _ _ H1 (eq_trans E E1)) as [Hr _]. unfold replace_with, seqm. rewrite Hr.
  assert (H2 : heap_is (heap s) (blocks x ++ F (cell_of x) ++ lblocks L)) by (eapply heap_is_perm; [|exact H1]; psolve).
  destruct (destroy_cell_ok x s _ H2) as (s1 & D1 & V1 & H3 & Ln). rewrite D1.
  destruct (construct_heap i s1 _ H3) as (s2 & y & D2 & Vy & V2 & H4). rewrite D2.
  assert (H5 : heap_is (heap s2) (F (cell_of x) ++ blocks y ++ lblocks L)) by (eapply heap_is_perm; [|exact H4]; psolve).
  assert (E2 : env s2 = C (cell_of x)) by congruence.
  destruct (Hw _ _ _ H5 E2) as [_ Hx]. destruct (Hx (cell_of y)) as (s3 & D3 & H6 & E3). exists s3, y. split; [assumption|]. split; [assumption|].
  split.
  - destruct (P2 y) as [P3 E4]. split; [congruence|]. eapply heap_is_perm; [|exact H6]. rewrite P3. psolve.
  - intros q I. assert (Q1 : no_block s1 q).
    { intros b Eb. apply H3 in Eb. apply (in_map fst) in Eb. destruct H2 as [Nd _]. rewrite map_app in Nd.
      cbn [fst] in Eb. apply in_split in Eb. destruct Eb as (j1 & j2 & Ej). rewrite Ej in Nd. rewrite app_assoc in Nd.
      apply NoDup_remove_2 in Nd. apply Nd. apply in_or_app. left. apply in_or_app. left. assumption. }
    assert (Q2 : no_block s2 q).
    { assert (Bq : q < length (heap s1)). { rewrite Ln. eapply keys_bound; [exact H2|]. rewrite map_app. apply in_or_app. auto. }
      assert (X : heap s2 = heap s1 \/ exists b, heap s2 = heap s1 ++ [Some b]).
      { destruct i; cbn in D2; injection D2 as <- _; auto; right; eexists; reflexivity. }
      intros b Eb. destruct X as [X|[b' X]]; rewrite X in Eb; [apply (Q1 b); assumption|].
      rewrite nth_error_app1 in Eb by assumption. apply (Q1 b). assumption. }
    apply write_iff in D3. intros b Eb. inversion D3; subst; cbn [heap] in Eb.
    + apply (Q2 b). assumption.
    + destruct (Nat.eq_dec p q) as [->|N]; [eapply Q2; eassumption|]. rewrite nth_set_other in Eb by assumption. apply (Q2 b). assumption.
    + destruct (Nat.eq_dec p q) as [->|N]; [eapply Q2; eassumption|]. rewrite nth_set_other in Eb by assumption. apply (Q2 b). assumption.
Qed.

Lemma kept_over : forall c a S u s' G la x y, (exists b, c = CopyTo a b /\ a <> b) \/ (exists i, c = SetTo a i \/ c = ReplaceBy a i) ->
  fwalk G a = Some (la, x) -> freed s' x -> kept c S (Ret u) s' G (fput G a y).
Proof.
  intros c a S u s' G la x y Hc W Fr. split.
  - intros r r' l z F Wr. assert (K : ~ inside a r /\ r' = r).
    { destruct Hc as [(b & -> & D)|(i & [-> | ->])]; inversion F; subst; repeat match goal with
        | H : _ \/ _ |- _ => destruct H | H : exists _, _ |- _ => destruct H | H : CopyTo _ _ = _ |- _ => inversion H; clear H; subst
        | H : SetTo _ _ = _ |- _ => inversion H; clear H; subst | H : ReplaceBy _ _ = _ |- _ => inversion H; clear H; subst end; try contradiction; auto; congruence. }
    destruct K as [N ->]. eapply keep_put; eassumption.
  - intros r l z Wr. destruct (inside_dec a r) as [(s & t & ->)|N].
    + right. exact (freed_lost _ _ _ _ _ _ _ _ _ W Fr Wr).
    + left. exists r. eapply f_over; [|exact N]. destruct Hc as [(b & -> & D)|(i & [-> | ->])]; [left|right; left|right; left]; eexists; [|left|right]; reflexivity.
Qed.

(** ** New variables *)
Ltac cmds := repeat match goal with
  | H : _ \/ _ |- _ => destruct H
  | H : exists _, _ |- _ => destruct H
  | H : ?c = ?d |- _ => match type of c with cmd => inversion H; clear H; subst end
  end.

Lemma kept_new : forall c S u s' G y, (exists i, c = New i) \/ (exists b, c = NewCopy b) -> kept c S (Ret u) s' G (G ++ [y]).
Proof.
  intros c S u s' G y Hc. split.
  - intros r r' l z F Wr. assert (K : r' = r) by (destruct Hc as [(i & ->)|(b & ->)]; inversion F; subst; cmds; reflexivity).
    subst r'. exists z. apply fwalk_grow. assumption.
  - intros r l z Wr. left. exists r. destruct Hc as [(i & ->)|(b & ->)]; constructor.
Qed.

Lemma kept_new_move : forall b S u s' G lb xb, fwalk G b = Some (lb, xb) -> length S = length G ->
  kept (NewMove b) S (Ret u) s' G (fput G b GNull ++ [Some xb]).
Proof.
  intros b S u s' G lb xb W Ln. split.
  - intros r r' l z F Wr. inversion F; subst; cmds.
    + match goal with N : ~ inside b _ |- _ => destruct (keep_put _ _ _ _ GNull _ _ _ W N Wr) as (x' & E) end. exists x'. apply fwalk_grow. assumption.
    + rewrite Ln, <- (length_fput G b GNull), fwalk_new. rewrite (from_walk _ _ _ _ _ _ W) in Wr. rewrite (carried _ lb). eauto.
  - intros r l z Wr. left. destruct (inside_dec b r) as [(s & t & ->)|N]; eexists; [apply f_new_moved|apply f_new_move; assumption].
Qed.

(** ** Moves and swaps *)
Lemma apart_self : forall a, ~ fapart a a.
Proof. intros a H. apply fapart_not_below in H. apply H. apply below_refl. Qed.

Lemma move_frees : forall s s' G L a b lb xb la xa, rep s G L -> fwalk G b = Some (lb, xb) -> fwalk (fput G b GNull) a = Some (la, xa) ->
  rep s' (fput (fput G b GNull) a xb) L -> freed s' xa.
Proof.
  intros s s' G L a b lb xb la xa H Wb Wa H'. destruct (move_from_ok _ _ _ _ _ _ H Wb) as (s1 & _ & H1). exact (over_freed _ _ _ _ _ _ _ _ H1 Wa H').
Qed.

Lemma kept_move : forall a b S u s' G la xa lb xb, a <> b -> fwalk G b = Some (lb, xb) -> fwalk (fput G b GNull) a = Some (la, xa) -> freed s' xa ->
  kept (MoveTo a b) S (Ret u) s' G (fput (fput G b GNull) a xb).
Proof.
  intros a b S u s' G la xa lb xb D Wb Wa Fr. split.
  - intros r r' l z F Wr. inversion F; subst; cmds; try congruence.
    + match goal with N : ~ inside b _ |- _ => destruct (keep_put _ _ _ _ GNull _ _ _ Wb N Wr) as (x1 & E1) end. eapply keep_put; eassumption.
    + rewrite (into_put _ _ _ _ _ _ _ Wa). rewrite (from_walk _ _ _ _ _ _ Wb) in Wr. rewrite (carried _ lb). eauto.
  - intros r l z Wr. destruct (inside_dec b r) as [(s & t & ->)|Nb]; [left; eexists; apply f_moved; assumption|].
    destruct (inside_dec a r) as [(s & t & ->)|Na]; [|left; eexists; apply f_move; eassumption].
    right. destruct (keep_put _ _ _ _ GNull _ _ _ Wb Nb Wr) as (x1 & E1). exact (freed_lost _ _ _ _ _ _ _ _ _ Wa Fr E1).
Qed.

Lemma kept_swap : forall a b S u s' G la xa lb xb, fapart a b -> fwalk G a = Some (la, xa) -> fwalk G b = Some (lb, xb) ->
  kept (Swap a b) S (Ret u) s' G (fput (fput G a xb) b xa).
Proof.
  intros a b S u s' G la xa lb xb P Wa Wb.
  assert (Wb' : fwalk (fput G a xb) b = Some (lb, xb)) by (rewrite fwalk_put_apart by assumption; assumption).
  assert (Wa' : fwalk (fput G b xa) a = Some (la, xa)) by (rewrite fwalk_put_apart by (apply fapart_sym; assumption); assumption).
  split.
  - intros r r' l z F Wr. inversion F; subst; cmds; try (exfalso; eapply apart_self; eassumption).
    + match goal with N : ~ inside a _ |- _ => destruct (keep_put _ _ _ _ xb _ _ _ Wa N Wr) as (x1 & E1) end. eapply keep_put; eassumption.
    + rewrite (into_put _ _ _ _ _ _ _ Wb'). rewrite (from_walk _ _ _ _ _ _ Wa) in Wr. rewrite (carried _ la). eauto.
    + rewrite (fput_fput_apart _ _ _ _ _ P). rewrite (into_put _ _ _ _ _ _ _ Wa'). rewrite (from_walk _ _ _ _ _ _ Wb) in Wr. rewrite (carried _ lb). eauto.
  - intros r l z Wr. left. destruct (inside_dec a r) as [(s & t & ->)|Na]; [eexists; apply f_swap1|].
    destruct (inside_dec b r) as [(s & t & ->)|Nb]; [eexists; apply f_swap2|]. eexists. apply f_swap; eassumption.
Qed.

Lemma kept_self : forall c a S u s' G, c = CopyTo a a \/ c = MoveTo a a \/ c = Swap a a -> kept c S (Ret u) s' G G.
Proof.
  intros c a S u s' G Hc. split.
  - intros r r' l z F Wr. assert (K : r' = r). { inversion F; subst; cmds; try reflexivity; congruence. } subst r'. eauto.
  - intros r l z Wr. left. exists r. eapply f_self. eassumption.
Qed.

(** ** push_back *)
Lemma element_dec : forall a r, (exists i, r = under a [Idx i]) \/ ~ element a r.
Proof.
  intros a r. destruct (inside_dec a r) as [(s & t & ->)|N].
  - destruct s as [i|k]; [destruct t as [|s t]|]; [left; eauto| |].
    + right. intros (j & E). apply under_inj in E. discriminate.
    + right. intros (j & E). apply under_inj in E. discriminate.
  - right. intro E. apply N. apply element_inside. assumption.
Qed.

Lemma grown_stale : forall s' G L a la xa q g gl ys i l z, fwalk G a = Some (la, xa) -> xa = GNull \/ xa = GArr q g gl ->
  rep s' (fput G a (GArr q (S g) ys)) L -> fwalk G (under a [Idx i]) = Some (l, z) -> snd (read_loc l s') = UB.
Proof.
  intros s' G L a la xa q g gl ys i l z W [->| ->] H Wr.
  - rewrite (from_walk _ _ _ _ _ _ W) in Wr. discriminate.
  - eapply (stale_elem _ _ _ _ _ _ g (S g)); [exact W|exact H|lia|exact Wr].
Qed.

Lemma kept_push : forall c a S u s' G L la xa q g gl y, (exists b, c = PushCopy a b) \/ (exists i, c = PushNew a i) ->
  fwalk G a = Some (la, xa) -> xa = GNull \/ xa = GArr q g gl -> rep s' (fput G a (GArr q (Datatypes.S g) (gl ++ [y]))) L ->
  kept c S (Ret u) s' G (fput G a (GArr q (Datatypes.S g) (gl ++ [y]))).
Proof.
  intros c a S u s' G L la xa q g gl y Hc W X H. split.
  - intros r r' l z F Wr. assert (K : ~ element a r /\ r' = r) by (destruct Hc as [(b & ->)|(i & ->)]; inversion F; subst; cmds; auto).
    destruct K as [N ->]. eapply keep_grow; eassumption.
  - intros r l z Wr. destruct (element_dec a r) as [(i & ->)|N].
    + right. exact (grown_stale _ _ _ _ _ _ _ _ _ _ _ _ _ W X H Wr).
    + left. exists r. apply f_push with a; assumption.
Qed.

Lemma kept_push_move : forall a b S u s' G L la xa lb xb x0 l0 q g gl, S = vals G -> fwalk G b = Some (lb, xb) -> fwalk (fput G b GNull) a = Some (la, xa) ->
  sget S a x0 -> as_array x0 l0 -> length l0 = length gl -> xa = GNull \/ xa = GArr q g gl ->
  rep s' (fput (fput G b GNull) a (GArr q (Datatypes.S g) (gl ++ [xb]))) L ->
  kept (PushMove a b) S (Ret u) s' G (fput (fput G b GNull) a (GArr q (Datatypes.S g) (gl ++ [xb]))).
Proof.
  intros a b S u s' G L la xa lb xb x0 l0 q g gl ES Wb Wa Ha Al Ln X H. split.
  - intros r r' l z F Wr. change (id (xa = GNull \/ xa = GArr q g gl)) in X. inversion F; subst; cmds.
    + match goal with N : ~ inside b _ |- _ => destruct (keep_put _ _ _ _ GNull _ _ _ Wb N Wr) as (x1 & E1) end. eapply keep_grow; [exact Wa|exact X|assumption|exact E1].
    + match goal with A : sget (vals G) a ?y, B : as_array ?y ?l2 |- context [len ?l2] => assert (E : l2 = l0) by (rewrite (sget_fun _ _ _ _ Ha A) in Al; inversion Al; subst; inversion B; subst; congruence) end.
      subst. rewrite (into_put _ _ _ _ _ _ _ Wa). rewrite (from_walk _ _ _ _ _ _ Wb) in Wr.
      remember (s :: t) as w eqn:Ew. cbn [walk]. unfold len. rewrite Nat2N.id, Ln, nth_mid. subst w. rewrite (carried _ lb). eauto.
  - intros r l z Wr. destruct (inside_dec b r) as [(s & t & ->)|Nb]; [left; eexists; eapply f_push_moved; eassumption|].
    destruct (element_dec a r) as [(i & ->)|N]; [|left; eexists; apply f_push_move; eassumption].
    right. destruct (keep_put _ _ _ _ GNull _ _ _ Wb Nb Wr) as (x1 & E1). exact (grown_stale _ _ _ _ _ _ _ _ _ _ _ _ _ Wa X H E1).
Qed.

(** ** operator[] *)
Inductive grown : sel -> gt -> gt -> Prop :=
| gw_same i q n xs : (i < len xs)%N -> grown (Idx i) (GArr q n xs) (GArr q n xs)
| gw_more i q n xs k : (len xs <= i)%N -> grown (Idx i) (GArr q n xs) (GArr q (S n) (xs ++ repeat GNull k))
| gw_arr i q n xs : grown (Idx i) GNull (GArr q n xs)
| gw_key k q m : grown (Key k) (GObj q m) (GObj q (obj_emplace k GNull m))
| gw_obj k q m : grown (Key k) GNull (GObj q m).

Lemma at_elem : forall G a la xa q n xs i c, fwalk G a = Some (la, xa) -> nth_error xs (N.to_nat i) = Some c ->
  fwalk (fput G a (GArr q n xs)) (under a [Idx i]) = Some (LElem q n (N.to_nat i), c).
Proof. intros. rewrite (into_put _ _ _ _ _ _ _ H). cbn [walk]. rewrite H0. reflexivity. Qed.

Lemma sub_tail_at : forall s G L a la q n xs i y r, rep s G L -> fwalk G a = Some (la, GArr q n xs) ->
  via_idx i idf (VArr (map val_of xs)) = (y, r) -> r <> UB ->
  exists s' l' z, sub_tail la (Idx i) s = (s', Ret l') /\ r = Ret RUnit /\ val_of z = y /\ rep s' (fput G a z) L /\ grown (Idx i) (GArr q n xs) z /\
    exists x', fwalk (fput G a z) (under a [Idx i]) = Some (l', x').
Proof.
  intros s G L a la q n xs i y r H W V N. cbn [via_idx] in V. rewrite len_map in V.
  unfold sub_tail, seqm at 1. rewrite (read_ok _ _ _ _ _ _ H W). cbn [cell_of c_ty]. unfold seqm at 1, ptr_of. cbn [c_data ret].
  unfold seqm at 1. rewrite (get_at _ _ _ _ _ _ _ _ _ H W eq_refl). rewrite len_map.
  destruct (len xs <=? i)%N eqn:Ei.
  - set (k := N.to_nat (u64 (i + 18446744073709551616 - len xs + 1))) in *. clearbody k. cbv zeta.
    apply in_elem_id in V; [|assumption]. destruct V as (-> & -> & x & Ex).
    change null_cell with (cell_of GNull). rewrite <- map_repeat', <- map_app.
    change VNull with (val_of GNull) in *. rewrite <- map_repeat', <- map_app in *.
    rewrite nth_error_map in *. destruct (nth_error (xs ++ repeat GNull k) (N.to_nat i)) as [c|] eqn:Ec; [|discriminate]. cbn [option_map].
    destruct (refocus s G L a la (GArr q n xs) q (BArr n (map cell_of xs)) (BArr (S n) (map cell_of (xs ++ repeat GNull k)))
      (flat_map blocks xs) (flat_map blocks xs) (GArr q (S n) (xs ++ repeat GNull k)) L H W eq_refl) as [E1 H1].
    + cbn [blocks]. rewrite flat_map_app, blocks_nulls, app_nil_r. reflexivity.
    + reflexivity.
    + apply Permutation_refl.
    + unfold seqm. rewrite E1. eexists _, _, _. split; [reflexivity|]. split; [reflexivity|]. split; [|split; [exact H1|]]; [reflexivity|].
      split; [apply gw_more; apply N.leb_le; assumption|]. eexists. eapply at_elem; eassumption.
  - apply in_elem_id in V; [|assumption]. destruct V as (-> & -> & x & Ex). eexists _, _, (GArr q n xs). split; [reflexivity|]. split; [reflexivity|].
    split; [reflexivity|]. split; [rewrite (fput_same _ _ _ _ W); assumption|]. split; [apply gw_same; apply N.leb_gt; assumption|].
    rewrite nth_error_map in Ex. destruct (nth_error xs (N.to_nat i)) as [c|] eqn:Ec; [|discriminate]. eexists. eapply at_elem; eassumption.
Qed.

Lemma sub_tail_member : forall s G L a la q m k, rep s G L -> fwalk G a = Some (la, GObj q m) -> sorted m ->
  exists s' l' z, sub_tail la (Key k) s = (s', Ret l') /\ val_of z = VObj (obj_emplace k VNull (vmap val_of m)) /\ rep s' (fput G a z) L /\
    grown (Key k) (GObj q m) z /\ exists x', fwalk (fput G a z) (under a [Key k]) = Some (l', x').
Proof.
  intros s G L a la q m k H W Sm.
  unfold sub_tail, seqm at 1. rewrite (read_ok _ _ _ _ _ _ H W). cbn [cell_of c_ty]. unfold seqm at 1, ptr_of. cbn [c_data ret].
  unfold seqm at 1. rewrite (get_at _ _ _ _ _ _ _ _ _ H W eq_refl).
  change null_cell with (cell_of GNull). rewrite emplace_vmap.
  destruct (refocus s G L a la (GObj q m) q (BObj (vmap cell_of m)) (BObj (vmap cell_of (obj_emplace k GNull m)))
    (flat_map (fun kx => blocks (snd kx)) m) (flat_map (fun kx => blocks (snd kx)) (obj_emplace k GNull m)) (GObj q (obj_emplace k GNull m)) L H W eq_refl eq_refl eq_refl) as [E1 H1].
  - apply Permutation_app_tail. apply Permutation_sym. apply snd_emplace.
  - unfold seqm. rewrite E1. eexists _, _, _. split; [reflexivity|]. split; [|split; [exact H1|]].
    + rewrite val_obj. change VNull with (val_of GNull). rewrite emplace_vmap. reflexivity.
    + split; [constructor|]. rewrite (into_put _ _ _ _ _ _ _ W). cbn [walk]. rewrite find_emplace by assumption.
      destruct (obj_find k m) as [c|]; [eauto|]. rewrite (proj2 (str_eqb_iff k k) eq_refl). eauto.
Qed.

Lemma sub_at : forall s G L a la x sl f y r, rep s G L -> fwalk G a = Some (la, x) -> (forall q m, x = GObj q m -> sorted m) ->
  local (Sub a sl) = Some (a, f) -> f (val_of x) = (y, r) -> r <> UB ->
  (exists e, r = Throw e /\ sub_loc la sl s = (s, Throw e) /\ y = val_of x) \/
  (exists s' l' z, r = Ret RUnit /\ sub_loc la sl s = (s', Ret l') /\ val_of z = y /\ rep s' (fput G a z) L /\ grown sl x z /\
    exists x', fwalk (fput G a z) (under a [sl]) = Some (l', x')).
Proof.
  intros s G L a la x sl f y r H W Sm Lf V N.
  assert (E0 : sub_loc la sl s = (do _ <- match c_ty (cell_of x) with TNull => assign_new la (match sl with Idx _ => IArr | Key _ => IObj end) | _ => ret tt end; sub_tail la sl) s).
  { rewrite sub_loc_eq. unfold seqm at 1. rewrite (read_ok _ _ _ _ _ _ H W). reflexivity. }
  rewrite E0. clear E0.
  destruct sl as [i|k]; cbn [local] in Lf; injection Lf as <-; cbn [via1] in V; fold idf in V.
  - destruct x as [|b|z|d|q t|q n xs|q m]; cbn [cell_of c_ty].
    2,3,4,5,7: injection V as <- <-; left; eexists; split; [reflexivity|]; split; [|reflexivity]; unfold seqm, ret, sub_tail; unfold seqm; rewrite (read_ok _ _ _ _ _ _ H W); reflexivity.
    + right. destruct (assign_new_ok IArr _ _ _ _ _ _ H W) as (s1 & z1 & E1 & V1 & H1). unfold seqm. rewrite E1.
      cbn [init_value] in V1. apply gt_arr in V1. destruct V1 as (q & n & xs & -> & Ex). destruct xs; [|discriminate].
      pose proof (fwalk_put_same _ _ (GArr q n []) _ _ W) as W1.
      destruct (sub_tail_at _ _ _ _ _ _ _ _ i y r H1 W1 V N) as (s2 & l' & z & E2 & -> & Vz & H2 & Gz & x' & Wz).
      rewrite (fput_fput_same _ _ _ _ _ _ W) in H2, Wz. exists s2, l', z. split; [reflexivity|]. split; [assumption|]. split; [assumption|]. split; [assumption|].
      split; [|eauto]. inversion Gz; subst; constructor.
    + right. unfold seqm at 1. cbn [ret].
      destruct (sub_tail_at _ _ _ _ _ _ _ _ i y r H W V N) as (s2 & l' & z & E2 & -> & Vz & H2 & Gz & Wz). exists s2, l', z. auto 8.
  - destruct x as [|b|z|d|q t|q n xs|q m]; cbn [cell_of c_ty].
    2,3,4,5,6: injection V as <- <-; left; eexists; split; [reflexivity|]; split; [|reflexivity]; unfold seqm, ret, sub_tail; unfold seqm; rewrite (read_ok _ _ _ _ _ _ H W); reflexivity.
    + right. destruct (assign_new_ok IObj _ _ _ _ _ _ H W) as (s1 & z1 & E1 & V1 & H1). unfold seqm. rewrite E1.
      cbn [init_value] in V1. apply gt_obj in V1. destruct V1 as (q & m & -> & Ex). destruct m; [|discriminate].
      pose proof (fwalk_put_same _ _ (GObj q []) _ _ W) as W1.
      destruct (sub_tail_member _ _ _ _ _ _ _ k H1 W1 (so_nil)) as (s2 & l' & z & E2 & Vz & H2 & Gz & x' & Wz).
      cbn [touch val_of] in V. injection V as <- <-.
      rewrite (fput_fput_same _ _ _ _ _ _ W) in H2, Wz. exists s2, l', z. split; [reflexivity|]. split; [assumption|]. split; [assumption|]. split; [assumption|].
      split; [|eauto]. inversion Gz; subst; constructor.
    + right. unfold seqm at 1. cbn [ret]. rewrite val_obj in V. cbn [touch] in V. injection V as <- <-.
      destruct (sub_tail_member _ _ _ _ _ _ _ k H W (Sm _ _ eq_refl)) as (s2 & l' & z & E2 & Vz & H2 & Gz & Wz). exists s2, l', z. auto 8.
Qed.

Lemma kept_sub : forall a sl S u s' G L la x z, S = vals G -> fwalk G a = Some (la, x) -> (forall q m, x = GObj q m -> sorted m) -> grown sl x z ->
  rep s' (fput G a z) L -> kept (Sub a sl) S (Ret u) s' G (fput G a z).
Proof.
  intros a sl S u s' G L la x z ES W Sm Gz H. destruct Gz as [i q n xs Li|i q n xs k Li|i q n xs|k q m|k q m].
  - rewrite (fput_same _ _ _ _ W). split.
    + intros r r' l y F Wr. assert (K : r' = r) by (inversion F; subst; cmds; reflexivity). subst r'. eauto.
    + intros r l y Wr. left. exists r. apply f_sub_in with (map val_of xs); [|rewrite len_map; assumption]. subst S. apply walk_sget in W. exact W.
  - split.
    + intros r r' l y F Wr. assert (K : ~ element a r /\ r' = r).
      { inversion F; subst; cmds; auto. exfalso. apply walk_sget in W. match goal with A : sget _ _ (VArr ?l) |- _ => pose proof (sget_fun _ _ _ _ W A) as E end.
        cbn [val_of] in E. injection E as <-. rewrite len_map in *. lia. }
      destruct K as [Nr ->]. eapply keep_grow; [exact W|right; reflexivity|exact Nr|exact Wr].
    + intros r l y Wr. destruct (element_dec a r) as [(j & ->)|Nr]; [right|left; exists r; apply f_sub_grow; assumption].
      exact (grown_stale _ _ _ _ _ _ _ _ _ _ _ _ _ W (or_intror eq_refl) H Wr).
  - split.
    + intros r r' l y F Wr. assert (K : ~ element a r /\ r' = r).
      { inversion F; subst; cmds; auto. exfalso. apply walk_sget in W. match goal with A : sget _ _ (VArr ?l) |- _ => pose proof (sget_fun _ _ _ _ W A) as E end. discriminate. }
      destruct K as [Nr ->]. eapply (keep_grow _ _ _ _ _ n []); [exact W|left; reflexivity|exact Nr|exact Wr].
    + intros r l y Wr. left. exists r. destruct (element_dec a r) as [(j & ->)|Nr]; [|apply f_sub_grow; assumption].
      rewrite (from_walk _ _ _ _ _ _ W) in Wr. discriminate.
  - split; [|intros r l y Wr; left; exists r; apply f_sub_key].
    intros r r' l y F Wr. assert (K : r' = r) by (inversion F; subst; cmds; reflexivity). subst r'.
    eapply keep_member; [exact W|right; reflexivity|eapply Sm; reflexivity|exact Wr].
  - split; [|intros r l y Wr; left; exists r; apply f_sub_key].
    intros r r' l y F Wr. assert (K : r' = r) by (inversion F; subst; cmds; reflexivity). subst r'.
    destruct (inside_dec a r) as [(sl & t & ->)|O]; [|eapply keep_put; eassumption]. rewrite (from_walk _ _ _ _ _ _ W) in Wr. destruct sl; discriminate.
Qed.

(** ** erase *)
Lemma under_under : forall a p t, under (under a p) t = under a (p ++ t).
Proof. intros [n p0] p t. unfold under. cbn [fst snd]. rewrite app_assoc. reflexivity. Qed.

Lemma below_dec : forall a r, r = a \/ (exists s t, r = under a (s :: t)) \/ ~ below a r.
Proof.
  intros a r. destruct (place_dec r a) as [->|D]; [auto|]. destruct (inside_dec a r) as [I|N]; [auto|]. right. right.
  intro B. apply below_ext in B. destruct B as [[|s t] E]; [apply D; rewrite E; apply under_nil|]. apply N. exists s, t. exact E.
Qed.

Lemma dropped_freed : forall s1 s2 G x L, rep s1 G (x :: L) -> rep s2 G L -> freed s2 x.
Proof. intros s1 s2 G x L H1 H2 q I. eapply rep_lost; [exact H2|]. eapply dropped; eassumption. Qed.

Lemma erase_same : forall A k (m : list (str * A)), obj_find k m = None -> obj_erase k m = m.
Proof.
  intros A k m E. induction m as [|[k' x] m IH]; cbn in *; [reflexivity|]. destruct (str_eqb k k'); [discriminate|]. rewrite IH by assumption. reflexivity.
Qed.

Lemma erase_key_at : forall s G L a la x k y r, rep s G L -> fwalk G a = Some (la, x) -> run_op (EraseKey k) (val_of x) = (y, r) ->
  (exists e, r = Throw e /\ erase_key la k s = (s, Throw e) /\ y = val_of x) \/
  (exists s' n q m, r = Ret (RNum n) /\ x = GObj q m /\ erase_key la k s = (s', Ret n) /\ y = val_of (GObj q (obj_erase k m)) /\
    rep s' (fput G a (GObj q (obj_erase k m))) L /\ forall c, obj_find k m = Some c -> freed s' c).
Proof.
  intros s G L a la x k y r H W V.
  assert (E0 : erase_key la k s = match c_ty (cell_of x) with
    | TObject => (do p <- ptr_of (cell_of x); do b <- get_block p;
        match b with BObj m => match obj_find k m with Some x => do _ <- set_block p (BObj (obj_erase k m)); do _ <- destroy_cell x; ret 1%N | None => ret 0%N end | _ => fail UB end) s
    | _ => fail (Throw (EKey "cannot use erase() with non-object value")) s end).
  { unfold erase_key. unfold seqm at 1. rewrite (read_ok _ _ _ _ _ _ H W). destruct (c_ty (cell_of x)); reflexivity. }
  rewrite E0. clear E0. destruct x as [|b|z|d|q t|q n xs|q m]; cbn [cell_of c_ty].
  1,2,3,4,5,6: injection V as <- <-; left; eexists; split; [reflexivity|]; split; reflexivity.
  right. rewrite val_obj in V. cbn [run_op v_erase_key rmap fst snd bind] in V. injection V as <- <-.
  unfold seqm, ptr_of. cbn [c_data ret]. rewrite (get_at _ _ _ _ _ _ _ _ _ H W eq_refl). rewrite !find_vmap.
  destruct (obj_find k m) as [c|] eqn:E; cbn [option_map].
  - pose proof E as E'. apply find_split in E'. destruct E' as (m1 & m2 & -> & N). rewrite !erase_vmap, !erase_mid by assumption.
    destruct (refocus s G L a la (GObj q (m1 ++ (k, c) :: m2)) q (BObj (vmap cell_of (m1 ++ (k, c) :: m2))) (BObj (vmap cell_of (m1 ++ m2)))
      (flat_map (fun kx => blocks (snd kx)) (m1 ++ (k, c) :: m2)) (flat_map (fun kx => blocks (snd kx)) (m1 ++ m2)) (GObj q (m1 ++ m2)) (c :: L) H W eq_refl eq_refl eq_refl) as [E1 H1].
    { rewrite fm_mid, flat_map_app. cbn [snd lblocks flat_map]. fold (lblocks L). psolve. }
    rewrite E1. destruct (drop_ok _ _ _ _ H1) as (s2 & E2 & H2). rewrite E2. cbn [ret].
    exists s2, 1%N, q, (m1 ++ (k, c) :: m2). rewrite !erase_mid by assumption. split; [reflexivity|]. split; [reflexivity|]. split; [reflexivity|]. split; [|split; [exact H2|]].
    + rewrite val_obj. reflexivity.
    + intros c' E3. rewrite E in E3. injection E3 as <-. exact (dropped_freed _ _ _ _ _ H1 H2).
  - cbn [ret]. exists s, 0%N, q, m. split; [reflexivity|]. split; [reflexivity|]. split; [reflexivity|]. split; [rewrite val_obj, erase_vmap; reflexivity|].
    rewrite erase_same by assumption. split; [rewrite (fput_same _ _ _ _ W); assumption|]. congruence.
Qed.

Lemma kept_del_key : forall a k S u s' G L la q m, fwalk G a = Some (la, GObj q m) -> sorted m -> rep s' (fput G a (GObj q (obj_erase k m))) L ->
  (forall c, obj_find k m = Some c -> freed s' c) -> kept (DelKey a k) S (Ret u) s' G (fput G a (GObj q (obj_erase k m))).
Proof.
  intros a k S u s' G L la q m W Sm H Fr. split.
  - intros r r' l z F Wr. inversion F; subst; cmds. eapply keep_erased; eassumption.
  - intros r l z Wr. destruct (below_dec (under a [Key k]) r) as [->|[(s & t & ->)|N]]; [right|right|left; exists r; apply f_del_key; assumption].
    + rewrite (from_walk _ _ _ _ _ _ W) in Wr. cbn [walk] in Wr. destruct (obj_find k m) as [c|] eqn:E; [|discriminate]. injection Wr as <- <-.
      cbn [read_loc]. unfold seqm. rewrite (get_at _ _ _ _ _ _ _ _ _ H (fwalk_put_same _ _ _ _ _ W) eq_refl). rewrite find_vmap, find_erase by assumption.
      rewrite (proj2 (str_eqb_iff k k) eq_refl). reflexivity.
    + destruct (fwalk G (under a [Key k])) as [[lk c]|] eqn:Wk.
      * pose proof Wk as Wk2. rewrite (from_walk _ _ _ _ _ _ W) in Wk2. cbn [walk] in Wk2. destruct (obj_find k m) as [c'|] eqn:E; [|discriminate]. injection Wk2 as <- ->.
        eapply freed_lost; [exact Wk|apply Fr; reflexivity|exact Wr].
      * rewrite under_under in Wr. rewrite (from_walk _ _ _ _ _ _ W) in Wk. cbn [app] in Wr. rewrite (from_walk _ _ _ _ _ _ W) in Wr. remember (s :: t) as w. cbn [walk] in Wr, Wk.
        destruct (obj_find k m); discriminate.
Qed.

Lemma erase_idx_at : forall s G L a la x i y r, rep s G L -> fwalk G a = Some (la, x) -> run_op (EraseIdx i) (val_of x) = (y, r) -> r <> UB ->
  (exists e, r = Throw e /\ erase_idx la i s = (s, Throw e) /\ y = val_of x) \/
  (exists s' q n xs c, r = Ret RUnit /\ x = GArr q n xs /\ nth_error xs (N.to_nat i) = Some c /\ erase_idx la i s = (s', Ret tt) /\
    y = val_of (GArr q (S n) (remove_nth (N.to_nat i) xs)) /\ rep s' (fput G a (GArr q (S n) (remove_nth (N.to_nat i) xs))) L /\ freed s' c).
Proof.
  intros s G L a la x i y r H W V N.
  assert (E0 : erase_idx la i s = match c_ty (cell_of x) with
    | TArray => (do p <- ptr_of (cell_of x); do b <- get_block p;
        match b with BArr g l => match nth_error l (N.to_nat i) with Some x => do _ <- set_block p (BArr (S g) (remove_nth (N.to_nat i) l)); destroy_cell x | None => fail UB end | _ => fail UB end) s
    | _ => fail (Throw (EKey "cannot use erase() with non-array value")) s end).
  { unfold erase_idx. unfold seqm at 1. rewrite (read_ok _ _ _ _ _ _ H W). destruct (c_ty (cell_of x)); reflexivity. }
  rewrite E0. clear E0. destruct x as [|b|z|d|q t|q n xs|q m]; cbn [cell_of c_ty].
  1,2,3,4,5,7: injection V as <- <-; left; eexists; split; [reflexivity|]; split; reflexivity.
  right. cbn [run_op v_erase_idx val_of rmap] in V. rewrite len_map in V.
  destruct (i <? len xs)%N eqn:Ei; cbn [fst snd bind] in V; injection V as <- <-; [|congruence].
  apply N.ltb_lt in Ei. unfold len in Ei.
  unfold seqm, ptr_of. cbn [c_data ret]. rewrite (get_at _ _ _ _ _ _ _ _ _ H W eq_refl).
  rewrite nth_error_map. destruct (nth_error xs (N.to_nat i)) as [c|] eqn:E; [|apply nth_error_None in E; lia]. cbn [option_map].
  pose proof E as E'. apply nth_error_split in E'. destruct E' as (l1 & l2 & -> & Ln). rewrite <- Ln. rewrite !remove_map, remove_mid.
  destruct (refocus s G L a la (GArr q n (l1 ++ c :: l2)) q (BArr n (map cell_of (l1 ++ c :: l2))) (BArr (S n) (map cell_of (l1 ++ l2)))
    (flat_map blocks (l1 ++ c :: l2)) (flat_map blocks (l1 ++ l2)) (GArr q (S n) (l1 ++ l2)) (c :: L) H W eq_refl eq_refl eq_refl) as [E1 H1].
  { rewrite fm_mid, flat_map_app. cbn [lblocks flat_map]. fold (lblocks L). psolve. }
  rewrite E1. destruct (drop_ok _ _ _ _ H1) as (s2 & E2 & H2). rewrite E2.
  exists s2, q, n, (l1 ++ c :: l2), c. rewrite remove_mid. split; [reflexivity|]. split; [reflexivity|]. split; [rewrite Ln; exact E|]. split; [reflexivity|]. split; [reflexivity|].
  split; [exact H2|]. exact (dropped_freed _ _ _ _ _ H1 H2).
Qed.

Lemma kept_del_idx : forall a i S u s' G L la q n xs c, fwalk G a = Some (la, GArr q n xs) -> nth_error xs (N.to_nat i) = Some c ->
  rep s' (fput G a (GArr q (Datatypes.S n) (remove_nth (N.to_nat i) xs))) L -> freed s' c ->
  kept (DelIdx a i) S (Ret u) s' G (fput G a (GArr q (Datatypes.S n) (remove_nth (N.to_nat i) xs))).
Proof.
  intros a i S u s' G L la q n xs c W E H Fr. split.
  - intros r r' l z F Wr. inversion F; subst; cmds; [eapply keep_put; eassumption|eapply keep_low; eassumption|eapply keep_high; eassumption].
  - intros r l z Wr. destruct (inside_dec a r) as [(s & t & ->)|N]; [|left; exists r; apply f_del_out; assumption].
    destruct s as [j|k]; [|rewrite (from_walk _ _ _ _ _ _ W) in Wr; discriminate].
    destruct t as [|s t]; [right; eapply (stale_elem _ _ _ _ _ _ n (Datatypes.S n)); [exact W|exact H|lia|exact Wr]|].
    destruct (N.lt_trichotomy j i) as [Lt|[->|Lt]].
    + left. eexists. apply f_del_low. assumption.
    + right. assert (Wi : fwalk G (under a [Idx i]) = Some (LElem q n (N.to_nat i), c)).
      { rewrite (from_walk _ _ _ _ _ _ W). cbn [walk]. rewrite E. reflexivity. }
      change (under a (Idx i :: s :: t)) with (under a ([Idx i] ++ s :: t)) in Wr. rewrite <- under_under in Wr. eapply freed_lost; [exact Wi|exact Fr|exact Wr].
    + left. eexists. apply f_del_high. assumption.
Qed.

(** ** clear *)
Lemma clear_at : forall s G L a la x, rep s G L -> fwalk G a = Some (la, x) ->
  exists s' z, clear la s = (s', Ret tt) /\ val_of z = v_clear (val_of x) /\ rep s' (fput G a z) L /\
    forall p t l y, walk la x (p :: t) = Some (l, y) -> snd (read_loc l s') = UB.
Proof.
  intros s G L a la x H W. unfold clear. unfold seqm at 1. rewrite (read_ok _ _ _ _ _ _ H W).
  destruct x as [|b|z|f|q t|q n xs|q m]; cbn [cell_of c_ty].
  - exists s, GNull. split; [reflexivity|]. split; [reflexivity|]. rewrite (fput_same _ _ _ _ W). split; [assumption|]. intros [] t l y Wr; discriminate.
  - destruct (scalar_write _ _ _ _ _ _ (GBool false) H W eq_refl eq_refl) as (s' & E & H1). cbn [cell_of] in E. rewrite E. eexists _, _. split; [reflexivity|]. split; [|split; [exact H1|]]; [reflexivity|]. intros [] t l y Wr; discriminate.
  - destruct (scalar_write _ _ _ _ _ _ (GInt 0) H W eq_refl eq_refl) as (s' & E & H1). cbn [cell_of] in E. rewrite E. eexists _, _. split; [reflexivity|]. split; [|split; [exact H1|]]; [reflexivity|]. intros [] t l y Wr; discriminate.
  - destruct (scalar_write _ _ _ _ _ _ (GFlt f64_zero) H W eq_refl eq_refl) as (s' & E & H1). cbn [cell_of] in E. rewrite E. eexists _, _. split; [reflexivity|]. split; [|split; [exact H1|]]; [reflexivity|]. intros [] t l y Wr; discriminate.
  - unfold seqm, ptr_of. cbn [c_data ret]. rewrite (get_at _ _ _ _ _ _ _ _ _ H W eq_refl).
    destruct (refocus s G L a la (GStr q t) q (BStr t) (BStr []) [] [] (GStr q []) L H W eq_refl eq_refl eq_refl (Permutation_refl _)) as [E1 H1].
    rewrite E1. eexists _, _. split; [reflexivity|]. split; [|split; [exact H1|]]; [reflexivity|]. intros [] t' l y Wr; discriminate.
  - unfold seqm, ptr_of. cbn [c_data ret]. rewrite (get_at _ _ _ _ _ _ _ _ _ H W eq_refl).
    destruct (refocus s G L a la (GArr q n xs) q (BArr n (map cell_of xs)) (BArr (S n) []) (flat_map blocks xs) [] (GArr q (S n) []) (xs ++ L) H W eq_refl eq_refl eq_refl) as [E1 H1].
    { unfold lblocks. rewrite flat_map_app. apply Permutation_refl. }
    rewrite E1. destruct (drop_all _ _ _ _ H1) as (s2 & E2 & H2). rewrite E2. eexists _, _. split; [reflexivity|]. split; [|split; [exact H2|]]; [reflexivity|].
    intros p t l y Wr. destruct t as [|p' t].
    + destruct p as [i|k]; [|discriminate]. eapply (stale_elem _ _ _ _ _ _ n (S n)); [exact W|exact H2|lia|]. rewrite (from_walk _ _ _ _ _ _ W). exact Wr.
    + destruct p as [i|k]; [|discriminate]. remember (p' :: t) as w eqn:Ew. cbn [walk] in Wr. destruct (nth_error xs (N.to_nat i)) as [c|] eqn:Ec; [|discriminate]. subst w.
      apply walk_holder in Wr. destruct Wr as (q' & Hq & I). eapply read_lost; [exact Hq|]. eapply rep_lost; [exact H2|]. eapply dropped_all; [exact H1|].
      apply in_map_iff in I. destruct I as (b & <- & I). apply in_map. apply in_flat_map. exists c. split; [eapply nth_error_In; eassumption|assumption].
  - unfold seqm, ptr_of. cbn [c_data ret]. rewrite (get_at _ _ _ _ _ _ _ _ _ H W eq_refl).
    destruct (refocus s G L a la (GObj q m) q (BObj (vmap cell_of m)) (BObj []) (flat_map (fun kx => blocks (snd kx)) m) [] (GObj q []) (map snd m ++ L) H W eq_refl eq_refl eq_refl) as [E1 H1].
    { unfold lblocks. rewrite flat_map_app, fm_map. apply Permutation_refl. }
    rewrite E1. destruct (drop_all _ _ _ _ H1) as (s2 & E2 & H2). rewrite (iterm_ext _ _ destroy_cell snd). unfold vmap. rewrite map_map. cbn [snd].
    rewrite map_map in E2. rewrite E2. eexists _, _. split; [reflexivity|]. split; [|split; [exact H2|]]; [reflexivity|].
    intros p t l y Wr. destruct t as [|p' t].
    + destruct p as [i|k]; [discriminate|]. cbn [walk] in Wr. destruct (obj_find k m) as [c|]; [|discriminate]. injection Wr as <- <-.
      cbn [read_loc]. unfold seqm. rewrite (get_at _ _ _ _ _ _ _ _ _ H2 (fwalk_put_same _ _ _ _ _ W) eq_refl). reflexivity.
    + destruct p as [i|k]; [discriminate|]. remember (p' :: t) as w eqn:Ew. cbn [walk] in Wr. destruct (obj_find k m) as [c|] eqn:Ec; [|discriminate]. subst w.
      apply walk_holder in Wr. destruct Wr as (q' & Hq & I). eapply read_lost; [exact Hq|]. eapply rep_lost; [exact H2|]. eapply dropped_all; [exact H1|].
      apply in_map_iff in I. destruct I as (b & <- & I). apply in_map. apply in_flat_map. exists c. split; [|assumption].
      apply find_split in Ec. destruct Ec as (m1 & m2 & -> & _). apply in_map_iff. exists (k, c). split; [reflexivity|]. apply in_or_app. right. left. reflexivity.
Qed.

Lemma kept_wipe : forall a S u s' G la x z, fwalk G a = Some (la, x) -> (forall p t l y, walk la x (p :: t) = Some (l, y) -> snd (read_loc l s') = UB) ->
  kept (Wipe a) S (Ret u) s' G (fput G a z).
Proof.
  intros a S u s' G la x z W Hl. split.
  - intros r r' l y F Wr. inversion F; subst; cmds. eapply keep_put; eassumption.
  - intros r l y Wr. destruct (inside_dec a r) as [(s & t & ->)|N]; [right|left; exists r; eapply f_over; [|exact N]; auto].
    rewrite (from_walk _ _ _ _ _ _ W) in Wr. eapply Hl. eassumption.
Qed.

(** ** The end of a variable *)
Lemma end_at : forall s G1 g G2 L, rep s (G1 ++ Some g :: G2) L -> exists s', end_slot (length G1) s = (s', Ret tt) /\ rep s' (G1 ++ None :: G2) L /\ freed s' g.
Proof.
  intros s G1 g G2 L H. destruct (end_ok _ _ _ _ _ H) as (s' & E & H'). exists s'. split; [assumption|]. split; [assumption|].
  intros q I. eapply rep_lost; [exact H'|]. destruct H as [_ [Nd _]]. intro J.
  assert (P : Permutation (map fst (fblocks (G1 ++ Some g :: G2) ++ lblocks L)) (map fst (blocks g) ++ map fst (fblocks (G1 ++ None :: G2) ++ lblocks L))).
  { rewrite !fblocks_app. cbn [fblocks flat_map tblocks app]. fold (fblocks G2). rewrite !map_app. psolve. }
  eapply Permutation_NoDup in P; [|exact Nd]. apply in_split in J. destruct J as (j1 & j2 & Ej). rewrite Ej in P. rewrite app_assoc in P.
  apply NoDup_remove_2 in P. apply P. apply in_or_app. left. apply in_or_app. left. assumption.
Qed.

Lemma kept_end : forall S u s' G1 g G2 L, rep s' (G1 ++ None :: G2) L -> freed s' g -> kept (End (length G1)) S (Ret u) s' (G1 ++ Some g :: G2) (G1 ++ None :: G2).
Proof.
  intros S u s' G1 g G2 L H Fr. split.
  - intros r r' l y F Wr. inversion F; subst; cmds. exists y. rewrite <- Wr. unfold fwalk.
    replace (nth_error (G1 ++ None :: G2) (fst r')) with (nth_error (G1 ++ Some g :: G2) (fst r')); [reflexivity|].
    destruct (Nat.lt_ge_cases (fst r') (length G1)) as [Lt|Ge]; [rewrite !nth_error_app1 by assumption; reflexivity|].
    rewrite !nth_error_app2 by assumption. destruct (fst r' - length G1) as [|d] eqn:Ed; [lia|reflexivity].
  - intros [n p] l y Wr. destruct (Nat.eq_dec n (length G1)) as [->|D]; [right|left; eexists; apply f_end; assumption].
    unfold fwalk in Wr. cbn [fst snd] in Wr. rewrite nth_mid in Wr. destruct p as [|p t].
    + cbn [walk] in Wr. injection Wr as <- <-. cbn [read_loc]. destruct H as [E _]. rewrite E. unfold cells. rewrite map_app. cbn [map option_map].
      rewrite <- (map_length (option_map cell_of) G1), nth_mid. reflexivity.
    + apply walk_holder in Wr. destruct Wr as (q & Hq & I). eapply read_lost; [exact Hq|]. apply Fr. assumption.
Qed.

(** ** One command *)
Lemma sorted_at : forall G a la x, in_order (vals G) -> fwalk G a = Some (la, x) -> forall q m, x = GObj q m -> sorted m.
Proof.
  intros G a la x O W q m ->. apply walk_sget in W. apply (sget_ordered _ _ _ O) in W. rewrite val_obj in W. inversion W; subst.
  eapply sorted_keys; [|eassumption]. apply vmap_fst.
Qed.

Lemma follow_step : forall c S S' o, tstep c S S' o -> in_order S -> forall s G L, rep s G L -> S = vals G ->
  exists s' G', exec c s = (s', o) /\ rep s' G' L /\ S' = vals G' /\ kept c S o s' G G'.
Proof.
  intros c S S' r T O. destruct T as
    [i S|b S x Hb|b S x S1 Hb Hs|a b S x y S' Ha Hb Hs|a S x Ha|a b S x y S1 S' Nab Nb Ha Hb Hs1 Hs2|a S x Ha|a b S x y S1 S' Nab Nba Ha Hb Hs1 Hs2
    |a i S y S' Ha Hs|a i S y S' Ha Hs|a b S y l x0 S1 x S' Ha Al Hb Hs1 Hb1 Hs2|a b S y l x S1 y1 l1 S' Ha Al Hb Nb Hs1 Ha1 Al1 Hs2
    |a i S y l S' Ha Al Hs|c a S y Ha Na Hc|c a f S y y' r S' Hl Ha Hf Nr Hs|S1 v S2|c a b S e Hc Hf|c a b S y e Hc Ha Hf]; intros s G L H EG.
  - (* New *) destruct (construct_ok i _ _ _ H) as (s1 & y & E1 & V & H1). destruct (push_slot_ok _ _ _ _ H1) as (s2 & E2 & H2).
    exists s2, (G ++ [Some y]). cbn [exec]. unfold seqm. rewrite E1, E2. split; [reflexivity|]. split; [assumption|]. split.
    + rewrite vals_app. cbn [vals map option_map]. congruence.
    + apply kept_new. eauto.
  - (* NewCopy *) subst S. apply sget_walk in Hb. destruct Hb as (l & xb & W & V). cbn [exec]. unfold seqm. rewrite (locate_ok _ _ _ _ _ _ H W), (read_ok _ _ _ _ _ _ H W).
    destruct (copy_at _ _ _ _ _ _ H W) as (s1 & y & E1 & V1 & H1). rewrite E1. destruct (push_slot_ok _ _ _ _ H1) as (s2 & E2 & H2). rewrite E2.
    exists s2, (G ++ [Some y]). split; [reflexivity|]. split; [assumption|]. split.
    + rewrite vals_app. cbn [vals map option_map]. congruence.
    + apply kept_new. eauto.
  - (* NewMove *) subst S. apply sget_walk in Hb. destruct Hb as (l & xb & W & V). cbn [exec]. unfold seqm. rewrite (locate_ok _ _ _ _ _ _ H W).
    destruct (move_from_ok _ _ _ _ _ _ H W) as (s1 & E1 & H1). rewrite E1. destruct (push_slot_ok _ _ _ _ H1) as (s2 & E2 & H2). rewrite E2.
    exists s2, (fput G b GNull ++ [Some xb]). split; [reflexivity|]. split; [assumption|]. split.
    + rewrite vals_app. cbn [vals map option_map]. fold (vals (fput G b GNull)).
      rewrite (sset_to _ _ _ _ _ _ GNull W Hs eq_refl). congruence.
    + eapply kept_new_move; [exact W|]. apply map_length.
  - (* CopyTo *) subst S. apply sget_walk in Ha. destruct Ha as (la & xa & Wa & Va). apply sget_walk in Hb. destruct Hb as (lb & xb & Wb & Vb).
    cbn [exec]. unfold seqm. rewrite (locate_ok _ _ _ _ _ _ H Wa), (locate_ok _ _ _ _ _ _ H Wb). destruct (place_dec a b) as [<-|D].
    + rewrite Wa in Wb. injection Wb as <- <-. rewrite copy_self. exists s, G. split; [reflexivity|]. split; [assumption|]. split; [|eapply kept_self; auto].
      rewrite <- (fput_same _ _ _ _ Wa). eapply sset_to; eassumption.
    + destruct (copy_over _ _ _ _ _ _ _ _ _ H Wa Wb D) as (s1 & y' & E1 & V1 & H1 & Fr). rewrite E1. exists s1, (fput G a y'). split; [reflexivity|]. split; [assumption|].
      split; [eapply sset_to; [eassumption|eassumption|congruence]|]. eapply kept_over; eauto.
  - (* MoveTo self *) subst S. apply sget_walk in Ha. destruct Ha as (la & xa & Wa & Va). cbn [exec]. unfold seqm.
    rewrite (locate_ok _ _ _ _ _ _ H Wa), (locate_ok _ _ _ _ _ _ H Wa), assign_move_self. exists s, G. split; [reflexivity|]. split; [assumption|]. split; [reflexivity|]. eapply kept_self. auto.
  - (* MoveTo *) subst S. apply sget_walk in Ha. destruct Ha as (la & xa & Wa & Va). apply sget_walk in Hb. destruct Hb as (lb & xb & Wb & Vb).
    cbn [exec]. unfold seqm. rewrite (locate_ok _ _ _ _ _ _ H Wa), (locate_ok _ _ _ _ _ _ H Wb).
    destruct (assign_move_ok _ _ _ _ _ _ _ _ _ H Wa Wb Nb) as (s1 & E1 & H1). rewrite E1. exists s1, (fput (fput G b GNull) a xb). split; [reflexivity|]. split; [assumption|].
    rewrite (sset_to _ _ _ _ _ _ GNull Wb Hs1 eq_refl) in Hs2.
    assert (Wa' : exists l' x', fwalk (fput G b GNull) a = Some (l', x')).
    { destruct (fapart_or _ _ Nb) as [P|(t & _ & ->)].
      - rewrite fwalk_put_apart by (apply fapart_sym; assumption). eauto.
      - erewrite fwalk_put_below by eassumption. eauto. }
    destruct Wa' as (l' & x' & Wa'). split; [eapply sset_to; [eassumption|eassumption|congruence]|].
    eapply kept_move; [exact Nab|exact Wb|exact Wa'|]. exact (move_frees _ _ _ _ _ _ _ _ _ _ H Wb Wa' H1).
  - (* Swap self *) subst S. apply sget_walk in Ha. destruct Ha as (la & xa & Wa & Va). cbn [exec]. unfold seqm.
    rewrite (locate_ok _ _ _ _ _ _ H Wa), (locate_ok _ _ _ _ _ _ H Wa), (swap_self _ _ _ _ _ _ H Wa). exists s, G. split; [reflexivity|]. split; [assumption|]. split; [reflexivity|]. eapply kept_self. auto.
  - (* Swap *) subst S. apply sget_walk in Ha. destruct Ha as (la & xa & Wa & Va). apply sget_walk in Hb. destruct Hb as (lb & xb & Wb & Vb).
    destruct (places a b) as [P|[P|P]]; [|contradiction|contradiction].
    cbn [exec]. unfold seqm. rewrite (locate_ok _ _ _ _ _ _ H Wa), (locate_ok _ _ _ _ _ _ H Wb).
    destruct (swap_ok _ _ _ _ _ _ _ _ _ H Wa Wb P) as (s1 & E1 & H1). rewrite E1. exists s1, (fput (fput G a xb) b xa). split; [reflexivity|]. split; [assumption|]. split.
    + rewrite (sset_to _ _ _ _ _ _ xb Wa Hs1 Vb) in Hs2. rewrite <- (fwalk_put_apart G a b xb P) in Wb. eapply sset_to; [eassumption|eassumption|congruence].
    + eapply kept_swap; eassumption.
  - (* SetTo *) subst S. apply sget_walk in Ha. destruct Ha as (la & xa & Wa & Va). cbn [exec]. unfold seqm. rewrite (locate_ok _ _ _ _ _ _ H Wa).
    destruct (new_over i _ _ _ _ _ _ H Wa) as (s1 & y1 & E1 & V1 & H1 & Fr). rewrite E1. exists s1, (fput G a y1). split; [reflexivity|]. split; [assumption|].
    split; [eapply sset_to; eassumption|]. eapply kept_over; eauto.
  - (* ReplaceBy *) subst S. apply sget_walk in Ha. destruct Ha as (la & xa & Wa & Va). cbn [exec]. unfold seqm. rewrite (locate_ok _ _ _ _ _ _ H Wa).
    destruct (replace_over i _ _ _ _ _ _ H Wa) as (s1 & y1 & E1 & V1 & H1 & Fr). rewrite E1. exists s1, (fput G a y1). split; [reflexivity|]. split; [assumption|].
    split; [eapply sset_to; eassumption|]. eapply kept_over; eauto.
  - (* PushCopy *) subst S. apply sget_walk in Ha. destruct Ha as (la & xa & Wa & Va). apply sget_walk in Hb. destruct Hb as (lb & xb & Wb & Vb). rewrite <- Va in Al.
    destruct (push_head _ _ _ _ _ _ _ H Wa Al) as (s1 & q & g & gl & -> & Xa & H1 & E1).
    cbn [exec]. unfold seqm at 1 2 3. rewrite (locate_ok _ _ _ _ _ _ H Wa), (locate_ok _ _ _ _ _ _ H Wb), E1.
    rewrite (sset_to _ _ _ _ _ _ (GArr q g gl) Wa Hs1 eq_refl) in *. clear Hs1.
    destruct (fwalk_settle _ _ _ _ _ _ _ q g gl Wa Wb Xa) as (xb' & Wb').
    apply sget_walk in Hb1. destruct Hb1 as (lb2 & xb2 & Wb2 & Vb2). rewrite Wb' in Wb2. injection Wb2 as E2 E3. subst lb2 xb2.
    unfold seqm. rewrite (read_ok _ _ _ _ _ _ H1 Wb'). destruct (copy_at _ _ _ _ _ _ H1 Wb') as (s2 & y2 & E2 & V2 & H2). rewrite E2.
    pose proof (fwalk_put_same _ _ (GArr q g gl) _ _ Wa) as Wa'.
    destruct (push_tail_ok _ _ _ _ _ _ _ _ _ H2 Wa') as (s3 & E3 & H3). rewrite E3.
    assert (Es : S' = vals (fput (fput G a (GArr q g gl)) a (GArr q (Datatypes.S g) (gl ++ [y2])))).
    { eapply sset_to; [eassumption|eassumption|]. cbn [val_of]. rewrite map_app. cbn [map]. congruence. }
    rewrite (fput_fput_same _ _ _ _ _ _ Wa) in H3, Es.
    eexists _, _. split; [reflexivity|]. split; [exact H3|]. split; [exact Es|]. eapply kept_push; eauto.
  - (* PushMove *) pose proof Ha as Ha0. pose proof Al as Al0. subst S. apply sget_walk in Ha. destruct Ha as (la & xa & Wa & Va). apply sget_walk in Hb. destruct Hb as (lb & xb & Wb & Vb). rewrite <- Va in Al.
    destruct (push_head _ _ _ _ _ _ _ H Wa Al) as (s1 & q & g & gl & -> & Xa & H1 & E1).
    cbn [exec]. unfold seqm at 1 2 3. rewrite (locate_ok _ _ _ _ _ _ H Wa), (locate_ok _ _ _ _ _ _ H Wb), E1.
    rewrite (sset_to _ _ _ _ _ _ GNull Wb Hs1 eq_refl) in *. clear Hs1.
    assert (K : exists gl1, l1 = map val_of gl1 /\ fwalk (fput (fput G a (GArr q g gl)) b GNull) a = Some (la, GArr q g gl1) /\
                fwalk (fput G a (GArr q g gl)) b = Some (lb, xb) /\
                (exists l' x', fwalk (fput G b GNull) a = Some (l', x') /\ (x' = GNull \/ x' = GArr q g gl1)) /\ length gl1 = length gl /\
                forall z, fput (fput (fput G a (GArr q g gl)) b GNull) a z = fput (fput G b GNull) a z).
    { destruct (fapart_or _ _ Nb) as [P|(t & Nt & ->)].
      - exists gl. assert (Wa1 : fwalk (fput G b GNull) a = Some (la, xa)) by (rewrite fwalk_put_apart by (apply fapart_sym; assumption); assumption).
        split.
        + apply sget_walk in Ha1. destruct Ha1 as (l2 & x2 & W2 & V2). rewrite Wa1 in W2. injection W2 as _ <-. rewrite V2 in Al.
          clear -Al Al1. inversion Al; subst; inversion Al1; subst; congruence.
        + split; [rewrite fwalk_put_apart by (apply fapart_sym; assumption); apply (fwalk_put_same _ _ _ _ _ Wa)|].
          split; [rewrite fwalk_put_apart by assumption; assumption|]. split; [eauto|]. split; [reflexivity|]. intro z.
          rewrite (fput_fput_apart _ _ _ _ _ P). eapply fput_fput_same. eassumption.
      - destruct Xa as [->| ->].
        + rewrite (fwalk_ext _ _ _ _ _ Wa) in Wb. destruct t as [|s0 t]; [congruence|]. destruct s0; discriminate.
        + rewrite (fput_same _ _ _ _ Wa). pose proof (fwalk_put_below G a t GNull _ _ Wa) as Wa1.
          assert (X : exists gl1, gput t GNull (GArr q g gl) = GArr q g gl1 /\ length gl1 = length gl).
          { destruct t as [|[i|k] t]; [congruence| |]; cbn [gput]; [|eauto]. destruct (nth_error gl (N.to_nat i)); [|eauto]. eexists. split; [reflexivity|]. apply length_set. }
          destruct X as (gl1 & X & Lx). rewrite X in Wa1. exists gl1. split.
          * apply sget_walk in Ha1. destruct Ha1 as (l2 & x2 & W2 & V2). rewrite Wa1 in W2. injection W2 as _ <-. rewrite <- V2 in Al1. inversion Al1. reflexivity.
          * split; [assumption|]. split; [assumption|]. split; [eauto|]. split; [assumption|reflexivity]. }
    destruct K as (gl1 & -> & K1 & K2 & (l' & x' & K3 & K5) & Lx & K4).
    destruct (move_from_ok _ _ _ _ _ _ H1 K2) as (s2 & E2 & H2). unfold seqm. rewrite E2.
    destruct (push_tail_ok _ _ _ _ _ _ _ _ _ H2 K1) as (s3 & E3 & H3). rewrite E3. eexists _, _. split; [reflexivity|]. rewrite K4 in H3. split; [exact H3|]. split.
    + eapply sset_to; [eassumption|eassumption|]. cbn [val_of]. rewrite map_app. cbn [map]. congruence.
    + eapply kept_push_move; [reflexivity|exact Wb|exact K3|exact Ha0|exact Al0|rewrite map_length; symmetry; exact Lx|exact K5|exact H3].
  - (* PushNew *) subst S. apply sget_walk in Ha. destruct Ha as (la & xa & Wa & Va). rewrite <- Va in Al.
    cbn [exec]. unfold seqm at 1. rewrite (locate_ok _ _ _ _ _ _ H Wa). unfold seqm at 1.
    destruct (construct_ok i _ _ _ H) as (s1 & z & E1 & V1 & H1). rewrite E1. unfold seqm at 1.
    destruct (with_temp_ok unit (fun t => push_back la (move_from t)) s1 G L z (Ret tt) (fun G' L' => S' = vals G' /\ L' = L /\
      exists q g gl, (xa = GNull \/ xa = GArr q g gl) /\ G' = fput G a (GArr q (Datatypes.S g) (gl ++ [z]))) Logic.I H1) as (s' & G' & L' & E2 & H2 & Q & -> & q & g & gl & Xa & ->).
    + intros s2 H2. pose proof (fwalk_grow _ [Some z] _ _ _ Wa) as Wa2.
      destruct (push_head _ _ _ _ _ _ _ H2 Wa2 Al) as (s3 & q & g & gl & -> & Xa & H3 & E3). rewrite E3.
      pose proof (new_apart _ _ [] _ _ Wa) as P.
      assert (Wt : fwalk (fput (G ++ [Some z]) a (GArr q g gl)) (length G, []) = Some (LSlot (length G), z)) by (rewrite fwalk_put_apart by assumption; apply last_slot).
      destruct (move_from_ok _ _ _ _ _ _ H3 Wt) as (s4 & E4 & H4). unfold seqm. rewrite E4.
      assert (Wa4 : fwalk (fput (fput (G ++ [Some z]) a (GArr q g gl)) (length G, []) GNull) a = Some (la, GArr q g gl)).
      { rewrite fwalk_put_apart by (apply fapart_sym; assumption). eapply fwalk_put_same. eassumption. }
      destruct (push_tail_ok _ _ _ _ _ _ _ _ _ H4 Wa4) as (s5 & E5 & H5). rewrite E5.
      rewrite (fput_fput_apart _ _ _ _ _ (fapart_sym _ _ P)) in H5. rewrite (fput_fput_same _ _ _ _ _ _ Wa2) in H5.
      rewrite (fput_grow _ _ _ _ _ _ Wa) in H5. rewrite <- (length_fput G a (GArr q (Datatypes.S g) (gl ++ [z]))) in H5. rewrite fput_new in H5. cbn [gput] in H5.
      eexists _, _, _, _. split; [reflexivity|]. split; [exact H5|]. split; [|split; [reflexivity|eauto 6]].
      eapply sset_to; [eassumption|eassumption|]. cbn [val_of]. rewrite map_app. cbn [map]. congruence.
    + rewrite E2. eexists _, _. split; [reflexivity|]. split; [exact H2|]. split; [exact Q|]. eapply kept_push; eauto.
  - (* push on a non-array *) pose proof EG as EG0. subst S. apply sget_walk in Ha. destruct Ha as (la & xa & Wa & Va). rewrite <- Va in Na.
    destruct Hc as [(b & x & [-> | ->] & Hb)|[i ->]].
    + apply sget_walk in Hb. destruct Hb as (lb & xb & Wb & Vb). cbn [exec]. unfold seqm at 1 2 3.
      rewrite (locate_ok _ _ _ _ _ _ H Wa), (locate_ok _ _ _ _ _ _ H Wb), (push_bad _ _ _ _ _ _ _ H Wa Na). exists s, G. auto using kept_throw.
    + apply sget_walk in Hb. destruct Hb as (lb & xb & Wb & Vb). cbn [exec]. unfold seqm at 1 2 3.
      rewrite (locate_ok _ _ _ _ _ _ H Wa), (locate_ok _ _ _ _ _ _ H Wb), (push_bad _ _ _ _ _ _ _ H Wa Na). exists s, G. auto using kept_throw.
    + cbn [exec]. unfold seqm at 1. rewrite (locate_ok _ _ _ _ _ _ H Wa). unfold seqm at 1.
      destruct (construct_ok i _ _ _ H) as (s1 & z & E1 & V1 & H1). rewrite E1. unfold seqm at 1.
      destruct (with_temp_ok unit (fun t => push_back la (move_from t)) s1 G L z (Throw push_error) (fun G' L' => G' = G /\ L' = L) Logic.I H1) as (s' & G' & L' & E2 & H2 & -> & ->).
      * intros s2 H2. rewrite (push_bad _ _ _ _ _ _ _ H2 (fwalk_grow _ _ _ _ _ Wa) Na). exists s2, G, z, L. auto.
      * rewrite E2. exists s', G. auto using kept_throw.
  - (* local *) subst S. apply sget_walk in Ha. destruct Ha as (la & xa & Wa & Va). rewrite <- Va in Hf. pose proof (sorted_at _ _ _ _ O Wa) as Sm.
    assert (Th : forall e, r = Throw e -> y' = val_of xa -> exec c s = (s, Throw e) -> exists s' G', exec c s = (s', r) /\ rep s' G' L /\ S' = vals G' /\ kept c (vals G) r s' G G').
    { intros e -> -> E. exists s, G. split; [assumption|]. split; [assumption|]. split; [|apply kept_throw]. rewrite <- (fput_same _ _ _ _ Wa). eapply sset_to; [exact Wa|exact Hs|reflexivity]. }
    destruct c as [| | | | | | | | | | |a0 sl|a0 k|a0 i|a0|]; try discriminate.
    + assert (a0 = a) by (destruct sl; cbn [local] in Hl; congruence). subst a0.
      destruct (sub_at _ _ _ _ _ _ _ _ _ _ H Wa Sm Hl Hf Nr) as [(e & -> & E & Ey)|(s' & l' & z & -> & E & V & H' & Gz & _)].
      * eapply Th; [reflexivity|assumption|]. cbn [exec]. unfold seqm. rewrite (locate_ok _ _ _ _ _ _ H Wa), E. reflexivity.
      * exists s', (fput G a z). split; [cbn [exec]; unfold seqm; rewrite (locate_ok _ _ _ _ _ _ H Wa), E; reflexivity|]. split; [assumption|].
        split; [eapply sset_to; eassumption|]. eapply kept_sub; eauto.
    + cbn [local] in Hl. injection Hl as -> <-. destruct (erase_key_at _ _ _ _ _ _ _ _ _ H Wa Hf) as [(e & -> & E & Ey)|(s' & n & q & m & -> & -> & E & V & H' & Fr)].
      * eapply Th; [reflexivity|assumption|]. cbn [exec]. unfold seqm. rewrite (locate_ok _ _ _ _ _ _ H Wa), E. reflexivity.
      * eexists s', _. split; [cbn [exec]; unfold seqm; rewrite (locate_ok _ _ _ _ _ _ H Wa), E; reflexivity|]. split; [exact H'|].
        split; [eapply sset_to; [eassumption|eassumption|congruence]|]. eapply kept_del_key; eauto.
    + cbn [local] in Hl. injection Hl as -> <-. destruct (erase_idx_at _ _ _ _ _ _ _ _ _ H Wa Hf Nr) as [(e & -> & E & Ey)|(s' & q & n & xs & c & -> & -> & Ec & E & V & H' & Fr)].
      * eapply Th; [reflexivity|assumption|]. cbn [exec]. unfold seqm. rewrite (locate_ok _ _ _ _ _ _ H Wa), E. reflexivity.
      * eexists s', _. split; [cbn [exec]; unfold seqm; rewrite (locate_ok _ _ _ _ _ _ H Wa), E; reflexivity|]. split; [exact H'|].
        split; [eapply sset_to; [eassumption|eassumption|congruence]|]. eapply kept_del_idx; eauto.
    + cbn [local] in Hl. injection Hl as -> <-. cbn [run_op] in Hf. injection Hf as <- <-. destruct (clear_at _ _ _ _ _ _ H Wa) as (s' & z & E & V & H' & Hl).
      exists s', (fput G a z). split; [cbn [exec]; unfold seqm; rewrite (locate_ok _ _ _ _ _ _ H Wa), E; reflexivity|]. split; [exact H'|].
      split; [eapply sset_to; eassumption|]. eapply kept_wipe; eauto.
  - (* End *) assert (X : exists G1 g G2, G = G1 ++ Some g :: G2 /\ vals G1 = S1 /\ vals G2 = S2).
    { clear H O. revert G EG. induction S1 as [|v1 S1 IH]; intros [|g G] EG; cbn [app vals map] in EG; try discriminate.
      - injection EG as E1 E2. destruct g as [g|]; [|discriminate]. exists [], g, G. auto.
      - injection EG as E1 E2. destruct (IH _ E2) as (G1 & g1 & G2 & -> & E3 & E4). exists (g :: G1), g1, G2. split; [reflexivity|]. split; [|assumption].
        cbn [vals map]. fold (vals G1). congruence. }
    destruct X as (G1 & g & G2 & -> & <- & <-). destruct (end_at _ _ _ _ _ H) as (s1 & E1 & H1 & Fr).
    assert (Lv : length (vals G1) = length G1) by apply map_length. cbn [exec]. unfold seqm. rewrite !Lv, E1. exists s1, (G1 ++ None :: G2). split; [reflexivity|]. split; [assumption|].
    split; [rewrite vals_app; reflexivity|]. eapply kept_end; eassumption.
  - (* first place fails *) subst S. pose proof (locate_bad _ _ _ _ _ H Hf) as E. exists s, G. split; [|auto using kept_throw].
    destruct c; cbn [two one] in Hc; destruct Hc as [Hc|Hc]; try discriminate; injection Hc as Hc; try (destruct Hc); subst; cbn [exec]; unfold seqm at 1; rewrite E; reflexivity.
  - (* second place fails *) subst S. apply sget_walk in Ha. destruct Ha as (la & xa & Wa & Va).
    pose proof (locate_ok _ _ _ _ _ _ H Wa) as E0. pose proof (locate_bad _ _ _ _ _ H Hf) as E. exists s, G. split; [|auto using kept_throw].
    destruct c; cbn [two] in Hc; try discriminate; injection Hc as E1 E2; subst; cbn [exec]; unfold seqm at 1; rewrite E0; unfold seqm at 1; rewrite E; reflexivity.
Qed.
