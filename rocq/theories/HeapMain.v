(** From annotated trees back to the statements of SpecHeap. *)
From Coq Require Import Lia Permutation Arith.
From Verif Require Import Base Value ValueOps SpecGrammar SpecText ObjFacts SpecValue ValueProofs Heap SpecHeap HeapGhost HeapPaths HeapOps HeapProofs.
Open Scope nat_scope.

Scheme owns_mut := Induction for owns Sort Prop
  with owns_all_mut := Induction for owns_all Sort Prop.

(** ** rep and holds *)
Definition at_heap (h : list (option block)) (B : list (nat * block)) : Prop := forall q b, In (q, b) B -> nth_error h q = Some (Some b).

Lemma at_heap_app : forall h B C, at_heap h (B ++ C) <-> at_heap h B /\ at_heap h C.
Proof.
  intros h B C. unfold at_heap. split.
  - intro H. split; intros q b I; apply H; apply in_or_app; auto.
  - intros [H1 H2] q b I. apply in_app_or in I. destruct I; auto.
Qed.

Lemma owns_ghost : forall h c v ps, owns h c v ps ->
  exists x, cell_of x = c /\ val_of x = v /\ map fst (blocks x) = ps /\ at_heap h (blocks x).
Proof.
  intros h. apply (owns_mut h
    (fun c v ps _ => exists x, cell_of x = c /\ val_of x = v /\ map fst (blocks x) = ps /\ at_heap h (blocks x))
    (fun cs vs ps _ => exists xs, map cell_of xs = cs /\ map val_of xs = vs /\ map fst (flat_map blocks xs) = ps /\ at_heap h (flat_map blocks xs))).
  - exists GNull. split; [reflexivity|]. split; [reflexivity|]. split; [reflexivity|]. intros q b [].
  - intro b. exists (GBool b). split; [reflexivity|]. split; [reflexivity|]. split; [reflexivity|]. intros q b' [].
  - intro z. exists (GInt z). split; [reflexivity|]. split; [reflexivity|]. split; [reflexivity|]. intros q b' [].
  - intro f. exists (GFlt f). split; [reflexivity|]. split; [reflexivity|]. split; [reflexivity|]. intros q b' [].
  - intros p s E. exists (GStr p s). split; [reflexivity|]. split; [reflexivity|]. split; [reflexivity|]. intros q b [X|[]]. injection X as <- <-. assumption.
  - intros p g cs vs ps E O (xs & C & V & P & H). exists (GArr p g xs). split; [reflexivity|]. split; [cbn [val_of]; congruence|]. split; [cbn [blocks map fst]; congruence|].
    cbn [blocks]. intros q b [X|X]; [injection X as <- <-; congruence|auto].
  - intros p m cs vs ps E Em O (xs & C & V & P & H). exists (GObj p (combine (map fst m) xs)).
    assert (L : length xs = length (map fst m)) by (rewrite map_length; apply (f_equal (@length cell)) in C; rewrite <- Em, !map_length in C; assumption).
    assert (K : forall A (f : gt -> A) (g : str -> A -> str * A), (forall k x, g k x = (k, x)) -> vmap f (combine (map fst m) xs) = combine (map fst m) (map f xs)).
    { intros A f g _. generalize (map fst m) as ks. clear. induction xs as [|x xs IH]; intros [|k ks]; cbn; try reflexivity. f_equal. apply IH. }
    assert (Fm : flat_map (fun kx : str * gt => blocks (snd kx)) (combine (map fst m) xs) = flat_map blocks xs).
    { clear -L. revert L. generalize (map fst m) as ks. induction xs as [|x xs IH]; intros [|k ks] L; cbn in *; try discriminate; [reflexivity|]. f_equal. apply IH. lia. }
    assert (Cm : combine (map fst m) (map cell_of xs) = m).
    { rewrite C, <- Em. clear. induction m as [|[k c] m IH]; cbn; [reflexivity|]. rewrite IH. reflexivity. }
    split; [reflexivity|]. split; [rewrite val_obj, (K _ val_of pair) by reflexivity; congruence|].
    cbn [blocks map fst]. rewrite Fm. split; [congruence|]. rewrite (K _ cell_of pair) by reflexivity. rewrite Cm.
    intros q b [X|X]; [injection X as <- <-; congruence|auto].
  - exists []. split; [reflexivity|]. split; [reflexivity|]. split; [reflexivity|]. intros q b [].
  - intros c cs v vs ps qs O1 (x & C1 & V1 & P1 & H1) O2 (xs & C2 & V2 & P2 & H2). exists (x :: xs). cbn [map flat_map].
    split; [congruence|]. split; [congruence|]. split; [rewrite map_app; congruence|]. apply at_heap_app. auto.
Qed.

Lemma holds_rep : forall s S, holds s S -> exists G, rep s G [] /\ S = vals G.
Proof.
  intros s S (ps & O & Nd & Hl).
  assert (K : exists G, env s = cells G /\ S = vals G /\ map fst (fblocks G) = ps /\ at_heap (heap s) (fblocks G)).
  { clear Nd Hl. induction O as [|e S ps O (G & E1 & E2 & E3 & E4)|c v e S ps qs Oc O (G & E1 & E2 & E3 & E4)].
    - exists []. split; [reflexivity|]. split; [reflexivity|]. split; [reflexivity|]. intros q b [].
    - exists (None :: G). cbn. split; [rewrite E1; reflexivity|]. split; [rewrite E2; reflexivity|]. auto.
    - apply owns_ghost in Oc. destruct Oc as (x & C & V & P & H). exists (Some x :: G). cbn. split; [rewrite E1, C; reflexivity|]. split; [rewrite E2, V; reflexivity|].
      split; [rewrite map_app; unfold fblocks in E3; congruence|]. apply at_heap_app. auto. }
  destruct K as (G & E1 & E2 & E3 & E4). exists G. split; [|assumption]. split; [assumption|]. cbn [lblocks flat_map]. rewrite app_nil_r.
  split; [congruence|]. intros q b. split; [|apply E4]. intro H. assert (Lv : live s q) by (exists b; assumption). apply Hl in Lv. rewrite <- E3 in Lv.
  apply in_map_iff in Lv. destruct Lv as ([q' b'] & X & I). cbn [fst] in X. subst q'. pose proof (E4 _ _ I) as Y. rewrite H in Y. injection Y as <-. assumption.
Qed.

Lemma ghost_owns : forall h x, at_heap h (blocks x) -> owns h (cell_of x) (val_of x) (map fst (blocks x)).
Proof.
  intros h x. induction x as [|b|z|f|p s|p g l IH|p m IH] using gt_deep; intro H; cbn [cell_of val_of blocks map fst]; try constructor.
  - apply H. left. reflexivity.
  - apply ow_arr with (g := g) (cs := map cell_of l); [apply H; left; reflexivity|].
    assert (H1 : at_heap h (flat_map blocks l)) by (intros q b I; apply H; right; assumption). clear H.
    induction IH as [|y l Hy IH IHl]; cbn [map flat_map]; [constructor|]. cbn [flat_map] in H1. apply at_heap_app in H1. destruct H1 as [H1 H2].
    rewrite map_app. constructor; auto.
  - assert (E : map (fun kx : str * gt => (fst kx, val_of (snd kx))) m = combine (map fst (vmap cell_of m)) (map (fun kx => val_of (snd kx)) m)).
    { rewrite vmap_fst. clear. induction m as [|[k x] m IH]; cbn; [reflexivity|]. rewrite IH. reflexivity. }
    rewrite E. apply ow_obj with (cs := map (fun kx => cell_of (snd kx)) m); [apply H; left; reflexivity|unfold vmap; rewrite map_map; reflexivity|].
    assert (H1 : at_heap h (flat_map (fun kx => blocks (snd kx)) m)) by (intros q b I; apply H; right; assumption). clear H E.
    induction IH as [|y l Hy IH IHl]; cbn [map flat_map]; [constructor|]. cbn [flat_map] in H1. apply at_heap_app in H1. destruct H1 as [H1 H2].
    rewrite map_app. constructor; auto.
Qed.

Lemma rep_holds : forall s G, rep s G [] -> holds s (vals G).
Proof.
  intros s G [E [Nd H]]. cbn [lblocks flat_map] in *. rewrite app_nil_r in *. exists (map fst (fblocks G)). split; [|split; [assumption|]].
  - rewrite E. assert (A : at_heap (heap s) (fblocks G)) by (intros q b I; apply H; assumption). clear -A.
    induction G as [|[g|] G IH]; cbn [cells vals map option_map fblocks flat_map tblocks] in *; [constructor| |].
    + apply at_heap_app in A. destruct A as [A1 A2]. rewrite map_app. apply oe_live; [apply ghost_owns; assumption|apply IH; assumption].
    + apply oe_dead. apply IH. assumption.
  - intro p. split.
    + intros (b & Hb). apply H in Hb. apply in_map_iff. exists (p, b). auto.
    + intro I. apply in_map_iff in I. destruct I as ([q b] & X & I). cbn [fst] in X. subst. exists b. apply H. assumption.
Qed.

Lemma start_holds : holds start [].
Proof. apply (rep_holds start []). split; [reflexivity|]. split; [constructor|]. intros q b. split; [destruct q; discriminate|intros []]. Qed.

(** ** Steps and runs *)
Lemma heap_step : forall c S S' r s, tstep c S S' r -> holds s S -> exists s', exec c s = (s', r) /\ holds s' S'.
Proof.
  intros c S S' r s T H. apply holds_rep in H. destruct H as (G & H & ->). destruct (step_ok _ _ _ _ T _ _ _ H eq_refl) as (s' & G' & E & H' & ->).
  exists s'. split; [assumption|]. apply rep_holds. assumption.
Qed.

Lemma tstep_ends : forall c S S' r, tstep c S S' r -> (exists a, r = Ret a) \/ (exists e, r = Throw e).
Proof.
  intros c S S' r T. destruct T; eauto.
  destruct c as [| | | | | | | | | | |a0 [i|k]|a0 k|a0 i|a0|]; cbn [local] in *; try discriminate; match goal with H : Some _ = Some _ |- _ => injection H as <- <- end.
  - cbn [via1] in *. unfold via_idx in *. destruct y; cbn [of_type] in *; try (match goal with H : (_, _) = (_, _) |- _ => injection H as <- <- end; eauto);
      match goal with H : in_elem _ _ _ = _ |- _ => apply in_elem_id in H; [|assumption]; destruct H as (_ & -> & _); eauto end.
  - destruct y; cbn [touch] in *; match goal with H : (_, _) = (_, _) |- _ => injection H as <- <- end; eauto.
  - unfold run_op, rmap in *. destruct y; cbn in *; match goal with H : (_, _) = (_, _) |- _ => injection H as <- <- end; eauto.
  - unfold run_op, rmap in *. destruct y; cbn in *; try (match goal with H : (_, _) = (_, _) |- _ => injection H as <- <- end; eauto; fail).
    destruct (i <? len l)%N; cbn in *; match goal with H : (_, _) = (_, _) |- _ => injection H as <- <- end; eauto. congruence.
  - cbn in *. match goal with H : (_, _) = (_, _) |- _ => injection H as <- <- end; eauto.
Qed.

Lemma heap_run : forall cs S S' rs, trun cs S S' rs -> forall s, holds s S -> exists s', exec_all cs s = (s', rs) /\ holds s' S'.
Proof.
  intros cs S S' rs T. induction T as [S|c cs S S1 S' r rs T R IH]; intros s H.
  - exists s. auto.
  - destruct (heap_step _ _ _ _ _ T H) as (s1 & E1 & H1). destruct (IH s1 H1) as (s2 & E2 & H2). exists s2. split; [|assumption].
    cbn [exec_all]. rewrite E1. destruct (tstep_ends _ _ _ _ T) as [[a ->]|[e ->]]; rewrite E2; reflexivity.
Qed.

Lemma no_blocks_left : forall s S p, holds s S -> all_ended S -> ~ live s p.
Proof.
  intros s S p (ps & O & Nd & Hl) A Lv. apply Hl in Lv. assert (X : ps = []).
  { clear -O A. induction O as [|e S ps O IH|c v e S ps qs Oc O IH].
    - reflexivity.
    - apply IH. intros n v. apply (A (Datatypes.S n) v).
    - exfalso. apply (A 0 v). reflexivity. }
  subst. contradiction.
Qed.

Lemma owns_det : forall h c v ps, owns h c v ps -> forall v' ps', owns h c v' ps' -> v = v' /\ ps = ps'.
Proof.
  intro h. apply (owns_mut h
    (fun c v ps _ => forall v' ps', owns h c v' ps' -> v = v' /\ ps = ps')
    (fun cs vs ps _ => forall vs' ps', owns_all h cs vs' ps' -> vs = vs' /\ ps = ps')).
  - intros v' ps' H. inversion H. auto.
  - intros b v' ps' H. inversion H. auto.
  - intros z v' ps' H. inversion H. auto.
  - intros f v' ps' H. inversion H. auto.
  - intros p s E v' ps' H. inversion H as [| | | |p' s' E'| |]; subst. rewrite E in E'. injection E' as <-. auto.
  - intros p g cs vs ps E O IH v' ps' H. inversion H as [| | | | |p' g' cs' vs' qs E' O'|]; subst. rewrite E in E'. injection E' as <- <-.
    destruct (IH _ _ O') as [-> ->]. auto.
  - intros p m cs vs ps E Em O IH v' ps' H. inversion H as [| | | | | |p' m' cs' vs' qs E' Em' O']; subst. rewrite E in E'. injection E' as <-.
    destruct (IH _ _ O') as [-> ->]. auto.
  - intros vs' ps' H. inversion H. auto.
  - intros c cs v vs ps qs O1 IH1 O2 IH2 vs' ps' H. inversion H as [|c' cs' v' vs1 ps1 qs1 O1' O2']; subst.
    destruct (IH1 _ _ O1') as [-> ->]. destruct (IH2 _ _ O2') as [-> ->]. auto.
Qed.

Lemma holds_unique : forall s S S', holds s S -> holds s S' -> S = S'.
Proof.
  intros s S S' (ps & O & _) (qs & O' & _). revert S' qs O'. induction O as [|e S ps O IH|c v e S ps qs Oc O IH]; intros S' qs' O'; inversion O'; subst.
  - reflexivity.
  - f_equal. eapply IH. eassumption.
  - match goal with H : owns _ c _ _ |- _ => destruct (owns_det _ _ _ _ Oc _ _ H) as [-> _] end. f_equal. eapply IH. eassumption.
Qed.

(** ** Nothing is missing from the rules *)
Lemma sget_or : forall S a, alive S (fst a) -> (exists x, sget S a x) \/ (exists e, sfail S a e).
Proof.
  intros S a (v & N).
  assert (K : forall p v, (exists x, tget p v x) \/ (exists e, snd (via (map at_acc p) (fun x => (x, Ret x)) v) = Throw e)).
  { clear. induction p as [|sl p IH]; intro v; [left; exists v; constructor|]. destruct sl as [i|k]; cbn [map at_acc via via1].
    - destruct v as [|z|f|s0|l|m|b0]; cbn [via_at_idx snd]; eauto.
      destruct (len l <=? i)%N eqn:E; cbn [snd]; [eauto|]. apply N.leb_gt in E. unfold len in E. unfold in_elem.
      destruct (nth_error l (N.to_nat i)) as [c|] eqn:En; [|apply nth_error_None in En; lia].
      destruct (IH c) as [(x & T)|(e & T)].
      + left. exists x. apply nth_error_split in En. destruct En as (l1 & l2 & -> & Ln). apply tg_idx; [congruence|assumption].
      + right. exists e. destruct (via _ _ c) as [v' o]. exact T.
    - destruct v as [|z|f|s0|l|m|b0]; cbn [via_at_key snd]; eauto.
      destruct (obj_find k m) as [c|] eqn:En; [|cbn [snd]; eauto]. unfold in_member. rewrite En.
      destruct (IH c) as [(x & T)|(e & T)].
      + left. exists x. apply find_split in En. destruct En as (m1 & m2 & -> & Nk). apply tg_key; assumption.
      + right. exists e. destruct (via _ _ c) as [v' o]. exact T. }
  destruct (K (snd a) v) as [(x & T)|(e & T)].
  - left. exists x, v. auto.
  - right. exists e, v. auto.
Qed.

(** every store is held by some memory: sget and sset through forests *)
Fixpoint ghost (v : value) : gt :=
  match v with
  | VNull => GNull | VBool b => GBool b | VInt z => GInt z | VFloat f => GFlt f
  | VStr s => GStr 0 s
  | VArr l => GArr 0 0 (map ghost l)
  | VObj m => GObj 0 (map (fun kx => (fst kx, ghost (snd kx))) m)
  end.

Lemma val_ghost : forall v, val_of (ghost v) = v.
Proof.
  induction v as [| | | | |l IH|m IH] using value_deep; try reflexivity; cbn [ghost val_of]; f_equal; rewrite map_map.
  - induction l as [|x l IHl]; cbn; [reflexivity|]. rewrite IH by (left; reflexivity). f_equal. apply IHl. intros y I. apply IH. right. assumption.
  - induction m as [|[k x] m IHm]; cbn; [reflexivity|]. rewrite (IH k x) by (left; reflexivity). f_equal. apply IHm. intros k' y I. apply (IH k'). right. assumption.
Qed.

Lemma store_forest : forall S, exists G, S = vals G.
Proof.
  intro S. exists (map (option_map ghost) S). unfold vals. rewrite map_map. induction S as [|[v|] S IH]; cbn; [reflexivity| |]; rewrite <- IH.
  - rewrite val_ghost. reflexivity.
  - reflexivity.
Qed.

Lemma sset_ex : forall G a l x y, fwalk G a = Some (l, x) -> sset (vals G) a y (vals (fput G a (ghost y))).
Proof. intros G a l x y W. rewrite <- (val_ghost y) at 1. eapply walk_sset. eassumption. Qed.

Lemma as_array_dec : forall y, (exists l, as_array y l) \/ (forall l, ~ as_array y l).
Proof. intros []; try (right; intros l' H; inversion H; fail); left; eexists; constructor. Qed.

Lemma covered : forall c S, sane c S -> exists S' r, tstep c S S' r.
Proof.
  intros c S H.
  assert (One : forall a, one c = Some a -> alive S (fst a) -> (forall x, sget S a x -> exists S' r, tstep c S S' r) -> exists S' r, tstep c S S' r).
  { intros a E A K. destruct (sget_or _ _ A) as [(x & Hx)|(e & He)]; [eauto|]. exists S, (Throw e). eapply t_bad_first; [right; eassumption|eassumption]. Unshelve. exact a. }
  assert (Two : forall a b, two c = Some (a, b) -> alive S (fst a) -> alive S (fst b) ->
                  (forall x y, sget S a x -> sget S b y -> exists S' r, tstep c S S' r) -> exists S' r, tstep c S S' r).
  { intros a b E A B K. destruct (sget_or _ _ A) as [(x & Hx)|(e & He)].
    - destruct (sget_or _ _ B) as [(y & Hy)|(e & He)]; [eauto|]. exists S, (Throw e). eapply t_bad_second; eassumption.
    - exists S, (Throw e). eapply t_bad_first; [left; eassumption|eassumption]. }
  assert (Set1 : forall a x y, sget S a x -> exists S', sset S a y S').
  { intros a x y Hx. destruct (store_forest S) as [G ->]. apply sget_walk in Hx. destruct Hx as (l & gx & W & _). eexists. eapply sset_ex. eassumption. }
  assert (Loc : forall a f, local c = Some (a, f) -> one c = Some a -> alive S (fst a) -> (forall x, sget S a x -> snd (f x) <> UB) -> exists S' r, tstep c S S' r).
  { intros a f E E1 A K. apply (One a E1 A). intros x Hx. destruct (f x) as [y' r] eqn:Ef. destruct (Set1 a x y' Hx) as (S' & Hs). exists S', r.
    eapply t_local; try eassumption. specialize (K x Hx). rewrite Ef in K. exact K. }
  destruct c as [i|b|b|a b|a b|a b|a i|a i|a b|a b|a i|a [i|k]|a k|a i|a|n]; cbn [sane] in H.
  - eexists _, _. constructor.
  - apply (One b eq_refl H). intros x Hx. eexists _, _. econstructor. eassumption.
  - apply (One b eq_refl H). intros x Hx. destruct (Set1 b x VNull Hx) as (S1 & Hs). eexists _, _. econstructor; eassumption.
  - destruct H as [A B]. apply (Two a b eq_refl A B). intros x y Hx Hy. destruct (Set1 a x y Hx) as (S1 & Hs). eexists _, _. eapply t_copy; eassumption.
  - destruct H as (A & B & N). apply (Two a b eq_refl A B). intros x y Hx Hy. destruct (place_dec a b) as [<-|D]; [eexists _, _; eapply t_move_self; eassumption|].
    assert (Nb : ~ below b a) by (destruct N; [contradiction|assumption]).
    destruct (store_forest S) as [G ->]. pose proof Hx as Hx'. pose proof Hy as Hy'. apply sget_walk in Hx'. destruct Hx' as (la & gx & Wa & _). apply sget_walk in Hy'. destruct Hy' as (lb & gy & Wb & _).
    assert (Wa' : exists l' x', fwalk (fput G b (ghost VNull)) a = Some (l', x')).
    { destruct (fapart_or _ _ Nb) as [P|(t & _ & ->)].
      - rewrite fwalk_put_apart by (apply fapart_sym; assumption). eauto.
      - erewrite fwalk_put_below by eassumption. eauto. }
    destruct Wa' as (l' & x' & Wa'). eexists _, _. eapply t_move; [assumption|assumption|exact Hx|exact Hy|eapply sset_ex; eassumption|eapply sset_ex; eassumption].
  - destruct H as (A & B & N). apply (Two a b eq_refl A B). intros x y Hx Hy. destruct (place_dec a b) as [<-|D]; [eexists _, _; eapply t_swap_self; eassumption|].
    destruct N as [N|[N1 N2]]; [contradiction|]. destruct (places a b) as [P|[P|P]]; [|contradiction|contradiction].
    destruct (store_forest S) as [G ->]. pose proof Hx as Hx'. pose proof Hy as Hy'. apply sget_walk in Hx'. destruct Hx' as (la & gx & Wa & _). apply sget_walk in Hy'. destruct Hy' as (lb & gy & Wb & _).
    eexists _, _. eapply t_swap; [assumption|assumption|exact Hx|exact Hy|eapply sset_ex; eassumption|]. eapply sset_ex. rewrite fwalk_put_apart by assumption. eassumption.
  - apply (One a eq_refl H). intros x Hx. destruct (Set1 a x (init_value i) Hx) as (S1 & Hs). eexists _, _. eapply t_set; eassumption.
  - apply (One a eq_refl H). intros x Hx. destruct (Set1 a x (init_value i) Hx) as (S1 & Hs). eexists _, _. eapply t_replace; eassumption.
  - destruct H as [A B]. apply (Two a b eq_refl A B). intros x y Hx Hy. destruct (as_array_dec x) as [[l Al]|Na].
    + destruct (store_forest S) as [G ->]. pose proof Hx as Hx'. pose proof Hy as Hy'. apply sget_walk in Hx'. destruct Hx' as (la & gx & Wa & Vx). apply sget_walk in Hy'. destruct Hy' as (lb & gy & Wb & _).
      assert (K : exists G1, sset (vals G) a (VArr l) (vals G1) /\ (exists lb' gy', fwalk G1 b = Some (lb', gy')) /\ exists la' gx', fwalk G1 a = Some (la', gx')).
      { assert (X : exists q g gl, l = map val_of gl /\ (gx = GNull \/ gx = GArr q g gl)).
        { rewrite <- Vx in Al. destruct gx; inversion Al; subst; eauto 10. exists 0, 0, []. auto. }
        destruct X as (q & g & gl & -> & X). exists (fput G a (GArr q g gl)). split; [apply (walk_sset _ _ _ _ (GArr q g gl) Wa)|].
        split; [|erewrite fwalk_put_same by eassumption; eauto]. destruct (fwalk_settle _ _ _ _ _ _ _ q g gl Wa Wb X) as (xb' & E). eauto. }
      destruct K as (G1 & Hs1 & (lb' & gy' & W1) & (la' & gx' & W2)).
      eexists _, _. eapply t_push_copy; [exact Hx|exact Al|exact Hy|exact Hs1|eapply walk_sget; exact W1|eapply sset_ex; exact W2].
    + eexists _, _. eapply t_push_bad; [exact Hx|exact Na|]. left. exists b, y. auto.
  - destruct H as (A & B & Nb). apply (Two a b eq_refl A B). intros x y Hx Hy. destruct (as_array_dec x) as [[l Al]|Na].
    + destruct (store_forest S) as [G ->]. pose proof Hx as Hx'. pose proof Hy as Hy'. apply sget_walk in Hx'. destruct Hx' as (la & gx & Wa & Vx). apply sget_walk in Hy'. destruct Hy' as (lb & gy & Wb & _).
      assert (K : exists gx', fwalk (fput G b (ghost VNull)) a = Some (la, gx') /\ exists l', as_array (val_of gx') l').
      { rewrite <- Vx in Al. destruct (fapart_or _ _ Nb) as [P|(t & Nt & ->)].
        - rewrite fwalk_put_apart by (apply fapart_sym; assumption). eauto.
        - erewrite fwalk_put_below by eassumption. eexists. split; [reflexivity|].
          destruct gx; inversion Al; subst; destruct t as [|[i|k] t]; try congruence; cbn [gput]; try (eexists; constructor; fail).
          destruct (nth_error l0 (N.to_nat i)); eexists; constructor. }
      destruct K as (gx' & W1 & l' & Al'). eexists _, _. eapply t_push_move; [exact Hx|exact Al|exact Hy|exact Nb|eapply sset_ex; eassumption|eapply walk_sget; exact W1|exact Al'|eapply sset_ex; exact W1].
    + eexists _, _. eapply t_push_bad; [exact Hx|exact Na|]. left. exists b, y. auto.
  - apply (One a eq_refl H). intros x Hx. destruct (as_array_dec x) as [[l Al]|Na].
    + destruct (Set1 a x (VArr (l ++ [init_value i])) Hx) as (S1 & Hs). eexists _, _. eapply t_push_new; eassumption.
    + eexists _, _. eapply t_push_bad; [exact Hx|exact Na|]. right. eauto.
  - destruct H as [A Hi]. apply (Loc a _ eq_refl eq_refl A). intros x Hx. cbn [via1]. unfold via_idx.
    assert (Hg : forall l, snd (in_elem i (fun x : value => (x, Ret RUnit)) (if (len l <=? i)%N then l ++ repeat VNull (N.to_nat (u64 (i + 18446744073709551616 - len l + 1))) else l)) <> UB).
    { intros l. unfold in_elem. match goal with |- snd match ?e with _ => _ end <> _ => destruct e as [c|] eqn:E; [cbn; discriminate|] end. exfalso.
      apply nth_error_None in E. destruct (len l <=? i)%N eqn:El; unfold len in *.
      - apply N.leb_le in El. rewrite app_length, repeat_length in E. unfold u64 in E.
        replace (i + 18446744073709551616 - N.of_nat (length l) + 1)%N with ((i - N.of_nat (length l) + 1) + 1 * 18446744073709551616)%N in E by lia.
        rewrite N.mod_add in E by discriminate. rewrite N.mod_small in E by lia. lia.
      - apply N.leb_gt in El. lia. }
    destruct x; cbn [of_type]; try (cbn; discriminate); apply Hg.
  - apply (Loc a _ eq_refl eq_refl H). intros x Hx. destruct x; cbn; discriminate.
  - apply (Loc a _ eq_refl eq_refl H). intros x Hx. destruct x; cbn; discriminate.
  - destruct H as [A Hi]. apply (Loc a _ eq_refl eq_refl A). intros x Hx. destruct x as [|z|f|s0|l|m|b0]; try (cbn; discriminate). cbn [run_op v_erase_idx rmap].
    specialize (Hi l Hx). apply N.ltb_lt in Hi. rewrite Hi. cbn. discriminate.
  - apply (Loc a _ eq_refl eq_refl H). intros x Hx. cbn. discriminate.
  - destruct H as (v & N). apply nth_error_split in N. destruct N as (S1 & S2 & -> & <-). eexists _, _. constructor.
Qed.

Lemma sane_run : forall cs S, sane_prog cs S -> exists S' rs, trun cs S S' rs.
Proof.
  induction cs as [|c cs IH]; intros S H.
  - exists S, []. constructor.
  - destruct H as [H1 H2]. destruct (covered _ _ H1) as (S1 & r & T). destruct (IH S1 (H2 _ _ T)) as (S' & rs & R). exists S', (r :: rs). econstructor; eassumption.
Qed.

Lemma history_ok : forall cs s S, holds s S -> sane_prog cs S -> exists s' S' rs, exec_all cs s = (s', rs) /\ trun cs S S' rs /\ holds s' S' /\
  (forall r, In r rs -> (exists a, r = Ret a) \/ (exists e, r = Throw e)).
Proof.
  intros cs s S H P. destruct (sane_run _ _ P) as (S' & rs & R). destruct (heap_run _ _ _ _ R _ H) as (s' & E & H'). exists s', S', rs.
  split; [assumption|]. split; [assumption|]. split; [assumption|]. clear -R. induction R as [|c cs S S1 S' r rs T R IH]; intros r' [].
  - subst. eapply tstep_ends. eassumption.
  - auto.
Qed.

(** ** Frame *)
Lemma sset_other : forall S a y S' n, sset S a y S' -> fst a <> n -> nth_error S' n = nth_error S n.
Proof.
  intros S a y S' n (S1 & v & v' & S2 & -> & L & _ & ->) D. rewrite <- L in D.
  destruct (lt_dec n (length S1)) as [Lt|Ge].
  - rewrite !nth_error_app1 by assumption. reflexivity.
  - rewrite !nth_error_app2 by lia. destruct (n - length S1) as [|d] eqn:E; [lia|]. reflexivity.
Qed.

Lemma sset_length : forall S a y S', sset S a y S' -> length S' = length S.
Proof. intros S a y S' (S1 & v & v' & S2 & -> & L & _ & ->). rewrite !app_length. reflexivity. Qed.

Lemma local_var : forall c a f n, local c = Some (a, f) -> ~ In n (changes c) -> fst a <> n.
Proof. intros c a f n H N. destruct c as [| | | | | | | | | | |a0 [i|k]|a0 k|a0 i|a0|]; cbn in *; try discriminate; injection H as <- <-; auto. Qed.

Lemma frame_step : forall c S S' r n, tstep c S S' r -> n < length S -> ~ In n (changes c) -> nth_error S' n = nth_error S n /\ length S <= length S'.
Proof.
  intros c S S' r n T L N. destruct T; cbn [changes In fst] in N; auto;
    repeat match goal with H : sset _ _ _ _ |- _ => pose proof (sset_length _ _ _ _ H); pose proof (fun D => sset_other _ _ _ _ n H D); clear H end.
  all: try (rewrite nth_error_app1 by assumption; rewrite app_length; cbn; split; [reflexivity|lia]).
  - rewrite nth_error_app1 by lia. rewrite app_length. cbn. split; [|lia]. intuition congruence.
  - split; [|lia]. intuition congruence.
  - split; [|lia]. intuition congruence.
  - split; [|lia]. intuition congruence.
  - split; [|lia]. intuition congruence.
  - split; [|lia]. intuition congruence.
  - split; [|lia]. intuition congruence.
  - split; [|lia]. intuition congruence.
  - split; [|lia]. intuition congruence.
  - pose proof (local_var _ _ _ _ H N). split; [|lia]. intuition congruence.
  - split; [|rewrite !app_length; cbn; lia]. assert (D : length S1 <> n) by tauto.
    destruct (lt_dec n (length S1)) as [Lt|Ge].
    + rewrite !nth_error_app1 by assumption. reflexivity.
    + rewrite !nth_error_app2 by lia. destruct (n - length S1) as [|d] eqn:E; [lia|]. reflexivity.
Qed.

Lemma frame_run : forall cs S S' rs n, trun cs S S' rs -> n < length S -> (forall c, In c cs -> ~ In n (changes c)) -> nth_error S' n = nth_error S n.
Proof.
  intros cs S S' rs n R. induction R as [|c cs S S1 S' r rs T R IH]; intros L N; [reflexivity|].
  destruct (frame_step _ _ _ _ _ T L (N c (or_introl eq_refl))) as [E Le]. rewrite <- E. apply IH; [lia|]. intros c' I. apply N. right. assumption.
Qed.

(** ** Single commands, read back from the store *)
Lemma sget_fun : forall S a x y, sget S a x -> sget S a y -> x = y.
Proof. intros S a x y (v & N & H) (w & M & K). rewrite N in M. injection M as <-. eapply tget_fun; eassumption. Qed.

Lemma separate_fapart : forall a b, separate a b -> fapart a b.
Proof. intros a b [H1 H2]. destruct (places a b) as [H|[H|H]]; [assumption|contradiction|contradiction]. Qed.

Lemma get_put_same : forall S a y S', sset S a y S' -> sget S' a y.
Proof.
  intros S a y S' (S1 & v & v' & S2 & -> & L & T & ->). exists v'. split; [rewrite <- L; apply nth_mid|]. clear -T.
  induction T; econstructor; eassumption.
Qed.

Lemma sset_sget : forall S a y S', sset S a y S' -> exists x, sget S a x.
Proof.
  intros S a y S' (S1 & v & v' & S2 & -> & L & T & ->).
  assert (X : exists x, tget (snd a) v x) by (clear -T; induction T as [| ? ? ? ? ? ? ? ? ? (x & H)| ? ? ? ? ? ? ? ? ? (x & H)]; eexists; econstructor; eassumption).
  destruct X as (x & X). exists x, v. split; [rewrite <- L; apply nth_mid|assumption].
Qed.

Lemma get_put_apart : forall S a y S' c z, sset S a y S' -> separate a c -> (sget S' c z <-> sget S c z).
Proof.
  intros S a y S' c z H P. apply separate_fapart in P. destruct (store_forest S) as [G ->]. destruct (sset_sget _ _ _ _ H) as (x & X).
  apply sget_walk in X. destruct X as (l & gx & W & _). rewrite <- (val_ghost y) in H. rewrite (sset_walk _ _ _ _ _ _ W H).
  split; intro K; apply sget_walk in K; destruct K as (lc & gc & Wc & <-).
  - rewrite fwalk_put_apart in Wc by assumption. eapply walk_sget. eassumption.
  - eapply walk_sget. rewrite fwalk_put_apart by assumption. eassumption.
Qed.

Lemma tget_via : forall p v x, tget p v x -> snd (via (map at_acc p) (fun x => (x, Ret x)) v) = Ret x.
Proof.
  intros p v x T. induction T as [v|p l1 c l2 i x L T IH|p m1 k c m2 x N T IH]; [reflexivity| |]; cbn [map at_acc via via1].
  - unfold via_at_idx. replace (len (l1 ++ c :: l2) <=? i)%N with false by (symmetry; apply N.leb_gt; unfold len; rewrite app_length; cbn [length]; lia).
    unfold in_elem. rewrite L, nth_mid. destruct (via _ _ c) as [v' o]. exact IH.
  - unfold via_at_key. rewrite find_mid by assumption. unfold in_member. rewrite find_mid by assumption. destruct (via _ _ c) as [v' o]. exact IH.
Qed.

Lemma sget_sfail : forall S a x e, sget S a x -> sfail S a e -> False.
Proof. intros S a x e (v & N & T) (w & M & F). rewrite N in M. injection M as <-. rewrite (tget_via _ _ _ T) in F. discriminate. Qed.

Lemma copy_to : forall s S a b x y, holds s S -> sget S a y -> sget S b x ->
  exists s' S', exec (CopyTo a b) s = (s', Ret RUnit) /\ holds s' S' /\ sget S' a x /\ (forall c z, separate a c -> (sget S' c z <-> sget S c z)).
Proof.
  intros s S a b x y H A B.
  assert (X : exists S', sset S a x S').
  { destruct (store_forest S) as [G ->]. apply sget_walk in A. destruct A as (l & gx & W & _). eexists. eapply sset_ex. eassumption. }
  destruct X as (S' & Hs). destruct (heap_step _ _ _ _ s (t_copy a b S x y S' A B Hs) H) as (s' & E & H'). exists s', S'.
  split; [assumption|]. split; [assumption|]. split; [eapply get_put_same; eassumption|]. intros c z P. eapply get_put_apart; eassumption.
Qed.

Lemma move_to : forall s S a b x y, holds s S -> a = b \/ ~ below b a -> sget S a y -> sget S b x ->
  exists s' S', exec (MoveTo a b) s = (s', Ret RUnit) /\ holds s' S' /\ sget S' a x /\ (separate a b -> sget S' b VNull) /\
    (forall c z, separate a c -> separate b c -> (sget S' c z <-> sget S c z)).
Proof.
  intros s S a b x y H [<-|N] A B.
  - destruct (heap_step _ _ _ _ s (t_move_self a S y A) H) as (s' & E & H'). exists s', S. split; [assumption|]. split; [assumption|].
    split; [assumption|]. split; [|tauto]. intros [P _]. exfalso. apply P. apply below_refl.
  - assert (D : a <> b) by (intros ->; apply N; apply below_refl).
    destruct (covered (MoveTo a b) S) as (S' & r & T).
    { destruct A as (va & Na & _), B as (vb & Nb & _). cbn. split; [exists va; assumption|]. split; [exists vb; assumption|]. auto. }
    assert (X : r = Ret RUnit /\ sget S' a x /\ (separate a b -> sget S' b VNull) /\ (forall c z, separate a c -> separate b c -> (sget S' c z <-> sget S c z))).
    { inversion T; subst; try congruence; try discriminate.
      - match goal with H1 : sget S b x0, H2 : sset S b VNull S1, H3 : sset S1 a x0 S' |- _ => rename H1 into Gb, H2 into P1, H3 into P2 end.
        rewrite (sget_fun _ _ _ _ Gb B) in P2. split; [reflexivity|]. split; [eapply get_put_same; eassumption|]. split.
        + intro P. apply (get_put_apart _ _ _ _ _ _ P2 P). eapply get_put_same. eassumption.
        + intros c z Pa Pb. rewrite (get_put_apart _ _ _ _ _ _ P2 Pa). apply (get_put_apart _ _ _ _ _ _ P1 Pb).
      - match goal with H1 : _ \/ _ |- _ => destruct H1 as [(b' & x' & [Q|Q] & _)|(i & Q)]; discriminate end.
      - match goal with H1 : _ \/ _ |- _ => destruct H1 as [Q|Q]; [|discriminate] end. injection Q as <- <-. exfalso. eapply sget_sfail; eassumption.
      - match goal with H1 : two _ = _ |- _ => injection H1 as <- <- end. exfalso. eapply sget_sfail; [exact B|eassumption]. }
    destruct X as (-> & X). destruct (heap_step _ _ _ _ s T H) as (s' & E & H'). exists s', S'. auto.
Qed.

Lemma swap_to : forall s S a b x y, holds s S -> separate a b -> sget S a x -> sget S b y ->
  exists s' S', exec (Swap a b) s = (s', Ret RUnit) /\ holds s' S' /\ sget S' a y /\ sget S' b x /\
    (forall c z, separate a c -> separate b c -> (sget S' c z <-> sget S c z)).
Proof.
  intros s S a b x y H P A B.
  assert (X : exists S1 S', sset S a y S1 /\ sset S1 b x S').
  { destruct (store_forest S) as [G ->]. pose proof (separate_fapart _ _ P) as Pf. apply sget_walk in A. destruct A as (l & gx & W & _). apply sget_walk in B. destruct B as (l' & gy & W' & _).
    eexists _, _. split; [eapply sset_ex; eassumption|]. eapply sset_ex. rewrite fwalk_put_apart by assumption. eassumption. }
  destruct X as (S1 & S' & P1 & P2). destruct P as [N1 N2]. destruct (heap_step _ _ _ _ s (t_swap a b S x y S1 S' N1 N2 A B P1 P2) H) as (s' & E & H'). exists s', S'.
  split; [assumption|]. split; [assumption|].
  assert (Pba : separate b a) by (split; assumption).
  split; [apply (get_put_apart _ _ _ _ _ _ P2 Pba); eapply get_put_same; eassumption|]. split; [eapply get_put_same; eassumption|].
  intros c z Pa Pb. rewrite (get_put_apart _ _ _ _ _ _ P2 Pb). apply (get_put_apart _ _ _ _ _ _ P1 Pa).
Qed.

Lemma new_copy : forall s S b x, holds s S -> sget S b x ->
  exists s', exec (NewCopy b) s = (s', Ret RUnit) /\ holds s' (S ++ [Some x]).
Proof. intros s S b x H B. apply (heap_step _ _ _ _ s (t_new_copy b S x B) H). Qed.

Lemma new_move : forall s S b x, holds s S -> sget S b x ->
  exists s' S', exec (NewMove b) s = (s', Ret RUnit) /\ holds s' (S' ++ [Some x]) /\ length S' = length S /\ sget S' b VNull /\
    (forall c z, separate b c -> (sget S' c z <-> sget S c z)).
Proof.
  intros s S b x H B.
  assert (X : exists S', sset S b VNull S').
  { destruct (store_forest S) as [G ->]. apply sget_walk in B. destruct B as (l & gx & W & _). eexists. eapply sset_ex. eassumption. }
  destruct X as (S' & Hs). destruct (heap_step _ _ _ _ s (t_new_move b S x S' B Hs) H) as (s' & E & H'). exists s', S'.
  split; [assumption|]. split; [assumption|]. split; [eapply sset_length; eassumption|]. split; [eapply get_put_same; eassumption|]. intros c z P. eapply get_put_apart; eassumption.
Qed.

(** after copying, a program that does not change the copy cannot disturb it,
    and a program that only changes the copy cannot disturb the rest *)
Lemma copy_apart : forall s S b x cs S2 rs n, holds s S -> sget S b x -> trun (NewCopy b :: cs) S S2 rs -> n <= length S ->
  (forall c, In c cs -> ~ In n (changes c)) ->
  exists s', exec_all (NewCopy b :: cs) s = (s', rs) /\ holds s' S2 /\ nth_error S2 n = nth_error (S ++ [Some x]) n.
Proof.
  intros s S b x cs S2 rs n H B R L N. destruct (heap_run _ _ _ _ R _ H) as (s' & E & H'). exists s'. split; [assumption|]. split; [assumption|].
  inversion R as [|c cs' S0 S1 S' r rs' T R' E1]; subst.
  assert (X : S1 = S ++ [Some x]).
  { inversion T; subst; try congruence; try discriminate.
    - erewrite (sget_fun _ _ x) by eassumption. reflexivity.
    - match goal with H1 : _ \/ _ |- _ => destruct H1 as [(b' & x' & [Q|Q] & _)|(i & Q)]; discriminate end.
    - match goal with H1 : _ \/ _ |- _ => destruct H1 as [Q|Q]; [discriminate|] end. injection Q as <-. exfalso. eapply sget_sfail; eassumption. }
  subst. apply (frame_run _ _ _ _ _ R'); [rewrite app_length; cbn; lia|assumption].
Qed.

Lemma touch_ref : forall k v, ordered v -> touch k v = via1 (RefKey k) (fun x => (x, Ret RUnit)) v.
Proof.
  intros k v O. cbn [via1]. unfold via_key, touch. destruct v as [|z|f|s|l|m|b]; cbn [of_type]; try reflexivity.
  - unfold in_member. cbn [obj_emplace obj_find]. rewrite str_eqb_refl. rewrite set_find_same; [reflexivity| |cbn [obj_find]; rewrite str_eqb_refl; reflexivity].
    apply (emplace_sorted _ k VNull []). constructor.
  - assert (M : sorted m) by (inversion O; assumption). unfold in_member.
    destruct (obj_find k (obj_emplace k VNull m)) as [x|] eqn:F.
    + rewrite (set_find_same _ _ _ _ (emplace_sorted _ _ _ _ M) F). reflexivity.
    + exfalso. revert F. clear. induction m as [|[k' x'] m IH]; cbn [obj_emplace obj_find]; [rewrite str_eqb_refl; discriminate|].
      destruct (str_ltb k k'); cbn [obj_find]; [rewrite str_eqb_refl; discriminate|]. destruct (str_eqb k k') eqn:E; cbn [obj_find]; rewrite E; [discriminate|assumption].
Qed.

(** ** Stores stay ordered *)
Definition ordered_all (S : store) : Prop := forall n v, nth_error S n = Some (Some v) -> ordered v.

Lemma tget_ordered : forall p v x, tget p v x -> ordered v -> ordered x.
Proof.
  intros p v x T. induction T as [v|p l1 c l2 i x L T IH|p m1 k c m2 x N T IH]; intro O; [assumption| |]; apply IH; inversion O as [| | | | |vs A|m So A]; subst.
  - apply A. apply in_or_app. right. left. reflexivity.
  - apply (A k). apply in_or_app. right. left. reflexivity.
Qed.

Lemma sorted_keys : forall A B (m : list (str * A)) (m' : list (str * B)), map fst m = map fst m' -> sorted m -> sorted m'.
Proof.
  intros A B m. induction m as [|[k x] m IH]; intros [|[k' x'] m'] E H; cbn in E; try discriminate; [constructor|].
  injection E as E1 E2. subst k'. inversion H as [|? ? ? F G]; subst. constructor; [|apply IH; assumption].
  clear -F E2. rewrite Forall_forall in *. intros [j y] I. cbn [fst]. assert (X : In j (map fst m)) by (rewrite E2; apply (in_map fst _ _ I)).
  apply in_map_iff in X. destruct X as ([j' y'] & X & I'). cbn in X. subst. apply (F _ I').
Qed.

Lemma tset_ordered : forall p y v v', tset p y v v' -> ordered y -> ordered v -> ordered v'.
Proof.
  intros p y v v' T. induction T as [y v|p y l1 c c' l2 i L T IH|p y m1 k c c' m2 N T IH]; intros Oy O; [assumption| |]; inversion O as [| | | | |vs A|m So A]; subst.
  - constructor. intros x I. apply in_app_or in I. destruct I as [I|[<-|I]].
    + apply A. apply in_or_app. auto.
    + apply IH; [assumption|]. apply A. apply in_or_app. right. left. reflexivity.
    + apply A. apply in_or_app. right. right. assumption.
  - constructor.
    + eapply sorted_keys; [|exact So]. rewrite !map_app. reflexivity.
    + intros j x I. apply in_app_or in I. destruct I as [I|[E|I]].
      * apply (A j). apply in_or_app. auto.
      * injection E as <- <-. apply IH; [assumption|]. apply (A k). apply in_or_app. right. left. reflexivity.
      * apply (A j). apply in_or_app. right. right. assumption.
Qed.

Lemma sget_ordered : forall S a x, ordered_all S -> sget S a x -> ordered x.
Proof. intros S a x O (v & N & T). eapply tget_ordered; [eassumption|]. eapply O. eassumption. Qed.

Lemma sset_ordered : forall S a y S', ordered_all S -> ordered y -> sset S a y S' -> ordered_all S'.
Proof.
  intros S a y S' O Oy H n v N. destruct (Nat.eq_dec (fst a) n) as [<-|D].
  - destruct H as (S1 & w & w' & S2 & -> & L & T & ->). rewrite <- L, nth_mid in N. injection N as <-. eapply tset_ordered; [eassumption|assumption|].
    apply (O (length S1)). apply nth_mid.
  - rewrite (sset_other _ _ _ _ _ H D) in N. eapply O. eassumption.
Qed.

Lemma push_ordered : forall S x, ordered_all S -> ordered x -> ordered_all (S ++ [Some x]).
Proof.
  intros S x O Ox n v N. destruct (lt_dec n (length S)) as [L|L].
  - rewrite nth_error_app1 in N by assumption. eapply O. eassumption.
  - rewrite nth_error_app2 in N by lia. destruct (n - length S) as [|[|d]]; cbn in N; try discriminate. congruence.
Qed.

Lemma init_ordered : forall i, ordered (init_value i).
Proof. intros []; cbn; constructor; try constructor; try contradiction. Qed.

Lemma array_ordered : forall y l, as_array y l -> ordered y -> forall x, In x l -> ordered x.
Proof. intros y l A O x I. inversion A; subst; [contradiction|]. inversion O; auto. Qed.

Lemma arr_ordered : forall l x, (forall y, In y l -> ordered y) -> ordered x -> ordered (VArr (l ++ [x])).
Proof. intros l x A Ox. constructor. intros y I. apply in_app_or in I. destruct I as [I|[<-|[]]]; auto. Qed.

Lemma step_ordered : forall c S S' r, tstep c S S' r -> ordered_all S -> ordered_all S'.
Proof.
  intros c S S' r T O. destruct T; try assumption.
  - apply push_ordered; [assumption|apply init_ordered].
  - apply push_ordered; [assumption|]. eapply sget_ordered; eassumption.
  - apply push_ordered; [|eapply sget_ordered; eassumption]. eapply sset_ordered; [eassumption|constructor|eassumption].
  - eapply sset_ordered; [eassumption|eapply sget_ordered; eassumption|eassumption].
  - assert (O1 : ordered_all S1) by (eapply sset_ordered; [eassumption|constructor|eassumption]).
    eapply sset_ordered; [exact O1| |eassumption]. eapply sget_ordered; [exact O|eassumption].
  - assert (O1 : ordered_all S1) by (eapply sset_ordered; [exact O|eapply (sget_ordered _ b); eassumption|eassumption]).
    eapply sset_ordered; [exact O1| |eassumption]. eapply (sget_ordered _ a); [exact O|eassumption].
  - eapply sset_ordered; [eassumption|apply init_ordered|eassumption].
  - eapply sset_ordered; [eassumption|apply init_ordered|eassumption].
  - assert (A : forall y, In y l -> ordered y) by (eapply array_ordered; [eassumption|eapply sget_ordered; eassumption]).
    assert (O1 : ordered_all S1) by (eapply sset_ordered; [eassumption|constructor; exact A|eassumption]).
    eapply sset_ordered; [exact O1| |eassumption]. apply arr_ordered; [exact A|]. eapply sget_ordered; eassumption.
  - assert (O1 : ordered_all S1) by (eapply sset_ordered; [eassumption|constructor|eassumption]).
    eapply sset_ordered; [exact O1| |eassumption]. apply arr_ordered; [|eapply sget_ordered; [|eassumption]; assumption].
    eapply array_ordered; [eassumption|]. eapply sget_ordered; [exact O1|eassumption].
  - eapply sset_ordered; [eassumption| |eassumption]. apply arr_ordered; [|apply init_ordered]. eapply array_ordered; [eassumption|]. eapply sget_ordered; eassumption.
  - eapply sset_ordered; [eassumption| |eassumption]. assert (Oy : ordered y) by (eapply sget_ordered; eassumption).
    replace y' with (fst (f y)) by (match goal with H : f y = _ |- _ => rewrite H end; reflexivity).
    destruct c as [| | | | | | | | | | |a0 [i|k]|a0 k|a0 i|a0|]; cbn [local] in *; try discriminate; match goal with H : Some _ = Some _ |- _ => injection H as <- <- end.
    + apply (via1_ordered _ (RefIdx i)); auto.
    + rewrite touch_ref by assumption. apply via1_ordered; auto.
    + apply run_op_ordered; [intros x []|assumption].
    + apply run_op_ordered; [intros x []|assumption].
    + apply run_op_ordered; [intros x []|assumption].
  - intros n w N. destruct (Nat.eq_dec n (length S1)) as [->|D].
    + rewrite nth_mid in N. discriminate.
    + apply (O n). destruct (lt_dec n (length S1)) as [L|L].
      * rewrite nth_error_app1 in * by assumption. assumption.
      * rewrite nth_error_app2 in * by lia. destruct (n - length S1) as [|d] eqn:E; [lia|]. assumption.
Qed.

Lemma run_ordered_all : forall cs S S' rs, trun cs S S' rs -> ordered_all S -> ordered_all S'.
Proof. intros cs S S' rs R. induction R; intro O; [assumption|]. apply IHR. eapply step_ordered; eassumption. Qed.

Lemma own_inside : forall c, In c [MoveTo (0, [Idx 0%N]) (0, []); Swap (0, []) (0, [Idx 0%N]); PushMove (0, []) (0, [])] ->
  exists s, exec_all [New IArr; Sub (0, []) (Idx 0%N); c; End 0] start = (s, [Ret RUnit; Ret RUnit; Ret RUnit; Ret RUnit]) /\
    (forall n x, nth_error (env s) n <> Some (Some x)) /\ exists p, live s p.
Proof.
  intros c H. destruct H as [<-|[<-|[<-|[]]]]; (eexists; split; [vm_compute; reflexivity|]; split; [intros [|[|n]] x; cbn; discriminate|]; exists 0; eexists; vm_compute; reflexivity).
Qed.

Lemma stale : exists s l s1, exec_all [New IArr; Sub (0, []) (Idx 0%N)] start = (s, [Ret RUnit; Ret RUnit]) /\ locate (0, [Idx 0%N]) s = (s, Ret l) /\
  exec (Sub (0, []) (Idx 5%N)) s = (s1, Ret RUnit) /\ snd (read_loc l s1) = UB.
Proof. eexists _, _, _. split; [vm_compute; reflexivity|]. split; [vm_compute; reflexivity|]. split; vm_compute; reflexivity. Qed.

Lemma ends_clean : forall cs, sane_prog cs [] -> exists s S rs, exec_all cs start = (s, rs) /\ holds s S /\
  (forall r, In r rs -> (exists a, r = Ret a) \/ (exists e, r = Throw e)) /\ length rs = length cs /\
  ((forall n x, nth_error (env s) n <> Some (Some x)) -> forall p, ~ live s p).
Proof.
  intros cs P. destruct (history_ok _ _ _ start_holds P) as (s & S & rs & E & R & H & O). exists s, S, rs. split; [assumption|]. split; [assumption|]. split; [assumption|].
  split; [clear -R; induction R; cbn; congruence|].
  intros N p. apply (no_blocks_left _ _ _ H). intros n v Nv. destruct H as (ps & Oe & _). clear -Oe N Nv. revert n Nv N.
  induction Oe as [|e S ps O IH|c w e S ps qs Oc O IH]; intros [|n] Nv N; cbn in Nv; try discriminate.
  - apply (IH n Nv). intros m x. apply (N (Datatypes.S m)).
  - apply (N 0 c). reflexivity.
  - apply (IH n Nv). intros m x. apply (N (Datatypes.S m)).
Qed.

Lemma reach_touch : forall cs S rs n v k, trun cs [] S rs -> nth_error S n = Some (Some v) ->
  ordered v /\ touch k v = via1 (RefKey k) (fun x => (x, Ret RUnit)) v.
Proof.
  intros cs S rs n v k R N. assert (O : ordered v) by (eapply (run_ordered_all _ _ _ _ R); [intros [|m] w; discriminate|eassumption]).
  split; [assumption|]. apply touch_ref. assumption.
Qed.
