(** Locations before and after a change of an annotated forest: which stay and
    which are lost. *)
From Coq Require Import Lia Permutation Arith.
From Verif Require Import Base Value ValueOps SpecGrammar SpecText ObjFacts ValueProofs Heap SpecHeap HeapGhost HeapPaths HeapOps HeapProofs Refs SpecRefs.
Open Scope nat_scope.

Lemma under_nil : forall a, under a [] = a.
Proof. intros [n p]. unfold under. cbn [fst snd]. rewrite app_nil_r. reflexivity. Qed.
Lemma under_inj : forall a t u, under a t = under a u -> t = u.
Proof. intros a t u E. injection E as E. apply app_inv_head in E. exact E. Qed.
Lemma under_below : forall a t, below a (under a t).
Proof. intros a t. split; [reflexivity|]. exists t. reflexivity. Qed.

(** a and r: apart, r strictly above a, the same, or r inside a *)
Lemma where_is : forall a r, fapart a r \/ (exists s t, a = under r (s :: t)) \/ r = a \/ (exists s t, r = under a (s :: t)).
Proof.
  intros a r. destruct (places a r) as [P|[P|P]]; [auto| |]; apply below_ext in P; destruct P as [[|s t] E].
  - right; right; left. rewrite E. apply ext_nil.
  - right; right; right. eauto.
  - right; right; left. rewrite E. rewrite ext_nil. reflexivity.
  - right; left. eauto.
Qed.

Lemma apart_app : forall p r t, apart p r -> apart p (r ++ t).
Proof. intros p r t H. induction H; [apply ap_head; assumption|apply ap_tail; assumption]. Qed.
Lemma fapart_under : forall a r t, fapart a r -> fapart a (under r t).
Proof. intros a r t [H|H]; [left; exact H|right; apply apart_app; exact H]. Qed.

Lemma apart_outside : forall a r, fapart a r -> ~ inside a r.
Proof. intros a r H (s & t & ->). apply fapart_not_below in H. apply H. apply under_below. Qed.
Lemma above_outside : forall a r s t, a = under r (s :: t) -> ~ inside a r.
Proof.
  intros a r s t -> (s' & t' & E). destruct r as [n p]. unfold under in E. cbn [fst snd] in E. injection E as E.
  rewrite <- app_assoc in E. rewrite <- (app_nil_r p) in E at 1. apply app_inv_head in E. discriminate.
Qed.
Lemma same_outside : forall a, ~ inside a a.
Proof. intros a (s & t & E). rewrite <- (under_nil a) in E at 1. apply under_inj in E. discriminate. Qed.

Lemma inside_dec : forall a r, (exists s t, r = under a (s :: t)) \/ ~ inside a r.
Proof.
  intros a r. destruct (where_is a r) as [H|[(s & t & H)|[->|H]]]; [right|right|right|left; exact H].
  - apply apart_outside. assumption.
  - eapply above_outside. eassumption.
  - apply same_outside.
Qed.

Lemma element_inside : forall a r, element a r -> inside a r.
Proof. intros a r (i & ->). exists (Idx i), []. reflexivity. Qed.

(** ** What a change at a keeps *)
Lemma keep_put : forall G a la xa y r l x, fwalk G a = Some (la, xa) -> ~ inside a r -> fwalk G r = Some (l, x) ->
  exists x', fwalk (fput G a y) r = Some (l, x').
Proof.
  intros G a la xa y r l x Wa N W. destruct (where_is a r) as [P|[(s & t & ->)|[->|P]]].
  - rewrite fwalk_put_apart by assumption. eauto.
  - change (under r (s :: t)) with (ext r (s :: t)) in *. rewrite (fwalk_put_below _ _ _ y _ _ W). eauto.
  - rewrite (fwalk_put_same _ _ y _ _ W). eauto.
  - contradiction.
Qed.

(** a new inside: what is at t in it *)
Lemma into_put : forall G a la xa y s t, fwalk G a = Some (la, xa) -> fwalk (fput G a y) (under a (s :: t)) = walk la y (s :: t).
Proof. intros. change (under a (s :: t)) with (ext a (s :: t)). eapply fwalk_put_above. eassumption. Qed.

Lemma from_walk : forall G b lb xb s t, fwalk G b = Some (lb, xb) -> fwalk G (under b (s :: t)) = walk lb xb (s :: t).
Proof. intros. change (under b (s :: t)) with (ext b (s :: t)). apply fwalk_ext. assumption. Qed.

Lemma carried : forall l l' y s t, walk l y (s :: t) = walk l' y (s :: t).
Proof. intros. apply walk_free. discriminate. Qed.

(** an array that gets more elements, or was null *)
Lemma keep_grow : forall G a la xa q g gl g' more r l x, fwalk G a = Some (la, xa) -> xa = GNull \/ xa = GArr q g gl -> ~ element a r ->
  fwalk G r = Some (l, x) -> exists x', fwalk (fput G a (GArr q g' (gl ++ more))) r = Some (l, x').
Proof.
  intros G a la xa q g gl g' more r l x Wa X N W. destruct (inside_dec a r) as [(s & t & ->)|O]; [|eapply keep_put; eassumption].
  rewrite (into_put _ _ _ _ _ _ _ Wa). rewrite (from_walk _ _ _ _ _ _ Wa) in W. destruct X as [->| ->]; [destruct s; discriminate|].
  destruct s as [i|k]; cbn [walk] in *; [|discriminate].
  destruct (nth_error gl (N.to_nat i)) as [c|] eqn:E; [|discriminate]. rewrite nth_error_app1 by (eapply nth_lt; eassumption). rewrite E.
  destruct t as [|s t]; [exfalso; apply N; exists i; reflexivity|]. rewrite (carried _ (LElem q g (N.to_nat i))). eauto.
Qed.

(** a map that gets a member *)
Lemma keep_member : forall G a la xa q m k y r l x, fwalk G a = Some (la, xa) -> (xa = GNull /\ m = []) \/ xa = GObj q m -> sorted m ->
  fwalk G r = Some (l, x) -> exists x', fwalk (fput G a (GObj q (obj_emplace k y m))) r = Some (l, x').
Proof.
  intros G a la xa q m k y r l x Wa X Sm W. destruct (inside_dec a r) as [(s & t & ->)|O]; [|eapply keep_put; eassumption].
  rewrite (into_put _ _ _ _ _ _ _ Wa). rewrite (from_walk _ _ _ _ _ _ Wa) in W. destruct X as [[-> _]| ->]; [destruct s; discriminate|].
  destruct s as [i|k']; cbn [walk] in *; [discriminate|]. destruct (obj_find k' m) as [c|] eqn:E; [|discriminate].
  rewrite find_emplace by assumption. rewrite E. eauto.
Qed.

Lemma keep_erased : forall G a la q m k r l x, fwalk G a = Some (la, GObj q m) -> sorted m -> ~ below (under a [Key k]) r ->
  fwalk G r = Some (l, x) -> exists x', fwalk (fput G a (GObj q (obj_erase k m))) r = Some (l, x').
Proof.
  intros G a la q m k r l x Wa Sm N W. destruct (inside_dec a r) as [(s & t & ->)|O]; [|eapply keep_put; eassumption].
  rewrite (into_put _ _ _ _ _ _ _ Wa). rewrite (from_walk _ _ _ _ _ _ Wa) in W.
  destruct s as [i|k']; cbn [walk] in *; [discriminate|]. rewrite find_erase by assumption.
  destruct (str_eqb k' k) eqn:E; [|eauto]. apply str_eqb_iff in E. subst k'. exfalso. apply N. split; [reflexivity|]. exists t.
  cbn [under fst snd]. rewrite <- app_assoc. reflexivity.
Qed.

Lemma nth_remove_low : forall A (l : list A) i j, j < i -> nth_error (remove_nth i l) j = nth_error l j.
Proof. induction l as [|x l IH]; intros [|i] [|j] H; cbn; try reflexivity; try lia. apply IH. lia. Qed.
Lemma nth_remove_high : forall A (l : list A) i j, i < j -> nth_error (remove_nth i l) (j - 1) = nth_error l j.
Proof.
  induction l as [|x l IH]; intros i j H.
  - destruct j; [lia|]. destruct i; cbn; destruct (j - 0); reflexivity.
  - destruct j as [|j]; [lia|]. destruct i as [|i]; cbn [remove_nth nth_error].
    + replace (S j - 1) with j by lia. reflexivity.
    + replace (S j - 1) with (S (j - 1)) by lia. cbn [nth_error]. apply IH. lia.
Qed.

Lemma keep_low : forall G a la q g g' xs i j s t l x, fwalk G a = Some (la, GArr q g xs) -> (j < i)%N ->
  fwalk G (under a (Idx j :: s :: t)) = Some (l, x) ->
  exists x', fwalk (fput G a (GArr q g' (remove_nth (N.to_nat i) xs))) (under a (Idx j :: s :: t)) = Some (l, x').
Proof.
  intros G a la q g g' xs i j s t l x Wa J W. rewrite (into_put _ _ _ _ _ _ _ Wa). rewrite (from_walk _ _ _ _ _ _ Wa) in W.
  remember (s :: t) as u eqn:Eu. cbn [walk] in *. rewrite nth_remove_low by lia. destruct (nth_error xs (N.to_nat j)) as [c|]; [|discriminate].
  subst u. rewrite (carried _ (LElem q g (N.to_nat j))). eauto.
Qed.
Lemma keep_high : forall G a la q g g' xs i j s t l x, fwalk G a = Some (la, GArr q g xs) -> (i < j)%N ->
  fwalk G (under a (Idx j :: s :: t)) = Some (l, x) ->
  exists x', fwalk (fput G a (GArr q g' (remove_nth (N.to_nat i) xs))) (under a (Idx (j - 1)%N :: s :: t)) = Some (l, x').
Proof.
  intros G a la q g g' xs i j s t l x Wa J W. rewrite (into_put _ _ _ _ _ _ _ Wa). rewrite (from_walk _ _ _ _ _ _ Wa) in W.
  remember (s :: t) as u eqn:Eu. cbn [walk] in *. replace (N.to_nat (j - 1)) with (N.to_nat j - 1) by lia. rewrite nth_remove_high by lia.
  destruct (nth_error xs (N.to_nat j)) as [c|]; [|discriminate].
  subst u. rewrite (carried _ (LElem q g (N.to_nat j))). eauto.
Qed.

(** ** Lost locations *)
Definition holder (l : loc) : option nat := match l with LSlot _ => None | LElem q _ _ => Some q | LMember q _ => Some q end.

Lemma walk_holder : forall t s l g l' x, walk l g (s :: t) = Some (l', x) -> exists q, holder l' = Some q /\ In q (map fst (blocks g)).
Proof.
  induction t as [|s' t IH]; intros s l g l' x W.
  - destruct s as [i|k]; cbn [walk] in W.
    + destruct g as [| | | | |q n xs|]; try discriminate. destruct (nth_error xs (N.to_nat i)); [|discriminate]. injection W as <- _.
      exists q. split; [reflexivity|]. left. reflexivity.
    + destruct g as [| | | | | |q m]; try discriminate. destruct (obj_find k m); [|discriminate]. injection W as <- _.
      exists q. split; [reflexivity|]. left. reflexivity.
  - remember (s' :: t) as u eqn:Eu. destruct s as [i|k]; cbn [walk] in W.
    + destruct g as [| | | | |q n xs|]; try discriminate. destruct (nth_error xs (N.to_nat i)) as [c|] eqn:E; [|discriminate].
      subst u. apply IH in W. destruct W as (p & Hp & I). exists p. split; [assumption|]. cbn [blocks map fst]. right.
      apply nth_error_In in E. apply in_map_iff in I. destruct I as (b & <- & I). apply in_map. apply in_flat_map. eauto.
    + destruct g as [| | | | | |q m]; try discriminate. destruct (obj_find k m) as [c|] eqn:E; [|discriminate].
      subst u. apply IH in W. destruct W as (p & Hp & I). exists p. split; [assumption|]. cbn [blocks map fst]. right.
      apply find_split in E. destruct E as (m1 & m2 & -> & _). apply in_map_iff in I. destruct I as (b & <- & I). apply in_map. apply in_flat_map.
      exists (k, c). split; [apply in_or_app; right; left; reflexivity|assumption].
Qed.

Definition no_block (s : hstate) (q : nat) : Prop := forall b, nth_error (heap s) q <> Some (Some b).

Lemma read_lost : forall l q s, holder l = Some q -> no_block s q -> snd (read_loc l s) = UB.
Proof.
  intros l q s H N. assert (E : get_block q s = (s, UB)).
  { unfold get_block. destruct (nth_error (heap s) q) as [[b|]|] eqn:E; try reflexivity. exfalso. apply (N b). assumption. }
  destruct l as [n|p g i|p k]; cbn [holder] in H; try discriminate; injection H as ->; cbn [read_loc]; unfold seqm; rewrite E; reflexivity.
Qed.

Lemma rep_lost : forall s G L q, rep s G L -> ~ In q (map fst (fblocks G ++ lblocks L)) -> no_block s q.
Proof. intros s G L q [_ [_ H]] N b E. apply N. apply H in E. apply (in_map fst) in E. exact E. Qed.

Lemma dropped : forall s G x L q, rep s G (x :: L) -> In q (map fst (blocks x)) -> ~ In q (map fst (fblocks G ++ lblocks L)).
Proof.
  intros s G x L q [_ [N _]] I J. cbn [lblocks flat_map] in N. fold (lblocks L) in N.
  assert (P : Permutation (map fst (fblocks G ++ blocks x ++ lblocks L)) (map fst (blocks x) ++ map fst (fblocks G ++ lblocks L))).
  { rewrite !map_app. psolve. }
  eapply Permutation_NoDup in P; [|exact N]. apply in_split in J. destruct J as (j1 & j2 & E). rewrite E in P. rewrite app_assoc in P.
  apply NoDup_remove_2 in P. apply P. apply in_or_app. left. apply in_or_app. left. assumption.
Qed.

(** the inside of what a state is about to overwrite *)
Lemma overwritten : forall s1 G L y a la x q, rep s1 G (y :: L) -> fwalk G a = Some (la, x) -> In q (map fst (blocks x)) ->
  ~ In q (map fst (fblocks (fput G a y) ++ lblocks L)).
Proof.
  intros s1 G L y a la x q H W I. destruct (exchange _ _ _ _ _ _ _ H W) as (_ & s2 & _ & H2). eapply dropped; eassumption.
Qed.

Lemma over_lost : forall s1 s' G L y a la x s t l z, rep s1 G (y :: L) -> fwalk G a = Some (la, x) -> rep s' (fput G a y) L ->
  fwalk G (under a (s :: t)) = Some (l, z) -> snd (read_loc l s') = UB.
Proof.
  intros s1 s' G L y a la x s t l z H1 W H' W2. rewrite (from_walk _ _ _ _ _ _ W) in W2. apply walk_holder in W2. destruct W2 as (q & Hq & I).
  eapply read_lost; [exact Hq|]. eapply rep_lost; [exact H'|]. eapply overwritten; eassumption.
Qed.

(** an element of an array that has changed its size *)
Lemma stale_elem : forall s G L a la q g g' xs ys i l z, fwalk G a = Some (la, GArr q g xs) -> rep s (fput G a (GArr q g' ys)) L -> g <> g' ->
  fwalk G (under a [Idx i]) = Some (l, z) -> snd (read_loc l s) = UB.
Proof.
  intros s G L a la q g g' xs ys i l z W H D W2. rewrite (from_walk _ _ _ _ _ _ W) in W2. cbn [walk] in W2.
  destruct (nth_error xs (N.to_nat i)) as [c|]; [|discriminate]. injection W2 as <- <-.
  cbn [read_loc]. unfold seqm. rewrite (get_at _ _ _ _ _ _ _ _ _ H (fwalk_put_same _ _ _ _ _ W) eq_refl).
  rewrite (proj2 (Nat.eqb_neq g g') D). reflexivity.
Qed.
