(** Facts about key order and the ordered association lists that stand for
    std::map. *)
From Coq Require Import Lia ZifyBool ZifyNat ZifyN.
From Verif Require Import Base Value SpecGrammar.

Lemma str_eqb_iff : forall a b, str_eqb a b = true <-> a = b.
Proof.
  induction a as [|x a IH]; intros [|y b]; cbn [str_eqb]; split; intro H; try discriminate; try reflexivity.
  - apply andb_true_iff in H. destruct H as [H1 H2]. apply N.eqb_eq in H1. apply IH in H2. congruence.
  - inversion H; subst. rewrite N.eqb_refl. apply IH. reflexivity.
Qed.

Lemma str_eqb_refl : forall a, str_eqb a a = true.
Proof. intro a. apply str_eqb_iff. reflexivity. Qed.

Lemma str_eqb_neq : forall a b, str_eqb a b = false <-> a <> b.
Proof. intros a b. rewrite <- str_eqb_iff. destruct (str_eqb a b); split; congruence. Qed.

Lemma str_eqb_sym : forall a b, str_eqb a b = str_eqb b a.
Proof. induction a as [|x a IH]; intros [|y b]; cbn [str_eqb]; auto. rewrite N.eqb_sym, IH. reflexivity. Qed.

Lemma str_ltb_iff : forall a b, str_ltb a b = true <-> key_lt a b.
Proof.
  induction a as [|x a IH]; intros [|y b]; cbn [str_ltb]; split; intro H; try discriminate; try (inversion H; fail).
  - constructor.
  - reflexivity.
  - apply orb_true_iff in H. destruct H as [H|H].
    + apply kl_head. lia.
    + apply andb_true_iff in H. destruct H as [H1 H2]. apply N.eqb_eq in H1. subst. apply kl_tail. apply IH. assumption.
  - inversion H as [|a0 b0 k k' L|a0 k k' L]; subst.
    + apply orb_true_iff. left. lia.
    + rewrite N.eqb_refl. apply IH in L. rewrite L. apply orb_true_iff. right. reflexivity.
Qed.

Lemma key_lt_irrefl : forall a, ~ key_lt a a.
Proof. induction a as [|x a IH]; intro H; inversion H; subst; [lia|contradiction]. Qed.

Lemma key_lt_trans : forall a b c, key_lt a b -> key_lt b c -> key_lt a c.
Proof.
  intros a b c H. revert c. induction H as [y b|x y a b L|x a b H IH]; intros c H2; inversion H2; subst.
  - constructor.
  - constructor.
  - apply kl_head. lia.
  - apply kl_head. lia.
  - apply kl_head. lia.
  - apply kl_tail. auto.
Qed.

Lemma key_lt_trich : forall a b, key_lt a b \/ a = b \/ key_lt b a.
Proof.
  induction a as [|x a IH]; intros [|y b].
  - auto.
  - left. constructor.
  - right. right. constructor.
  - destruct (N.lt_trichotomy x y) as [L|[->|L]].
    + left. apply kl_head. assumption.
    + destruct (IH b) as [L|[->|L]]; [left|right; left|right; right]; try (apply kl_tail; assumption). reflexivity.
    + right. right. apply kl_head. assumption.
Qed.

Lemma str_ltb_false : forall a b, str_ltb a b = false <-> ~ key_lt a b.
Proof. intros a b. rewrite <- str_ltb_iff. destruct (str_ltb a b); split; congruence. Qed.

Lemma str_cmp : forall a b, str_ltb a b = false -> str_eqb a b = false -> key_lt b a.
Proof.
  intros a b H1 H2. apply str_ltb_false in H1. apply str_eqb_neq in H2.
  destruct (key_lt_trich a b) as [H|[H|H]]; [contradiction|contradiction|assumption].
Qed.

(** ** assoc *)

Lemma assoc_in : forall A k (v : A) m, assoc k v m -> In (k, v) m.
Proof. intros A k v m H. induction H; [left; reflexivity|right; assumption]. Qed.

Lemma assoc_det : forall A k (v w : A) m, assoc k v m -> assoc k w m -> v = w.
Proof.
  intros A k v w m H. induction H as [ms|k' v' ms N H IH]; intro H2; inversion H2; subst; try congruence; try contradiction.
  auto.
Qed.

Lemma find_iff : forall A k (v : A) m, obj_find k m = Some v <-> assoc k v m.
Proof.
  intros A k v m. induction m as [|[k' v'] m IH]; cbn [obj_find].
  - split; intro H; [discriminate|inversion H].
  - destruct (str_eqb k k') eqn:E.
    + apply str_eqb_iff in E. subst k'. split; intro H.
      * inversion H; subst. constructor.
      * inversion H; subst; [reflexivity|contradiction].
    + apply str_eqb_neq in E. rewrite IH. split; intro H.
      * constructor; [congruence|assumption].
      * inversion H; subst; [contradiction|assumption].
Qed.

Lemma find_none_iff : forall A k (m : list (str * A)), obj_find k m = None <-> (forall v, ~ assoc k v m).
Proof.
  intros A k m. destruct (obj_find k m) as [v|] eqn:E; split; intro H; try discriminate; try reflexivity.
  - apply find_iff in E. exfalso. eapply H; eassumption.
  - intros v Hv. apply find_iff in Hv. congruence.
Qed.

Lemma sorted_head_lt : forall A k (v : A) m k2 v2, sorted ((k, v) :: m) -> assoc k2 v2 m -> key_lt k k2.
Proof.
  intros A k v m k2 v2 H Ha. inversion H as [|? ? ? F S]; subst.
  apply assoc_in in Ha. rewrite Forall_forall in F. apply (F _ Ha).
Qed.

Lemma sorted_in_assoc : forall A k (v : A) m, sorted m -> In (k, v) m -> assoc k v m.
Proof.
  intros A k v m H. induction H as [|k0 v0 m F S IH]; intro Hi; [contradiction|].
  destruct Hi as [E|Hi].
  - inversion E; subst. constructor.
  - apply as_next; [|auto]. rewrite Forall_forall in F. specialize (F _ Hi). cbn in F.
    intros ->. eapply key_lt_irrefl; eassumption.
Qed.

(** sorted lists are determined by their lookups *)
Lemma sorted_unique : forall A (m1 m2 : list (str * A)), sorted m1 -> sorted m2 ->
  (forall k v, assoc k v m1 <-> assoc k v m2) -> m1 = m2.
Proof.
  intros A m1 m2 H1. revert m2. induction H1 as [|k v m F S IH]; intros m2 H2 E.
  - destruct H2 as [|k v m F S]; [reflexivity|].
    exfalso. assert (X : @assoc A k v []) by (apply E; constructor). inversion X.
  - destruct H2 as [|k2 v2 m2 F2 S2].
    { exfalso. assert (X : @assoc A k v []) by (apply E; constructor). inversion X. }
    assert (Ek : k = k2).
    { assert (X : assoc k v ((k2, v2) :: m2)) by (apply E; constructor).
      assert (Y : assoc k2 v2 ((k, v) :: m)) by (apply E; constructor).
      inversion X as [|? ? ? N1 X1]; subst; [reflexivity|].
      inversion Y as [|? ? ? N2 Y1]; subst; [reflexivity|].
      exfalso. apply (key_lt_irrefl k). eapply key_lt_trans.
      - exact (sorted_head_lt A k v m _ _ (so_cons k v m F S) Y1).
      - exact (sorted_head_lt A k2 v2 m2 _ _ (so_cons k2 v2 m2 F2 S2) X1). }
    subst k2.
    assert (Ev : v = v2).
    { exact (assoc_det A k v v2 _ (proj1 (E k v) (as_here k v m)) (as_here k v2 m2)). }
    subst v2. f_equal. apply IH; [assumption|].
    intros k2 v2. split; intro X.
    + assert (L : key_lt k k2) by (exact (sorted_head_lt A k v m _ _ (so_cons k v m F S) X)).
      assert (N : k <> k2) by (intros ->; eapply key_lt_irrefl; eassumption).
      assert (Y : assoc k2 v2 ((k, v) :: m2)) by (apply E; apply as_next; assumption).
      inversion Y; subst; [contradiction N; reflexivity|assumption].
    + assert (L : key_lt k k2) by (exact (sorted_head_lt A k v m2 _ _ (so_cons k v m2 F2 S2) X)).
      assert (N : k <> k2) by (intros ->; eapply key_lt_irrefl; eassumption).
      assert (Y : assoc k2 v2 ((k, v) :: m)) by (apply E; apply as_next; assumption).
      inversion Y; subst; [contradiction N; reflexivity|assumption].
Qed.

(** ** emplace, set, erase *)

Lemma emplace_keys : forall A k (v : A) m x, In x (map fst (obj_emplace k v m)) -> x = k \/ In x (map fst m).
Proof.
  intros A k v m x. induction m as [|[k' v'] m IH]; cbn [obj_emplace map fst].
  - intros [H|[]]; auto.
  - destruct (str_ltb k k'); [|destruct (str_eqb k k')]; cbn [map fst In]; intuition.
Qed.

Lemma set_keys : forall A k (v : A) m x, In x (map fst (obj_set k v m)) -> x = k \/ In x (map fst m).
Proof.
  intros A k v m x. induction m as [|[k' v'] m IH]; cbn [obj_set map fst].
  - intros [H|[]]; auto.
  - destruct (str_ltb k k'); [|destruct (str_eqb k k')]; cbn [map fst In]; intuition.
Qed.

Lemma erase_keys : forall A k (m : list (str * A)) p, In p (obj_erase k m) -> In p m.
Proof.
  intros A k m p. induction m as [|[k' v'] m IH]; cbn [obj_erase]; [auto|].
  destruct (str_eqb k k'); cbn [In]; intuition.
Qed.

Lemma Forall_fst : forall A (P : str -> Prop) (m : list (str * A)),
  Forall (fun p => P (fst p)) m <-> (forall x, In x (map fst m) -> P x).
Proof.
  intros A P m. rewrite Forall_forall. split.
  - intros H x Hx. apply in_map_iff in Hx. destruct Hx as (p & <- & Hp). auto.
  - intros H p Hp. apply H. apply in_map. assumption.
Qed.

Lemma Forall_lt_trans : forall A a b (m : list (str * A)), key_lt a b ->
  Forall (fun p => key_lt b (fst p)) m -> Forall (fun p => key_lt a (fst p)) m.
Proof. intros A a b m L F. eapply Forall_impl; [|exact F]. intros p Hp. eapply key_lt_trans; eassumption. Qed.

Lemma emplace_sorted : forall A k (v : A) m, sorted m -> sorted (obj_emplace k v m).
Proof.
  intros A k v m H. induction H as [|k' v' m F S IH]; cbn [obj_emplace].
  - repeat constructor.
  - destruct (str_ltb k k') eqn:L.
    + apply str_ltb_iff in L. constructor; [|constructor; assumption].
      constructor; [assumption|]. eapply Forall_lt_trans; eassumption.
    + destruct (str_eqb k k') eqn:E; [constructor; assumption|].
      pose proof (str_cmp _ _ L E) as G. constructor; [|assumption].
      apply (Forall_fst _ (fun x => key_lt k' x)). intros x Hx. apply emplace_keys in Hx. destruct Hx as [->|Hx]; [assumption|].
      apply (Forall_fst _ (fun x => key_lt k' x)) with (x := x) in F; assumption.
Qed.

Lemma set_sorted : forall A k (v : A) m, sorted m -> sorted (obj_set k v m).
Proof.
  intros A k v m H. induction H as [|k' v' m F S IH]; cbn [obj_set].
  - repeat constructor.
  - destruct (str_ltb k k') eqn:L.
    + apply str_ltb_iff in L. constructor; [|constructor; assumption].
      constructor; [assumption|]. eapply Forall_lt_trans; eassumption.
    + destruct (str_eqb k k') eqn:E; [constructor; assumption|].
      pose proof (str_cmp _ _ L E) as G. constructor; [|assumption].
      apply (Forall_fst _ (fun x => key_lt k' x)). intros x Hx. apply set_keys in Hx. destruct Hx as [->|Hx]; [assumption|].
      apply (Forall_fst _ (fun x => key_lt k' x)) with (x := x) in F; assumption.
Qed.

Lemma erase_sorted : forall A k (m : list (str * A)), sorted m -> sorted (obj_erase k m).
Proof.
  intros A k m H. induction H as [|k' v' m F S IH]; cbn [obj_erase]; [constructor|].
  destruct (str_eqb k k'); [assumption|]. constructor; [|assumption].
  rewrite Forall_forall in *. intros p Hp. apply F. eapply erase_keys. eassumption.
Qed.

Lemma find_head_none : forall A k k' (v' : A) m, sorted ((k', v') :: m) -> str_ltb k k' = true ->
  obj_find k ((k', v') :: m) = None.
Proof.
  intros A k k' v' m H L. apply str_ltb_iff in L. apply find_none_iff. intros w Hw.
  inversion Hw as [|? ? ? N X]; subst; [eapply key_lt_irrefl; eassumption|].
  eapply key_lt_irrefl. eapply key_lt_trans; [exact L|]. eapply sorted_head_lt; eassumption.
Qed.

Lemma find_emplace : forall A k (v : A) m k2, sorted m ->
  obj_find k2 (obj_emplace k v m) =
  match obj_find k2 m with
  | Some w => Some w
  | None => if str_eqb k2 k then Some v else None
  end.
Proof.
  intros A k v m k2 H. induction H as [|k' v' m F S IH]; cbn [obj_emplace].
  - cbn [obj_find]. destruct (str_eqb k2 k); reflexivity.
  - destruct (str_ltb k k') eqn:L.
    + cbn [obj_find]. destruct (str_eqb k2 k) eqn:E.
      * apply str_eqb_iff in E. subst k2.
        pose proof (find_head_none A k k' v' m ltac:(constructor; assumption) L) as X. cbn [obj_find] in X.
        rewrite X. reflexivity.
      * destruct (str_eqb k2 k'); [reflexivity|]. destruct (obj_find k2 m); reflexivity.
    + destruct (str_eqb k k') eqn:E; cbn [obj_find].
      * apply str_eqb_iff in E. subst k'. destruct (str_eqb k2 k) eqn:E2; [reflexivity|].
        destruct (obj_find k2 m); reflexivity.
      * destruct (str_eqb k2 k') eqn:E2; [reflexivity|]. assumption.
Qed.

Lemma find_set : forall A k (v : A) m k2, sorted m ->
  obj_find k2 (obj_set k v m) = if str_eqb k2 k then Some v else obj_find k2 m.
Proof.
  intros A k v m k2 H. induction H as [|k' v' m F S IH]; cbn [obj_set].
  - reflexivity.
  - destruct (str_ltb k k') eqn:L; [reflexivity|].
    destruct (str_eqb k k') eqn:E; cbn [obj_find].
    + apply str_eqb_iff in E. subst k'. destruct (str_eqb k2 k); reflexivity.
    + destruct (str_eqb k2 k') eqn:E2; [|assumption].
      apply str_eqb_iff in E2. subst k2. rewrite (str_eqb_sym k' k), E. reflexivity.
Qed.

Lemma find_erase : forall A k (m : list (str * A)) k2, sorted m ->
  obj_find k2 (obj_erase k m) = if str_eqb k2 k then None else obj_find k2 m.
Proof.
  intros A k m k2 H. induction H as [|k' v' m F S IH]; cbn [obj_erase].
  - destruct (str_eqb k2 k); reflexivity.
  - destruct (str_eqb k k') eqn:E; cbn [obj_find].
    + apply str_eqb_iff in E. subst k'. destruct (str_eqb k2 k) eqn:E2; [|reflexivity].
      apply str_eqb_iff in E2. subst k2. apply find_none_iff. intros w Hw.
      exact (key_lt_irrefl _ (sorted_head_lt A k v' m _ _ (so_cons k v' m F S) Hw)).
    + destruct (str_eqb k2 k') eqn:E2; [|assumption].
      apply str_eqb_iff in E2. subst k2. rewrite (str_eqb_sym k' k), E. reflexivity.
Qed.

(** ** The object a member list denotes *)

Definition emplace_all (ms m : list (str * value)) : list (str * value) :=
  fold_left (fun m p => obj_emplace (fst p) (snd p) m) ms m.

Lemma emplace_all_sorted : forall ms m, sorted m -> sorted (emplace_all ms m).
Proof.
  induction ms as [|[k v] ms IH]; intros m H; [assumption|].
  cbn [emplace_all fold_left]. apply IH. apply emplace_sorted. assumption.
Qed.

Lemma emplace_all_find : forall ms m k, sorted m ->
  obj_find k (emplace_all ms m) =
  match obj_find k m with Some v => Some v | None => obj_find k ms end.
Proof.
  induction ms as [|[k0 v0] ms IH]; intros m k H; cbn [emplace_all fold_left fst snd].
  - destruct (obj_find k m); reflexivity.
  - change (fold_left _ ms ?x) with (emplace_all ms x). rewrite IH by (apply emplace_sorted; assumption).
    rewrite find_emplace by assumption. cbn [obj_find]. destruct (obj_find k m); [reflexivity|].
    destruct (str_eqb k k0); reflexivity.
Qed.

Lemma obj_of_iff : forall ms m, obj_of ms m <-> m = emplace_all ms [].
Proof.
  intros ms m.
  assert (O : obj_of ms (emplace_all ms [])).
  { split; [apply emplace_all_sorted; constructor|].
    intros k v. rewrite <- !find_iff. rewrite emplace_all_find by constructor. reflexivity. }
  split; [|intros ->; exact O].
  intros [S E]. destruct O as [S' E']. apply sorted_unique; [assumption|assumption|].
  intros k v. rewrite <- E, <- E'. reflexivity.
Qed.
