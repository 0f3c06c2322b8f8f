(** Further facts about the comparison operators. *)
From Coq Require Import Lia ZifyBool ZifyNat ZifyN Floats.SpecFloat.
From Verif Require Import Base Value ValueOps Compare SpecGrammar ObjFacts ValueProofs SpecCompare CompareProofs CompareOrder.
Open Scope Z_scope.

Lemma list_eqb_self : forall A (eq : A -> A -> bool) l, list_eqb eq l l = true -> forall x, In x l -> eq x x = true.
Proof.
  induction l as [|y l IH]; intros H x []; cbn [list_eqb] in H; apply andb_prop in H; destruct H as [H1 H2]; [subst; assumption|auto].
Qed.

Lemma eqb_refl_iff : forall a, v_eqb a a = true <-> nan_free a.
Proof.
  intro a. split; [|apply eqb_refl]. unfold nan_free. induction a as [|z|f|s|b|l IH|m IH] using value_deep; intro H; constructor.
  - exact Logic.I.
  - intros ->. discriminate H.
  - rewrite eqb_arr in H. intros x Hx. apply IH; [assumption|]. eapply list_eqb_self in H; eassumption.
  - rewrite eqb_obj in H. intros k x Hx. apply (IH k x Hx). eapply list_eqb_self in H; [|eassumption].
    unfold pair_eqb in H. apply andb_prop in H. apply H.
Qed.

Lemma eqb_not_trans : exists a b c, leaves_ok a_number i64 a /\ leaves_ok a_number i64 b /\ leaves_ok a_number i64 c /\
  v_eqb a b = true /\ v_eqb b c = true /\ v_eqb a c = false.
Proof.
  exists (VInt 9007199254740992), (VFloat (S754_finite false 4503599627370496 1)), (VInt 9007199254740993).
  split; [constructor; unfold i64; lia|]. split; [constructor; split; [vm_compute; reflexivity|discriminate]|].
  split; [constructor; unfold i64; lia|]. vm_compute. repeat split.
Qed.

Lemma neb_iff : forall a b, v_neb a b = true <-> v_eqb a b <> true.
Proof. intros a b. unfold v_neb. destruct (v_eqb a b); cbn; split; congruence. Qed.

Lemma ltb_cycle : exists a b c, v_ltb a b = true /\ v_ltb b c = true /\ v_ltb c a = true.
Proof.
  exists (VArr [VInt 1; VInt 1]), (VArr [VNull; VInt 2]), (VArr [VInt 0; VInt 3]). vm_compute. repeat split.
Qed.

Lemma leb_not_antisym : exists a b, v_leb a b = true /\ v_leb b a = true /\ v_eqb a b = false.
Proof. exists (VInt 1), VNull. vm_compute. repeat split. Qed.

Lemma derived_ops : forall a b, v_gtb a b = v_ltb b a /\ (v_leb a b = true <-> v_ltb b a = false) /\ (v_geb a b = true <-> v_ltb a b = false).
Proof.
  intros a b. unfold v_gtb, v_leb, v_geb. rewrite !negb_true_iff. repeat split; auto.
Qed.

Lemma lex_nil : forall A (lt un : A -> A -> Prop) l l', lex lt un l l' -> l' <> [].
Proof. intros A lt un l l' [p x t p' y t' _ _|l0 p y t _] E; apply app_eq_nil in E; destruct E; discriminate. Qed.

Lemma lex_cons : forall A (lt un : A -> A -> Prop) x y l l', lex lt un (x :: l) (y :: l') -> lt x y \/ (un x y /\ lex lt un l l').
Proof.
  intros A lt un x y l l' H. remember (x :: l) as a eqn:Ea. remember (y :: l') as b eqn:Eb.
  destruct H as [p x0 t p' y0 t' F L|l0 p y0 t F].
  - destruct F as [|x1 y1 p p' U F]; cbn [app] in *; injection Ea as E1 E2; injection Eb as E3 E4; subst; [auto|].
    right. split; [assumption|]. apply lx_here; assumption.
  - subst l0. inversion F as [|? y1 ? p0 U F']; subst. cbn [app] in Eb. injection Eb as E1 E2. subst. right. split; [assumption|]. apply lx_prefix. assumption.
Qed.

Lemma list_lex : forall A (ltb : A -> A -> bool) (lt un : A -> A -> Prop),
  (forall x y, ltb x y = true <-> lt x y) -> (forall x y, (ltb x y = false /\ ltb y x = false) <-> un x y) ->
  (forall x y, ltb x y = true -> ltb y x = false) ->
  forall l l', list_ltb ltb l l' = true <-> lex lt un l l'.
Proof.
  intros A ltb lt un Hl Hu As. induction l as [|x l IH]; intros [|y l']; cbn [list_ltb].
  - split; [discriminate|]. intro H. apply lex_nil in H. congruence.
  - split; [|reflexivity]. intros _. apply (lx_prefix lt un [] []). constructor.
  - split; [discriminate|]. intro H. apply lex_nil in H. congruence.
  - destruct (ltb x y) eqn:E1; [|destruct (ltb y x) eqn:E2].
    + split; [|reflexivity]. intros _. apply (lx_here lt un [] x l [] y l'); [constructor|]. apply Hl. assumption.
    + split; [discriminate|]. intro H. exfalso. apply lex_cons in H. destruct H as [H|[H _]].
      * apply Hl in H. congruence.
      * apply Hu in H. destruct H. congruence.
    + rewrite IH. assert (U : un x y) by (apply Hu; auto). split; intro H.
      * destruct H as [p x0 t p' y0 t' F L|l p y0 t F].
        -- apply (lx_here lt un (x :: p) x0 t (y :: p') y0 t'); [constructor; assumption|assumption].
        -- apply (lx_prefix lt un (x :: l) (y :: p)). constructor; assumption.
      * apply lex_cons in H. destruct H as [H|[_ H]]; [|assumption]. apply Hl in H. congruence.
Qed.

Lemma ltb_lex_arr : forall l l', v_ltb (VArr l) (VArr l') = true <-> lex less unordered l l'.
Proof.
  intros l l'. rewrite ltb_arr. apply list_lex; [reflexivity|reflexivity|apply ltb_asym].
Qed.

Lemma pair_ltb_asym : forall p q, pair_ltb p q = true -> pair_ltb q p = false.
Proof.
  intros [k v] [k' v'] E. unfold pair_ltb in *. cbn [fst snd] in *. destruct (str_ltb k k') eqn:E1.
  - rewrite (str_ltb_asym _ _ E1). reflexivity.
  - destruct (str_ltb k' k) eqn:E2; [discriminate|]. cbn [orb negb andb] in *. apply ltb_asym. assumption.
Qed.

Lemma ltb_lex_obj : forall m m', v_ltb (VObj m) (VObj m') = true <-> lex entry_less entry_unordered m m'.
Proof.
  assert (F : forall k k', str_ltb k k' = false -> str_ltb k' k = false -> k = k').
  { intros k k' A B. apply str_ltb_false in A. apply str_ltb_false in B. destruct (key_lt_trich k k') as [X|[X|X]]; [contradiction|assumption|contradiction]. }
  assert (R : forall k, str_ltb k k = false) by (intro k; apply str_ltb_false, key_lt_irrefl).
  intros m m'. rewrite ltb_obj. apply list_lex; [| |apply pair_ltb_asym]; intros [k x] [k' y];
    unfold pair_ltb, entry_less, entry_unordered, less, unordered; cbn [fst snd].
  - rewrite <- str_ltb_iff. destruct (str_ltb k k') eqn:E; cbn [orb]; [intuition|].
    destruct (str_ltb k' k) eqn:E2; cbn [negb andb].
    + split; [discriminate|]. intros [X|[-> X]]; [discriminate|]. rewrite R in E2. discriminate.
    + rewrite (F k k' E E2). intuition discriminate.
  - destruct (str_ltb k k') eqn:E; cbn [orb].
    + split; [intros [X _]; discriminate|]. intros [-> _]. rewrite R in E. discriminate.
    + destruct (str_ltb k' k) eqn:E2; cbn [orb negb andb].
      * split; [intros [_ X]; discriminate|]. intros [-> _]. rewrite R in E2. discriminate.
      * rewrite (F k k' E E2). tauto.
Qed.

(** ** Scalars *)
Lemma ltb_scalar_iff :
  (forall p q, v_ltb (VBool p) (VBool q) = true <-> p = false /\ q = true) /\
  (forall x y, v_ltb (VInt x) (VInt y) = true <-> (x < y)%Z) /\
  (forall s s', v_ltb (VStr s) (VStr s') = true <-> key_lt s s') /\
  (forall b, v_ltb VNull b = false) /\ (forall a, v_ltb a VNull = false).
Proof.
  split; [intros [|] [|]; cbn; intuition discriminate|]. split; [intros x y; unfold v_ltb; cbn [v_cmp fst]; lia|].
  split; [intros s s'; unfold v_ltb; cbn [v_cmp fst]; apply str_ltb_iff|]. split; [intros []; reflexivity|intros []; reflexivity].
Qed.
