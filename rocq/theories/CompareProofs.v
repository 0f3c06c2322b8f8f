(** Proofs about the comparison operators. *)
From Coq Require Import Lia ZifyBool ZifyNat ZifyN Floats.SpecFloat.
From Verif Require Import Base Value ValueOps Compare SpecGrammar ObjFacts SpecText FloatFacts SpecCompare ValueProofs.
Open Scope Z_scope.

(** ** Doubles compare by value *)
Lemma mant_bounds : forall m e, bounded 53 1024 m e = true ->
  Z.pos m < 2 ^ 53 /\ -1074 <= e <= 971 /\ (-1074 < e -> 2 ^ 52 <= Z.pos m).
Proof.
  intros m e B. apply canon in B. destruct B as [B L]. unfold fexp, emin in B.
  destruct (digits_bound m) as [D1 D2]. split; [|split].
  - eapply Z.lt_le_trans; [exact D1|]. apply Z.pow_le_mono_r; lia.
  - lia.
  - intro H. assert (E : Z.pos (digits2_pos m) = 53) by lia. rewrite E in D2. exact D2.
Qed.

Lemma fin_bound : forall m e, bounded 53 1024 m e = true -> 0 < Z.pos m * 2 ^ (e + 1074) < 2 ^ 2100.
Proof.
  intros m e B. apply mant_bounds in B. destruct B as (B1 & B2 & _).
  assert (0 < 2 ^ (e + 1074)) by (apply Z.pow_pos_nonneg; lia). split; [nia|].
  assert (2 ^ (e + 1074) <= 2 ^ 2047) by (apply Z.pow_le_mono_r; lia).
  change (2 ^ 2100) with (2 ^ 53 * 2 ^ 2047). nia.
Qed.

Lemma fin_exp : forall m1 e1 m2 e2, bounded 53 1024 m1 e1 = true -> bounded 53 1024 m2 e2 = true -> e1 < e2 ->
  Z.pos m1 * 2 ^ (e1 + 1074) < Z.pos m2 * 2 ^ (e2 + 1074).
Proof.
  intros m1 e1 m2 e2 B1 B2 L. apply mant_bounds in B1. apply mant_bounds in B2.
  destruct B1 as (A1 & A2 & _). destruct B2 as (C1 & C2 & C3). specialize (C3 ltac:(lia)).
  assert (P : 0 < 2 ^ (e1 + 1074)) by (apply Z.pow_pos_nonneg; lia).
  assert (Q : 2 ^ (e1 + 1074) * 2 <= 2 ^ (e2 + 1074)).
  { replace (2 ^ (e1 + 1074) * 2) with (2 ^ (Z.succ (e1 + 1074))) by (rewrite Z.pow_succ_r by lia; lia).
    apply Z.pow_le_mono_r; lia. }
  change (2 ^ 53) with (2 * 2 ^ 52) in A1. generalize dependent (2 ^ 52). intros t. nia.
Qed.

Lemma cmp_scaled : forall f g, a_number f -> a_number g -> SFcompare f g = Some (scaled f ?= scaled g).
Proof.
  intros f g [Vf Nf] [Vg Ng]. unfold a_double in *.
  destruct f as [s|s| |s m e]; destruct g as [t|t| |t n d]; try congruence; cbn [SFcompare scaled valid_binary] in *.
  - reflexivity.
  - destruct t; reflexivity.
  - pose proof (fin_bound _ _ Vg). destruct t; f_equal; symmetry; [apply Z.compare_gt_iff|apply Z.compare_lt_iff]; lia.
  - destruct s; reflexivity.
  - destruct s, t; reflexivity.
  - pose proof (fin_bound _ _ Vg). destruct s, t; f_equal; symmetry;
      (apply Z.compare_gt_iff + apply Z.compare_lt_iff); lia.
  - pose proof (fin_bound _ _ Vf). destruct s; f_equal; symmetry; [apply Z.compare_lt_iff|apply Z.compare_gt_iff]; lia.
  - pose proof (fin_bound _ _ Vf). destruct s, t; f_equal; symmetry;
      (apply Z.compare_gt_iff + apply Z.compare_lt_iff); lia.
  - pose proof (fin_bound _ _ Vf) as Bf. pose proof (fin_bound _ _ Vg) as Bg.
    assert (C : (match e ?= d with Eq => Pos.compare_cont Eq m n | c => c end) =
                (Z.pos m * 2 ^ (e + 1074) ?= Z.pos n * 2 ^ (d + 1074))).
    { destruct (Z.compare_spec e d) as [E|L|G].
      - subst d. change (Pos.compare_cont Eq m n) with (Z.pos m ?= Z.pos n). apply mant_bounds in Vf.
        assert (0 < 2 ^ (e + 1074)) by (apply Z.pow_pos_nonneg; lia). apply Zmult_compare_compat_r. lia.
      - symmetry. apply Z.compare_lt_iff. apply fin_exp; assumption.
      - symmetry. apply Z.compare_gt_iff. apply fin_exp; assumption. }
    destruct s, t; f_equal.
    + rewrite Z.compare_opp, (Z.compare_antisym (Z.pos m * 2 ^ (e + 1074))), <- C. destruct (e ?= d); reflexivity.
    + symmetry. apply Z.compare_lt_iff. lia.
    + symmetry. apply Z.compare_gt_iff. lia.
    + rewrite <- C. destruct (e ?= d); reflexivity.
Qed.

Lemma feqb_scaled : forall f g, a_double f -> a_double g ->
  (SFeqb f g = true <-> f <> S754_nan /\ g <> S754_nan /\ scaled f = scaled g).
Proof.
  intros f g Vf Vg. unfold SFeqb.
  assert (D : {f = S754_nan} + {f <> S754_nan}) by (destruct f; (left; reflexivity) || (right; discriminate)).
  assert (D' : {g = S754_nan} + {g <> S754_nan}) by (destruct g; (left; reflexivity) || (right; discriminate)).
  destruct D as [->|Nf]; [split; [discriminate|tauto]|]. destruct D' as [->|Ng]; [split; [destruct f; discriminate|tauto]|].
  rewrite cmp_scaled by (split; assumption). destruct (Z.compare_spec (scaled f) (scaled g)); split; intro X; try tauto;
    try discriminate; try lia; try reflexivity.
Qed.

Lemma fltb_scaled : forall f g, a_number f -> a_number g -> (SFltb f g = true <-> scaled f < scaled g).
Proof.
  intros f g Vf Vg. unfold SFltb. rewrite cmp_scaled by assumption.
  destruct (Z.compare_spec (scaled f) (scaled g)); split; intro X; try discriminate; try lia; reflexivity.
Qed.

Lemma pcc_sym : forall m n, Pos.compare_cont Eq n m = CompOpp (Pos.compare_cont Eq m n).
Proof. intros m n. change (Pos.compare_cont Eq n m) with (Pos.compare n m). apply Pos.compare_antisym. Qed.

Lemma fcmp_sym : forall f g, SFcompare g f = match SFcompare f g with Some c => Some (CompOpp c) | None => None end.
Proof.
  intros f g. destruct f as [s|s| |s m e]; destruct g as [t|t| |t n d]; cbn [SFcompare]; try reflexivity;
    try (destruct s); try (destruct t); try reflexivity;
    rewrite (Z.compare_antisym e d), (pcc_sym m n); destruct (e ?= d); cbn [CompOpp]; reflexivity.
Qed.

Lemma feqb_sym : forall f g, SFeqb f g = SFeqb g f.
Proof. intros f g. unfold SFeqb. rewrite (fcmp_sym f g). destruct (SFcompare f g) as [[]|]; reflexivity. Qed.

Lemma feqb_refl : forall f, f <> S754_nan -> SFeqb f f = true.
Proof.
  intros f N. unfold SFeqb. destruct f as [s|s| |s m e]; cbn [SFcompare]; try congruence; destruct s; try reflexivity;
    rewrite Z.compare_refl; change (Pos.compare_cont Eq m m) with (Pos.compare m m); rewrite Pos.compare_refl; reflexivity.
Qed.

Lemma fltb_asym : forall f g, SFltb f g = true -> SFltb g f = false.
Proof. intros f g. unfold SFltb. rewrite (fcmp_sym f g). destruct (SFcompare f g) as [[]|]; intro; try discriminate; reflexivity. Qed.

(** small integers are exact *)
Lemma of_Z_opp : forall z, z <> 0 -> f64_of_Z (- z) = SFopp (f64_of_Z z).
Proof.
  assert (R : forall m e, binary_round 53 1024 true m e = SFopp (binary_round 53 1024 false m e)).
  { intros m e. unfold binary_round. destruct (shl_align m e _) as [m' e']. unfold binary_round_aux.
    destruct (shr_fexp 53 1024 (Z.pos m') e' loc_Exact) as [mr1 e1].
    destruct (shr_fexp 53 1024 _ e1 loc_Exact) as [mr2 e2].
    destruct (shr_m mr2); try reflexivity. destruct (e2 <=? 1024 - 53); reflexivity. }
  intros z N. unfold f64_of_Z, binary_normalize. destruct z as [|p|p]; [congruence| |]; cbn [Z.opp]; rewrite R; [reflexivity|].
  destruct (binary_round 53 1024 false p 0) as [s|s| |s m e]; cbn [SFopp]; rewrite ?negb_involutive; reflexivity.
Qed.

Lemma of_Z_pos : forall z, 0 <= z <= 2 ^ 53 -> a_number (f64_of_Z z) /\ scaled (f64_of_Z z) = z * 2 ^ 1074.
Proof.
  intros z H. destruct (Z.eq_dec z (2 ^ 53)) as [->|N].
  - split; [split; [reflexivity|vm_compute; discriminate]|vm_compute; reflexivity].
  - destruct (d_of_Z_small z ltac:(lia)) as [I V]. change (d_of_Z z) with (f64_of_Z z) in *.
    destruct (f64_of_Z z) as [s|s| |s m e]; cbn [is_int] in I; try contradiction.
    + subst z. split; [split; [exact V|discriminate]|]. cbn [scaled]. lia.
    + split; [split; [exact V|discriminate]|]. pose proof (mant_bounds m e V) as (_ & E & _).
      assert (G : forall z, (if 0 <=? e then z = Z.pos m * 2 ^ e else Z.pos m = z * 2 ^ (- e)) -> Z.pos m * 2 ^ (e + 1074) = z * 2 ^ 1074).
      { intros t Ht. destruct (Z.leb_spec 0 e) as [L|L].
        - rewrite Z.pow_add_r by lia. rewrite Ht. ring.
        - rewrite Ht. rewrite <- Z.mul_assoc, <- Z.pow_add_r by lia. do 2 f_equal. lia. }
      cbn [scaled]. destruct s.
      * exfalso. destruct (Z.leb_spec 0 e) as [L|L].
        -- assert (0 < 2 ^ e) by (apply Z.pow_pos_nonneg; lia). nia.
        -- assert (0 < 2 ^ (- e)) by (apply Z.pow_pos_nonneg; lia). nia.
      * apply G. destruct (Z.leb_spec 0 e); lia.
Qed.

Lemma of_Z_small : forall z, small z -> a_number (f64_of_Z z) /\ scaled (f64_of_Z z) = z * 2 ^ 1074.
Proof.
  intros z H. unfold small in H. destruct (Z_le_gt_dec 0 z) as [L|L]; [apply of_Z_pos; lia|].
  destruct (of_Z_pos (- z) ltac:(lia)) as [[V N] S1]. replace z with (- (- z)) by lia. rewrite of_Z_opp by lia.
  destruct (f64_of_Z (- z)) as [s|s| |s m e]; try congruence; cbn [SFopp] in *.
  - split; [split; [reflexivity|discriminate]|]. cbn [scaled] in *. lia.
  - split; [split; [reflexivity|discriminate]|]. destruct s; cbn [scaled negb] in *; lia.
  - split; [split; [exact V|discriminate]|]. destruct s; cbn [scaled negb] in *; lia.
Qed.

(** ** The operators as the standard library composes them *)
Definition pair_eqb (p q : str * value) : bool := str_eqb (fst p) (fst q) && v_eqb (snd p) (snd q).
Definition pair_ltb (p q : str * value) : bool :=
  str_ltb (fst p) (fst q) || (negb (str_ltb (fst q) (fst p)) && v_ltb (snd p) (snd q)).

Lemma eqb_arr : forall l l', v_eqb (VArr l) (VArr l') = list_eqb v_eqb l l'.
Proof. induction l as [|x l IH]; intros [|y l']; cbn [v_eqb list_eqb]; try reflexivity. f_equal. apply IH. Qed.

Lemma eqb_obj : forall m m', v_eqb (VObj m) (VObj m') = list_eqb pair_eqb m m'.
Proof. induction m as [|[k x] m IH]; intros [|[k' y] m']; cbn [v_eqb list_eqb]; try reflexivity. f_equal. apply IH. Qed.

Definition arr_cmp : list value -> list value -> bool * bool :=
  fix go (l l' : list value) : bool * bool :=
         match l, l' with
         | [], [] => (false, false)
         | [], _ :: _ => (true, false)
         | _ :: _, [] => (false, true)
         | x :: t, y :: t' =>
             let '(lt, gt) := v_cmp x y in
             let '(lt', gt') := go t t' in
             (if lt then true else if gt then false else lt',
              if gt then true else if lt then false else gt')
         end.
Definition obj_cmp : list (str * value) -> list (str * value) -> bool * bool :=
  fix go (m m' : list (str * value)) : bool * bool :=
         match m, m' with
         | [], [] => (false, false)
         | [], _ :: _ => (true, false)
         | _ :: _, [] => (false, true)
         | (k, x) :: t, (k', y) :: t' =>
             let '(lt0, gt0) := v_cmp x y in
             let lt := str_ltb k k' || (negb (str_ltb k' k) && lt0) in
             let gt := str_ltb k' k || (negb (str_ltb k k') && gt0) in
             let '(lt', gt') := go t t' in
             (if lt then true else if gt then false else lt',
              if gt then true else if lt then false else gt')
         end.

Lemma cmp_swap : forall a b, v_cmp b a = (snd (v_cmp a b), fst (v_cmp a b)).
Proof.
  intro a. induction a as [|z|f|s|b|l IH|m IH] using value_deep; intros b'; destruct b' as [|z'|f'|s'|l'|m'|b']; try reflexivity.
  - change (v_cmp (VArr l') (VArr l)) with (arr_cmp l' l). change (v_cmp (VArr l) (VArr l')) with (arr_cmp l l').
    revert l'. induction l as [|x l IHl]; intros [|y l']; try reflexivity. cbn [arr_cmp].
    fold arr_cmp. rewrite (IH x (or_introl eq_refl) y). rewrite (IHl (fun z Hz => IH z (or_intror Hz)) l').
    destruct (v_cmp x y) as [p q]. destruct (arr_cmp l l') as [p' q']. cbn [fst snd]. destruct p, q; reflexivity.
  - change (v_cmp (VObj m') (VObj m)) with (obj_cmp m' m). change (v_cmp (VObj m) (VObj m')) with (obj_cmp m m').
    revert m'. induction m as [|[k x] m IHm]; intros [|[k' y] m']; try reflexivity. cbn [obj_cmp].
    fold obj_cmp. rewrite (IH k x (or_introl eq_refl) y). rewrite (IHm (fun k z Hz => IH k z (or_intror Hz)) m').
    destruct (v_cmp x y) as [p q]. destruct (obj_cmp m m') as [p' q']. cbn [fst snd].
    reflexivity.
Qed.

Lemma ltb_arr : forall l l', v_ltb (VArr l) (VArr l') = list_ltb v_ltb l l'.
Proof.
  intros l l'. unfold v_ltb at 1. change (v_cmp (VArr l) (VArr l')) with (arr_cmp l l').
  revert l'. induction l as [|x l IHl]; intros [|y l']; try reflexivity. cbn [arr_cmp list_ltb]. fold arr_cmp.
  rewrite <- IHl. unfold v_ltb. rewrite (cmp_swap x y). destruct (v_cmp x y) as [p q]. destruct (arr_cmp l l') as [p' q'].
  reflexivity.
Qed.

Lemma ltb_obj : forall m m', v_ltb (VObj m) (VObj m') = list_ltb pair_ltb m m'.
Proof.
  intros m m'. unfold v_ltb at 1. change (v_cmp (VObj m) (VObj m')) with (obj_cmp m m').
  revert m'. induction m as [|[k x] m IHm]; intros [|[k' y] m']; try reflexivity. cbn [obj_cmp list_ltb]. fold obj_cmp.
  rewrite <- IHm. unfold pair_ltb, v_ltb. cbn [fst snd]. rewrite (cmp_swap x y). destruct (v_cmp x y) as [p q].
  destruct (obj_cmp m m') as [p' q']. reflexivity.
Qed.

(** ** Equality *)
Lemma list_eqb_sym : forall A (eq : A -> A -> bool) l l', (forall x y, In x l -> eq x y = eq y x) ->
  list_eqb eq l l' = list_eqb eq l' l.
Proof.
  induction l as [|x l IH]; intros [|y l'] H; cbn [list_eqb]; try reflexivity.
  rewrite (H x y (or_introl eq_refl)). f_equal. apply IH. intros. apply H. right. assumption.
Qed.

Lemma eqb_sym : forall a b, v_eqb a b = v_eqb b a.
Proof.
  intro a. induction a as [|z|f|s|b|l IH|m IH] using value_deep; intros b'; destruct b' as [|z'|f'|s'|l'|m'|b']; try reflexivity.
  - apply Z.eqb_sym.
  - apply feqb_sym.
  - apply feqb_sym.
  - apply feqb_sym.
  - apply str_eqb_sym.
  - cbn [v_eqb]. destruct b, b'; reflexivity.
  - rewrite !eqb_arr. apply list_eqb_sym. auto.
  - rewrite !eqb_obj. apply list_eqb_sym. intros [k x] [k' y] Hi. unfold pair_eqb. cbn [fst snd]. rewrite str_eqb_sym. f_equal. eapply IH. eassumption.
Qed.

Lemma list_eqb_refl : forall A (eq : A -> A -> bool) l, (forall x, In x l -> eq x x = true) -> list_eqb eq l l = true.
Proof.
  induction l as [|x l IH]; intro H; cbn [list_eqb]; [reflexivity|]. rewrite (H x (or_introl eq_refl)). apply IH.
  intros. apply H. right. assumption.
Qed.

Lemma eqb_refl : forall a, nan_free a -> v_eqb a a = true.
Proof.
  unfold nan_free. intro a. induction a as [|z|f|s|b|l IH|m IH] using value_deep; intro H.
  - reflexivity.
  - apply Z.eqb_refl.
  - apply feqb_refl. inversion H. assumption.
  - apply str_eqb_refl.
  - destruct b; reflexivity.
  - rewrite eqb_arr. inversion H; subst. apply list_eqb_refl. intros x Hx. apply IH; auto.
  - rewrite eqb_obj. inversion H; subst. apply list_eqb_refl. intros [k x] Hx. unfold pair_eqb. cbn [fst snd].
    rewrite str_eqb_refl. eapply IH; eauto.
Qed.

Lemma list_eqb_all : forall A (eq : A -> A -> bool) (R : A -> A -> Prop) l l',
  (forall x y, In x l -> In y l' -> (eq x y = true <-> R x y)) -> (list_eqb eq l l' = true <-> Forall2 R l l').
Proof.
  induction l as [|x l IH]; intros [|y l'] H; cbn [list_eqb]; split; intro X; try discriminate; try (inversion X; fail); auto.
  - apply andb_prop in X. destruct X as [X1 X2]. constructor.
    + apply H; [left; reflexivity|left; reflexivity|assumption].
    + apply IH; [|assumption]. intros. apply H; right; assumption.
  - inversion X; subst. apply andb_true_intro. split.
    + apply H; [left; reflexivity|left; reflexivity|assumption].
    + apply IH; [|assumption]. intros. apply H; right; assumption.
Qed.

Lemma Forall2_eq : forall A (l l' : list A), Forall2 eq l l' <-> l = l'.
Proof.
  intros A l l'. split; intro H.
  - induction H; [reflexivity|]. subst. reflexivity.
  - subst. induction l'; constructor; auto.
Qed.

Lemma eqb_structural : forall a b, float_free a -> float_free b -> (v_eqb a b = true <-> a = b).
Proof.
  unfold float_free. intro a. induction a as [|z|f|s|b|l IH|m IH] using value_deep; intros b' Ha Hb;
    destruct b' as [|z'|f'|s'|l'|m'|b']; try (inversion Ha; contradiction); try (inversion Hb; contradiction);
    try (split; [intro X; discriminate X|discriminate]).
  - split; reflexivity.
  - cbn [v_eqb]. rewrite Z.eqb_eq. split; congruence.
  - cbn [v_eqb]. rewrite str_eqb_iff. split; congruence.
  - cbn [v_eqb]. rewrite eqb_true_iff. split; congruence.
  - rewrite eqb_arr. inversion Ha; subst. inversion Hb; subst. rewrite (list_eqb_all _ _ eq) by (intros; apply IH; auto).
    rewrite Forall2_eq. split; congruence.
  - rewrite eqb_obj. inversion Ha; subst. inversion Hb; subst. rewrite (list_eqb_all _ _ eq).
    + rewrite Forall2_eq. split; congruence.
    + intros [k x] [k' y] Hx Hy. unfold pair_eqb. cbn [fst snd]. rewrite andb_true_iff, str_eqb_iff, (IH k x Hx y) by eauto.
      split; [intros []; congruence|]. intro E. injection E as -> ->. auto.
Qed.

