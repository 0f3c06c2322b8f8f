(** Equality as equality of content, and the orders operator< makes. *)
From Coq Require Import Lia ZifyBool ZifyNat ZifyN Floats.SpecFloat.
From Verif Require Import Base Value ValueOps Compare SpecGrammar ObjFacts SpecText FloatFacts SpecCompare ValueProofs CompareProofs.
Open Scope Z_scope.

(** ** Rounding an integer gives a double *)
Lemma shr1_m : forall m r s, 0 <= m -> shr_m (shr_1 {| shr_m := m; shr_r := r; shr_s := s |}) = m / 2.
Proof.
  intros m r s H. destruct m as [|[p|p|]|p]; cbn [shr_1 shr_m]; try lia; try reflexivity.
Qed.

Lemma shr_iter_m : forall k x, 0 <= shr_m x -> shr_m (SpecFloat.iter_pos shr_1 k x) = shr_m x / 2 ^ Z.pos k.
Proof.
  intros k. induction k as [|k IH] using Pos.peano_ind; intros x H.
  - cbn [SpecFloat.iter_pos]. destruct x as [m r s]. rewrite shr1_m by assumption. reflexivity.
  - rewrite iter_pos_S. destruct (SpecFloat.iter_pos shr_1 k x) as [m r s] eqn:E.
    specialize (IH x H). rewrite E in IH. cbn [shr_m] in IH.
    assert (P : 0 < 2 ^ Z.pos k) by (apply Z.pow_pos_nonneg; lia).
    rewrite shr1_m by (rewrite IH; apply Z.div_pos; lia).
    rewrite IH, Pos2Z.inj_succ, Z.pow_succ_r, Z.div_div by lia. f_equal. lia.
Qed.

Lemma rne_range : forall m l, round_nearest_even m l = m \/ round_nearest_even m l = m + 1.
Proof. intros m [|[]]; cbn [round_nearest_even]; auto. destruct (Z.even m); auto. Qed.

Lemma digits_exact : forall p k, 0 < k -> 2 ^ (k - 1) <= Z.pos p < 2 ^ k -> Z.pos (digits2_pos p) = k.
Proof.
  intros p k K [L U]. pose proof (digits_le p k ltac:(lia) U) as H1. destruct (digits_bound p) as [B _].
  destruct (Z_le_gt_dec k (Z.pos (digits2_pos p))) as [|G]; [lia|].
  assert (2 ^ Z.pos (digits2_pos p) <= 2 ^ (k - 1)) by (apply Z.pow_le_mono_r; lia). lia.
Qed.

Lemma of_pos_double : forall p, Z.pos p < 2 ^ 64 -> a_number (f64_of_Z (Z.pos p)).
Proof.
  intros p H. destruct (Z_le_gt_dec (Z.pos p) (2 ^ 53)) as [L|G]; [apply of_Z_pos; lia|].
  pose proof (digits_bound p) as [D1 D2]. pose proof (digits_le p 64 ltac:(lia) H) as D3.
  set (d := Z.pos (digits2_pos p)) in *.
  assert (D4 : 54 <= d). { destruct (Z_le_gt_dec 54 d) as [|X]; [assumption|]. assert (2 ^ d <= 2 ^ 53) by (apply Z.pow_le_mono_r; lia). lia. }
  unfold f64_of_Z, binary_normalize, binary_round. fold d. rewrite Z.add_0_r.
  assert (F : fexp 53 1024 d = d - 53) by (unfold fexp, emin; lia). rewrite F.
  unfold shl_align. destruct (d - 53 - 0) as [|q|q] eqn:Eq; try lia.
  unfold binary_round_aux, shr_fexp at 1. cbn [Zdigits2 shr_record_of_loc]. fold d. rewrite Z.add_0_r, F. rewrite Eq. cbn [shr].
  set (mr := SpecFloat.iter_pos shr_1 q _).
  assert (M : shr_m mr = Z.pos p / 2 ^ (d - 53)).
  { unfold mr. rewrite shr_iter_m by (cbn [shr_m]; lia). cbn [shr_m]. do 2 f_equal. lia. }
  assert (P : 0 < 2 ^ (d - 53)) by (apply Z.pow_pos_nonneg; lia).
  assert (B : 2 ^ 52 <= shr_m mr < 2 ^ 53).
  { rewrite M. split.
    - apply Z.div_le_lower_bound; [assumption|]. rewrite Z.mul_comm, <- Z.pow_add_r by lia. replace (52 + (d - 53)) with (d - 1) by lia. assumption.
    - apply Z.div_lt_upper_bound; [assumption|]. rewrite Z.mul_comm, <- Z.pow_add_r by lia. replace (53 + (d - 53)) with d by lia. assumption. }
  set (r := round_nearest_even (shr_m mr) (loc_of_shr_record mr)).
  assert (R : 2 ^ 52 <= r <= 2 ^ 53) by (unfold r; destruct (rne_range (shr_m mr) (loc_of_shr_record mr)) as [->| ->]; lia).
  clearbody r. clear mr M B. unfold shr_fexp. destruct r as [|t|t]; try lia. cbn [Zdigits2 shr_record_of_loc].
  destruct (Z.eq_dec (Z.pos t) (2 ^ 53)) as [E|E].
  - injection E as ->. change (Z.pos (digits2_pos 9007199254740992)) with 54.
    replace (fexp 53 1024 (54 + (0 + Z.pos q)) - (0 + Z.pos q)) with 1 by (unfold fexp, emin; lia).
    cbn [shr SpecFloat.iter_pos shr_1 shr_m]. replace (0 + Z.pos q + 1 <=? 1024 - 53) with true by lia.
    split; [|discriminate]. unfold a_double. cbn [valid_binary]. unfold bounded, canonical_mantissa.
    apply andb_true_intro. split; [|lia]. apply Zeq_is_eq_bool. change (Z.pos (digits2_pos 4503599627370496)) with 53.
    unfold fexp, emin. lia.
  - pose proof (digits_exact t 53 ltac:(lia) ltac:(change (53 - 1) with 52; lia)) as Dt. rewrite Dt.
    replace (fexp 53 1024 (53 + (0 + Z.pos q)) - (0 + Z.pos q)) with 0 by (unfold fexp, emin; lia).
    cbn [shr shr_m]. replace (0 + Z.pos q <=? 1024 - 53) with true by lia.
    split; [|discriminate]. unfold a_double. cbn [valid_binary]. unfold bounded, canonical_mantissa. rewrite Dt.
    apply andb_true_intro. split; [|lia]. apply Zeq_is_eq_bool. unfold fexp, emin. lia.
Qed.

Lemma of_Z_number : forall z, - 2 ^ 64 < z < 2 ^ 64 -> a_number (f64_of_Z z).
Proof.
  intros z H. destruct z as [|p|p].
  - split; [reflexivity|discriminate].
  - apply of_pos_double. lia.
  - change (Z.neg p) with (- Z.pos p). rewrite of_Z_opp by lia. destruct (of_pos_double p ltac:(lia)) as [V N].
    destruct (f64_of_Z (Z.pos p)) as [s|s| |s m e]; try congruence; (split; [exact V|discriminate]).
Qed.

(** ** Equality of content *)
Lemma i64_number : forall z, i64 z -> a_number (f64_of_Z z).
Proof. intros z H. apply of_Z_number. unfold i64 in H. lia. Qed.

Lemma same_ind2 : forall m m' (P : Prop),
  (Forall2 (fun p q : str * value => fst p = fst q /\ same (snd p) (snd q)) m m' -> P) -> same (VObj m) (VObj m') -> P.
Proof. intros m m' P H X. inversion X. auto. Qed.

Lemma eqb_same : forall a b, leaves_ok a_double i64 a -> leaves_ok a_double i64 b -> (v_eqb a b = true <-> same a b).
Proof.
  intro a. induction a as [|z|f|s|b|l IH|m IH] using value_deep; intros b' Ha Hb;
    destruct b' as [|z'|f'|s'|l'|m'|b']; try (split; [discriminate|intro X; inversion X]); fail || idtac.
  - split; [constructor|reflexivity].
  - cbn [v_eqb]. rewrite Z.eqb_eq. split; [intros ->; constructor|intro X; inversion X; reflexivity].
  - cbn [v_eqb]. inversion Ha; subst. inversion Hb; subst. destruct (i64_number z) as [V N]; [assumption|].
    rewrite feqb_scaled by assumption. split; [intros (A & B & C); constructor; assumption|intro X; inversion X; auto].
  - cbn [v_eqb]. inversion Ha; subst. inversion Hb; subst. destruct (i64_number z') as [V N]; [assumption|].
    rewrite feqb_scaled by assumption. split; [intros (A & B & C); constructor; assumption|intro X; inversion X; auto].
  - cbn [v_eqb]. inversion Ha; subst. inversion Hb; subst. rewrite feqb_scaled by assumption.
    split; [intros (A & B & C); constructor; assumption|intro X; inversion X; auto].
  - cbn [v_eqb]. rewrite str_eqb_iff. split; [intros ->; constructor|intro X; inversion X; reflexivity].
  - cbn [v_eqb]. rewrite eqb_true_iff. split; [intros ->; constructor|intro X; inversion X; reflexivity].
  - rewrite eqb_arr. inversion Ha; subst. inversion Hb; subst. rewrite (list_eqb_all _ _ same) by (intros; apply IH; auto).
    split; [intro X; constructor; assumption|intro X; inversion X; assumption].
  - rewrite eqb_obj. inversion Ha; subst. inversion Hb; subst.
    rewrite (list_eqb_all _ _ (fun p q => fst p = fst q /\ same (snd p) (snd q))).
    + split; [intro X; constructor; assumption|intro X; inversion X; assumption].
    + intros [k x] [k' y] Hx Hy. unfold pair_eqb. cbn [fst snd]. rewrite andb_true_iff, str_eqb_iff, (IH k x Hx y) by eauto. reflexivity.
Qed.

(** ** Transitivity where integers are exact *)
Lemma some_inj : forall A (x y : A), Some x = Some y -> x = y.
Proof. congruence. Qed.

Lemma eqb_num : forall a b x y, exact a -> exact b -> num_of a = Some x -> num_of b = Some y -> (v_eqb a b = true <-> x = y).
Proof.
  intros a b x y Ha Hb Na Nb. unfold exact in *.
  destruct a as [|z|f| | | |]; try discriminate; destruct b as [|z'|f'| | | |]; try discriminate; cbn [num_of v_eqb] in *;
    inversion Ha; subst; inversion Hb; subst; apply some_inj in Na; apply some_inj in Nb; subst x y.
  - rewrite Z.eqb_eq. split; [intros ->; reflexivity|]. apply Z.mul_cancel_r. lia.
  - destruct (of_Z_small z) as [[V N] E]; [assumption|]. destruct H1 as [V' N']. rewrite feqb_scaled, <- E by assumption. tauto.
  - destruct (of_Z_small z') as [[V N] E]; [assumption|]. destruct H0 as [V' N']. rewrite feqb_scaled, <- E by assumption. tauto.
  - destruct H0 as [V N]. destruct H1 as [V' N']. rewrite feqb_scaled by assumption. tauto.
Qed.

Lemma eqb_kind : forall a b, v_eqb a b = true -> (num_of a = None /\ num_of b = None /\ type_of a = type_of b) \/
  (num_of a <> None /\ num_of b <> None).
Proof. intros [] [] H; try discriminate; cbn [num_of type_of]; auto; right; split; discriminate. Qed.

Lemma list_eqb_trans : forall A (eq : A -> A -> bool) l1 l2 l3,
  (forall x y z, In x l1 -> In y l2 -> In z l3 -> eq x y = true -> eq y z = true -> eq x z = true) ->
  list_eqb eq l1 l2 = true -> list_eqb eq l2 l3 = true -> list_eqb eq l1 l3 = true.
Proof.
  induction l1 as [|x l1 IH]; intros [|y l2] [|z l3] H A1 A2; cbn [list_eqb] in *; try discriminate; [reflexivity|].
  apply andb_prop in A1. apply andb_prop in A2. destruct A1 as [A1 B1]. destruct A2 as [A2 B2]. apply andb_true_intro. split.
  - eapply (H x y z); auto; left; reflexivity.
  - eapply IH; [|eassumption|eassumption]. intros. eapply (H x0 y0 z0); auto; right; assumption.
Qed.

Lemma eqb_trans : forall a b c, exact a -> exact b -> exact c -> v_eqb a b = true -> v_eqb b c = true -> v_eqb a c = true.
Proof.
  intro a. induction a as [|z|f|s|b|l IH|m IH] using value_deep; intros b' c Ha Hb Hc E1 E2.
  - destruct b'; try discriminate. destruct c; try discriminate. reflexivity.
  - destruct (num_of b') as [y|] eqn:Eb; [|destruct b'; discriminate]. destruct (num_of c) as [w|] eqn:Ec; [|destruct b'; try discriminate; destruct c; discriminate].
    rewrite (eqb_num _ _ _ _ Ha Hb eq_refl Eb) in E1. rewrite (eqb_num _ _ _ _ Hb Hc Eb Ec) in E2.
    rewrite (eqb_num _ _ _ _ Ha Hc eq_refl Ec). congruence.
  - destruct (num_of b') as [y|] eqn:Eb; [|destruct b'; discriminate]. destruct (num_of c) as [w|] eqn:Ec; [|destruct b'; try discriminate; destruct c; discriminate].
    rewrite (eqb_num _ _ _ _ Ha Hb eq_refl Eb) in E1. rewrite (eqb_num _ _ _ _ Hb Hc Eb Ec) in E2.
    rewrite (eqb_num _ _ _ _ Ha Hc eq_refl Ec). congruence.
  - destruct b' as [| | |s'| | |]; try discriminate. destruct c as [| | |s''| | |]; try discriminate. cbn [v_eqb] in *.
    apply str_eqb_iff in E1. apply str_eqb_iff in E2. apply str_eqb_iff. congruence.
  - destruct b' as [| | | | | |b']; try discriminate. destruct c as [| | | | | |b'']; try discriminate. cbn [v_eqb] in *.
    apply eqb_prop in E1. apply eqb_prop in E2. apply eqb_true_iff. congruence.
  - destruct b' as [| | | |l'| |]; try discriminate. destruct c as [| | | |l''| |]; try discriminate. rewrite eqb_arr in *.
    unfold exact in *. inversion Ha; subst. inversion Hb; subst. inversion Hc; subst.
    eapply list_eqb_trans; [|exact E1|exact E2]. intros x y z Hx Hy Hz. apply IH; auto.
  - destruct b' as [| | | | |m'|]; try discriminate. destruct c as [| | | | |m''|]; try discriminate. rewrite eqb_obj in *.
    unfold exact in *. inversion Ha; subst. inversion Hb; subst. inversion Hc; subst.
    eapply list_eqb_trans; [|exact E1|exact E2]. intros [k x] [k' y] [k'' z] Hx Hy Hz A B. unfold pair_eqb in *. cbn [fst snd] in *.
    apply andb_prop in A. apply andb_prop in B. destruct A as [A1 A2]. destruct B as [B1 B2].
    apply str_eqb_iff in A1. apply str_eqb_iff in B1. apply andb_true_intro. split; [apply str_eqb_iff; congruence|].
    eapply (IH k x Hx y z); eauto.
Qed.

(** ** operator< *)
Lemma list_ltb_asym : forall A (lt : A -> A -> bool) l l', (forall x y, In x l -> lt x y = true -> lt y x = false) ->
  list_ltb lt l l' = true -> list_ltb lt l' l = false.
Proof.
  induction l as [|x l IH]; intros [|y l'] H E; cbn [list_ltb] in *; try discriminate; try reflexivity.
  destruct (lt x y) eqn:E1.
  - rewrite (H x y (or_introl eq_refl) E1). reflexivity.
  - destruct (lt y x) eqn:E2; [discriminate|]. apply IH; [|assumption]. intros. apply H; [right|]; assumption.
Qed.

Lemma str_ltb_asym : forall a b, str_ltb a b = true -> str_ltb b a = false.
Proof.
  intros a b H. apply str_ltb_iff in H. apply str_ltb_false. intro X. eapply key_lt_irrefl, key_lt_trans; eassumption.
Qed.

Lemma ltb_asym : forall a b, v_ltb a b = true -> v_ltb b a = false.
Proof.
  intro a. induction a as [|z|f|s|b|l IH|m IH] using value_deep; intros b' H;
    destruct b' as [|z'|f'|s'|l'|m'|b']; try discriminate; try reflexivity.
  - unfold v_ltb in *. cbn [v_cmp fst] in *. lia.
  - apply fltb_asym. exact H.
  - apply fltb_asym. exact H.
  - apply fltb_asym. exact H.
  - apply str_ltb_asym. exact H.
  - unfold v_ltb in *. cbn [v_cmp fst] in *. destruct b, b'; try discriminate; reflexivity.
  - rewrite ltb_arr in *. eapply list_ltb_asym; [|exact H]. intros x y Hx. apply IH. assumption.
  - rewrite ltb_obj in *. eapply list_ltb_asym; [|exact H]. intros [k x] [k' y] Hx E. unfold pair_ltb in *. cbn [fst snd] in *.
    destruct (str_ltb k k') eqn:E1.
    + rewrite (str_ltb_asym _ _ E1). reflexivity.
    + destruct (str_ltb k' k) eqn:E2; [discriminate|]. cbn [orb negb andb] in *. eapply IH; eassumption.
Qed.

Lemma ltb_irrefl : forall a, v_ltb a a = false.
Proof. intro a. destruct (v_ltb a a) eqn:E; [|reflexivity]. rewrite <- E. apply ltb_asym. assumption. Qed.

(** negative transitivity: a < c makes a < b or b < c *)
Definition negtrans {A} (lt : A -> A -> bool) (x y z : A) : Prop := lt x z = true -> lt x y = true \/ lt y z = true.
Definition tri {A} (lt : A -> A -> bool) (x y z : A) : Prop :=
  negtrans lt x y z /\ negtrans lt y z x /\ negtrans lt z x y.

Lemma list_negtrans : forall A (lt : A -> A -> bool) l1 l2 l3,
  (forall x y, lt x y = true -> lt y x = false) ->
  (forall i x y z, nth_error l1 i = Some x -> nth_error l2 i = Some y -> nth_error l3 i = Some z -> tri lt x y z) ->
  negtrans (list_ltb lt) l1 l2 l3.
Proof.
  intros A lt l1. induction l1 as [|x l1 IH]; intros l2 l3 As H E.
  - destruct l3 as [|z l3]; [discriminate|]. destruct l2; [right|left]; reflexivity.
  - destruct l3 as [|z l3]; [discriminate|]. destruct l2 as [|y l2]; [right; reflexivity|].
    cbn [list_ltb] in *. destruct (H 0%nat x y z eq_refl eq_refl eq_refl) as (T1 & T2 & T3).
    unfold negtrans in T1, T2, T3.
    destruct (lt x z) eqn:E1.
    + destruct (lt x y) eqn:E2; [left; reflexivity|]. destruct (T1 eq_refl) as [X|X]; [discriminate|]. rewrite X. right. reflexivity.
    + destruct (lt z x) eqn:E2; [discriminate|].
      destruct (lt x y) eqn:E3; [left; reflexivity|].
      destruct (lt y z) eqn:E4; [right; reflexivity|].
      destruct (lt y x) eqn:E5; [destruct (T2 eq_refl) as [X|X]; congruence|].
      destruct (lt z y) eqn:E6.
      * destruct (T3 eq_refl) as [X|X]; congruence.
      * apply IH; [assumption| |assumption]. intros i a b c Ha Hb Hc. apply (H (S i) a b c); assumption.
Qed.

(** an order by keys in Z *)
Lemma key_tri : forall A (lt : A -> A -> bool) (f : A -> Z) x y z,
  (forall p q, (p = x \/ p = y \/ p = z) -> (q = x \/ q = y \/ q = z) -> (lt p q = true <-> f p < f q)) -> tri lt x y z.
Proof. intros A lt f x y z H. unfold tri, negtrans. rewrite !H by auto. lia. Qed.

Lemma str_negtrans : forall a b c, str_ltb a c = true -> str_ltb a b = true \/ str_ltb b c = true.
Proof.
  intros a b c H. rewrite !str_ltb_iff in *. destruct (key_lt_trich a b) as [X|[X|X]]; [auto| |].
  - subst. auto.
  - right. eapply key_lt_trans; eassumption.
Qed.

Lemma ltb_num : forall a b, of_sort SNum a -> of_sort SNum b -> (v_ltb a b = true <-> numkey a < numkey b).
Proof.
  assert (P : 0 < 2 ^ 1074) by (apply Z.pow_pos_nonneg; lia).
  intros a b Ha Hb. destruct a as [|z|f| | | |]; try contradiction; destruct b as [|z'|f'| | | |]; try contradiction;
    unfold v_ltb, numkey; cbn [v_cmp fst num_of of_sort] in *.
  - rewrite Z.ltb_lt. apply Z.mul_lt_mono_pos_r. assumption.
  - destruct (of_Z_small z) as [V E]; [assumption|]. rewrite fltb_scaled, E by assumption. reflexivity.
  - destruct (of_Z_small z') as [V E]; [assumption|]. rewrite fltb_scaled, E by assumption. reflexivity.
  - apply fltb_scaled; assumption.
Qed.

Lemma sort_negtrans : forall s a b c, of_sort s a -> of_sort s b -> of_sort s c -> negtrans v_ltb a b c.
Proof.
  induction s as [| | | | |g IH|g IH]; intros a b c Ha Hb Hc.
  - destruct a; try contradiction. destruct b; try contradiction. destruct c; try contradiction. intro; discriminate.
  - destruct a as [| | | | | |x]; try contradiction. destruct b as [| | | | | |y]; try contradiction. destruct c as [| | | | | |z]; try contradiction.
    unfold negtrans, v_ltb. cbn [v_cmp fst]. destruct x, y, z; auto.
  - destruct a as [|x| | | | |]; try contradiction. destruct b as [|y| | | | |]; try contradiction. destruct c as [|z| | | | |]; try contradiction.
    unfold negtrans, v_ltb. cbn [v_cmp fst]. lia.
  - unfold negtrans. rewrite !ltb_num by assumption. lia.
  - destruct a as [| | |x| | |]; try contradiction. destruct b as [| | |y| | |]; try contradiction. destruct c as [| | |z| | |]; try contradiction.
    unfold negtrans, v_ltb. cbn [v_cmp fst]. apply str_negtrans.
  - destruct a as [| | | |x| |]; try contradiction. destruct b as [| | | |y| |]; try contradiction. destruct c as [| | | |z| |]; try contradiction.
    unfold negtrans. rewrite !ltb_arr. apply list_negtrans; [apply ltb_asym|]. cbn [of_sort] in *.
    intros i p q r Hp Hq Hr. unfold tri. repeat split; eapply IH; eauto.
  - destruct a as [| | | | |x|]; try contradiction. destruct b as [| | | | |y|]; try contradiction. destruct c as [| | | | |z|]; try contradiction.
    unfold negtrans. rewrite !ltb_obj. cbn [of_sort] in *.
    assert (As : forall p q, pair_ltb p q = true -> pair_ltb q p = false).
    { intros [k v] [k' v'] E. unfold pair_ltb in *. cbn [fst snd] in *. destruct (str_ltb k k') eqn:E1.
      - rewrite (str_ltb_asym _ _ E1). reflexivity.
      - destruct (str_ltb k' k) eqn:E2; [discriminate|]. cbn [orb negb andb] in *. apply ltb_asym. assumption. }
    assert (Nt : forall k1 v1 k2 v2 k3 v3, of_sort (g k1) v1 -> of_sort (g k2) v2 -> of_sort (g k3) v3 ->
              negtrans pair_ltb (k1, v1) (k2, v2) (k3, v3)).
    { intros k1 v1 k2 v2 k3 v3 H1 H2 H3 E. unfold pair_ltb in *. cbn [fst snd] in *.
      destruct (str_ltb k1 k2) eqn:E12; [left; reflexivity|]. destruct (str_ltb k2 k3) eqn:E23; [right; reflexivity|].
      assert (N13 : str_ltb k1 k3 = false) by (destruct (str_ltb k1 k3) eqn:X; [destruct (str_negtrans k1 k2 k3 X); congruence|reflexivity]).
      rewrite N13 in E. cbn [orb] in *. destruct (str_ltb k3 k1) eqn:E31; [discriminate|]. cbn [negb andb] in *.
      assert (K13 : k1 = k3). { destruct (key_lt_trich k1 k3) as [X|[X|X]]; [apply str_ltb_iff in X; congruence|assumption|apply str_ltb_iff in X; congruence]. }
      subst k3. assert (K12 : k1 = k2). { destruct (key_lt_trich k1 k2) as [X|[X|X]]; [apply str_ltb_iff in X; congruence|assumption|apply str_ltb_iff in X; congruence]. }
      subst k2. rewrite N13. cbn [negb andb]. exact (IH k1 v1 v2 v3 H1 H2 H3 E). }
    apply list_negtrans; [assumption|]. intros i [k1 p] [k2 q] [k3 r] Hp Hq Hr.
    apply nth_error_In in Hp. apply nth_error_In in Hq. apply nth_error_In in Hr.
    unfold tri. repeat split; apply Nt; eauto.
Qed.

(** not related either way exactly when equal *)
Lemma list_incomp : forall A (lt eq : A -> A -> bool) l l',
  (forall i x y, nth_error l i = Some x -> nth_error l' i = Some y -> (eq x y = true <-> lt x y = false /\ lt y x = false)) ->
  (list_eqb eq l l' = true <-> list_ltb lt l l' = false /\ list_ltb lt l' l = false).
Proof.
  induction l as [|x l IH]; intros [|y l'] H; cbn [list_eqb list_ltb]; split; intro E; try discriminate; auto;
    try (destruct E; discriminate).
  - apply andb_prop in E. destruct E as [E1 E2]. apply (H 0%nat x y eq_refl eq_refl) in E1. destruct E1 as [-> ->].
    apply IH; [|assumption]. intros i a b Ha Hb. apply (H (S i)); assumption.
  - destruct E as [E1 E2]. destruct (lt x y) eqn:X; [discriminate|]. destruct (lt y x) eqn:Y; [discriminate|].
    apply andb_true_intro. split; [apply (H 0%nat x y eq_refl eq_refl); auto|].
    apply IH; [|auto]. intros i a b Ha Hb. apply (H (S i)); assumption.
Qed.

Lemma sort_exact : forall s a, of_sort s a -> s = SNum -> exact a.
Proof. intros s a H ->. destruct a; try contradiction; constructor; assumption. Qed.

Lemma sort_incomp : forall s a b, of_sort s a -> of_sort s b -> (v_eqb a b = true <-> v_ltb a b = false /\ v_ltb b a = false).
Proof.
  induction s as [| | | | |g IH|g IH]; intros a b Ha Hb.
  - destruct a; try contradiction. destruct b; try contradiction. split; [split; reflexivity|reflexivity].
  - destruct a as [| | | | | |x]; try contradiction. destruct b as [| | | | | |y]; try contradiction.
    unfold v_ltb. cbn [v_cmp fst v_eqb]. destruct x, y; cbn; intuition.
  - destruct a as [|x| | | | |]; try contradiction. destruct b as [|y| | | | |]; try contradiction.
    unfold v_ltb. cbn [v_cmp fst v_eqb]. lia.
  - pose proof (ltb_num a b Ha Hb) as L1. pose proof (ltb_num b a Hb Ha) as L2.
    pose proof (sort_exact _ _ Ha eq_refl) as Xa. pose proof (sort_exact _ _ Hb eq_refl) as Xb.
    destruct (num_of a) as [x|] eqn:Na; [|destruct a; try contradiction; discriminate].
    destruct (num_of b) as [y|] eqn:Nb; [|destruct b; try contradiction; discriminate].
    rewrite (eqb_num a b x y Xa Xb Na Nb). unfold numkey in *. rewrite Na, Nb in *.
    destruct (v_ltb a b), (v_ltb b a); intuition lia.
  - destruct a as [| | |x| | |]; try contradiction. destruct b as [| | |y| | |]; try contradiction.
    unfold v_ltb. cbn [v_cmp fst v_eqb]. rewrite str_eqb_iff, !str_ltb_false. split.
    + intros ->. split; apply key_lt_irrefl.
    + intros [A B]. destruct (key_lt_trich x y) as [X|[X|X]]; [contradiction|assumption|contradiction].
  - destruct a as [| | | |x| |]; try contradiction. destruct b as [| | | |y| |]; try contradiction.
    rewrite eqb_arr, !ltb_arr. apply list_incomp. cbn [of_sort] in *. intros i p q Hp Hq. eapply IH; eauto.
  - destruct a as [| | | | |x|]; try contradiction. destruct b as [| | | | |y|]; try contradiction.
    rewrite eqb_obj, !ltb_obj. apply list_incomp. cbn [of_sort] in *. intros i [k1 p] [k2 q] Hp Hq.
    apply nth_error_In in Hp. apply nth_error_In in Hq. unfold pair_eqb, pair_ltb. cbn [fst snd]. split.
    + intro E. apply andb_prop in E. destruct E as [E1 E2]. apply str_eqb_iff in E1. subst k2.
      apply (IH k1 p q) in E2; eauto. destruct E2 as [-> ->].
      replace (str_ltb k1 k1) with false by (symmetry; apply str_ltb_false, key_lt_irrefl). auto.
    + intros [E1 E2]. destruct (str_ltb k1 k2) eqn:L1; [discriminate|]. destruct (str_ltb k2 k1) eqn:L2; [discriminate|].
      cbn [orb negb andb] in *. assert (k1 = k2). { destruct (key_lt_trich k1 k2) as [X|[X|X]]; [apply str_ltb_iff in X; congruence|assumption|apply str_ltb_iff in X; congruence]. }
      subst k2. rewrite str_eqb_refl. apply (IH k1 p q); eauto.
Qed.

(** strict weak order whose equivalence is operator== *)
Lemma sort_order : forall s a b c, of_sort s a -> of_sort s b -> of_sort s c ->
  (v_ltb a b = true -> v_ltb b c = true -> v_ltb a c = true) /\
  (v_eqb a b = true -> v_eqb b c = true -> v_eqb a c = true) /\
  (v_eqb a b = true -> v_ltb b c = v_ltb a c /\ v_ltb c b = v_ltb c a) /\
  ((v_ltb a b = true /\ v_eqb a b = false /\ v_ltb b a = false) \/
   (v_ltb a b = false /\ v_eqb a b = true /\ v_ltb b a = false) \/
   (v_ltb a b = false /\ v_eqb a b = false /\ v_ltb b a = true)).
Proof.
  intros s a b c Ha Hb Hc.
  assert (I1 : forall x y, of_sort s x -> of_sort s y -> (v_eqb x y = true <-> v_ltb x y = false /\ v_ltb y x = false)) by (apply sort_incomp).
  assert (N1 : forall x y z, of_sort s x -> of_sort s y -> of_sort s z -> v_ltb x z = true -> v_ltb x y = true \/ v_ltb y z = true) by (apply sort_negtrans).
  assert (C1 : v_eqb a b = true -> v_ltb b c = v_ltb a c /\ v_ltb c b = v_ltb c a).
  { intro E. apply I1 in E; auto. destruct E as [E1 E2]. split.
    - destruct (v_ltb b c) eqn:X, (v_ltb a c) eqn:Y; try reflexivity.
      + destruct (N1 b a c Hb Ha Hc X); congruence.
      + destruct (N1 a b c Ha Hb Hc Y); congruence.
    - destruct (v_ltb c b) eqn:X, (v_ltb c a) eqn:Y; try reflexivity.
      + destruct (N1 c a b Hc Ha Hb X); congruence.
      + destruct (N1 c b a Hc Hb Ha Y); congruence. }
  split; [|split; [|split; [assumption|]]].
  - intros E1 E2. destruct (N1 a c b Ha Hc Hb E1) as [X|X]; [assumption|]. apply ltb_asym in X. congruence.
  - intros E1 E2. destruct (C1 E1) as [X Y]. apply I1 in E2; auto. destruct E2 as [E2 E3]. apply I1; auto. split; congruence.
  - destruct (v_ltb a b) eqn:X.
    + left. split; [reflexivity|]. rewrite (ltb_asym _ _ X). split; [|reflexivity].
      destruct (v_eqb a b) eqn:Y; [|reflexivity]. apply I1 in Y; auto. destruct Y; congruence.
    + right. destruct (v_ltb b a) eqn:Y.
      * right. split; [reflexivity|]. split; [|reflexivity]. destruct (v_eqb a b) eqn:Z; [|reflexivity]. apply I1 in Z; auto. destruct Z; congruence.
      * left. split; [reflexivity|]. split; [|reflexivity]. apply I1; auto.
Qed.

(** across unrelated types nothing is less than anything *)
Lemma ltb_types : forall a b, type_of a <> type_of b -> ~ (a_num a /\ a_num b) -> v_ltb a b = false /\ v_eqb a b = false.
Proof.
  unfold a_num. intros [] [] H N; try (split; reflexivity); cbn [type_of] in *; exfalso; (congruence || (apply N; split; auto)).
Qed.
