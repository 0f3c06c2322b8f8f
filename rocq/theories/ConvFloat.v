(** Casts between float and double. *)
From Coq Require Import Floats.SpecFloat Lia ZifyBool ZifyNat ZifyN.
From Verif Require Import Base Value SpecText NumberFacts FloatFacts Cpp.
Open Scope Z_scope.

Section Round.
Variables prec emax : Z.
Hypothesis Hp : 0 < prec.

Lemma canonical : forall m e, bounded prec emax m e = true <->
  fexp prec emax (Z.pos (digits2_pos m) + e) = e /\ e <= emax - prec.
Proof.
  intros m e. unfold bounded, canonical_mantissa. split.
  - intro H. apply andb_prop in H. destruct H as [H1 H2]. apply Zeq_bool_eq in H1. split; [assumption|lia].
  - intros [H1 H2]. rewrite H1. unfold Zeq_bool. rewrite Z.compare_refl. cbn [andb]. lia.
Qed.

Lemma shr1_half : forall r, 0 <= shr_m r -> shr_m (shr_1 r) = shr_m r / 2.
Proof.
  intros [m r s] H. cbn [shr_m] in *. destruct m as [|p|p]; [reflexivity| |lia].
  destruct p as [p|p|]; cbn [shr_1 shr_m]; try reflexivity.
  - rewrite (Pos2Z.inj_xI p), Z.add_comm, Z.mul_comm, Z.div_add by lia. reflexivity.
  - rewrite (Pos2Z.inj_xO p), Z.mul_comm, Z.div_mul by lia. reflexivity.
Qed.
Lemma shr_iter_div : forall k r, 0 <= shr_m r -> shr_m (SpecFloat.iter_pos shr_1 k r) = shr_m r / 2 ^ Z.pos k.
Proof.
  induction k as [|k IH] using Pos.peano_ind; intros r H; [apply shr1_half; assumption|].
  rewrite iter_pos_S, shr1_half, IH by (assumption || (rewrite IH by assumption; apply Z.div_pos; lia)).
  rewrite Pos2Z.inj_succ, Z.pow_succ_r, Z.div_div, (Z.mul_comm 2) by lia. reflexivity.
Qed.

Lemma digits_eq : forall p k, 2 ^ (k - 1) <= Z.pos p < 2 ^ k -> 0 < k -> Z.pos (digits2_pos p) = k.
Proof.
  intros p k H K. pose proof (digits_bound p) as [B1 B2]. pose proof (digits_le p k ltac:(lia) ltac:(lia)) as L.
  destruct (Z.eq_dec (Z.pos (digits2_pos p)) k) as [E|E]; [assumption|].
  assert (Z.pos p < 2 ^ (k - 1)); [|lia].
  eapply Z.lt_le_trans; [apply B1|]. apply Z.pow_le_mono_r; lia.
Qed.

Lemma round_aux_valid : forall s m e, e <= fexp prec emax (Z.pos (digits2_pos m) + e) ->
  valid_binary prec emax (binary_round_aux prec emax s (Z.pos m) e loc_Exact) = true.
Proof.
  intros s m e H. unfold binary_round_aux, shr_fexp at 1. cbn [Zdigits2 shr_record_of_loc].
  set (D := Z.pos (digits2_pos m) + e) in *. set (f := fexp prec emax D) in *.
  pose proof (digits_bound m) as [B1 B2].
  set (r0 := {| shr_m := Z.pos m; shr_r := false; shr_s := false |}).
  assert (S1 : exists r, shr r0 e (f - e) = (r, f) /\ shr_m r = Z.pos m / 2 ^ (f - e)).
  { destruct (f - e) as [|k|k] eqn:K; [|..|lia].
    - exists r0. cbn [shr]. split; [f_equal; lia|]. cbn [shr_m r0]. rewrite Z.div_1_r. reflexivity.
    - eexists. cbn [shr]. split; [f_equal; lia|]. apply shr_iter_div. cbn [shr_m r0]. lia. }
  destruct S1 as (r & -> & Er). cbv beta iota.
  assert (F : f = Z.max (D - prec) (3 - emax - prec)) by reflexivity.
  set (m1 := shr_m r) in *.
  assert (P1 : 0 < 2 ^ (f - e)) by (apply Z.pow_pos_nonneg; lia).
  assert (M1 : 0 <= m1) by (rewrite Er; apply Z.div_pos; lia).
  assert (U1 : 0 < D - f -> m1 < 2 ^ (D - f)).
  { intro X. rewrite Er. apply Z.div_lt_upper_bound; [assumption|]. rewrite <- Z.pow_add_r by lia.
    replace (f - e + (D - f)) with (Z.pos (digits2_pos m)) by (unfold D; lia). assumption. }
  assert (U0 : D - f <= 0 -> m1 = 0).
  { intro X. rewrite Er. apply Z.div_small. split; [lia|]. eapply Z.lt_le_trans; [exact B1|]. apply Z.pow_le_mono_r; unfold D in X; lia. }
  assert (L1 : 0 < D - f -> 2 ^ (D - f - 1) <= m1).
  { intro X. rewrite Er. apply Z.div_le_lower_bound; [assumption|]. rewrite <- Z.pow_add_r by lia.
    replace (f - e + (D - f - 1)) with (Z.pos (digits2_pos m) - 1) by (unfold D; lia). assumption. }
  set (m2 := round_nearest_even m1 (loc_of_shr_record r)).
  assert (R : m2 = m1 \/ m2 = m1 + 1).
  { unfold m2, round_nearest_even. destruct (loc_of_shr_record r) as [|[]]; auto. destruct (Z.even m1); auto. }
  assert (Q : 0 < 2 ^ prec) by (apply Z.pow_pos_nonneg; lia).
  assert (U2 : m2 <= 2 ^ prec).
  { destruct (Z_lt_dec 0 (D - f)) as [X|X].
    - specialize (U1 X). assert (2 ^ (D - f) <= 2 ^ prec) by (apply Z.pow_le_mono_r; lia). lia.
    - rewrite (U0 ltac:(lia)) in R. lia. }
  unfold shr_fexp. destruct m2 as [|p|p] eqn:E2; [| |lia].
  { cbn [Zdigits2 shr_record_of_loc]. rewrite Z.add_0_l. destruct (fexp prec emax f - f) as [|k|k] eqn:K; cbn [shr shr_m]; try reflexivity.
    unfold fexp, SpecFloat.emin in K. lia. }
  cbn [Zdigits2 shr_record_of_loc]. pose proof (digits_bound p) as [C1 C2].
  destruct (Z.eq_dec (Z.pos p) (2 ^ prec)) as [T|T].
  - assert (Dp : Z.pos (digits2_pos p) = prec + 1).
    { apply digits_eq; [|lia]. replace (prec + 1 - 1) with prec by lia. rewrite T, Z.pow_add_r by lia. lia. }
    rewrite Dp. replace (fexp prec emax (prec + 1 + f) - f) with 1 by (unfold fexp, SpecFloat.emin; lia).
    cbn [shr]. change (SpecFloat.iter_pos shr_1 1 ?r) with (shr_1 r). rewrite shr1_half by (cbn [shr_m]; lia). cbn [shr_m].
    replace (Z.pos p / 2) with (2 ^ (prec - 1)) by (rewrite T; replace (2 ^ prec) with (2 ^ (prec - 1) * 2) by (rewrite Z.mul_comm, <- Z.pow_succ_r by lia; f_equal; lia); rewrite Z.div_mul by lia; reflexivity).
    assert (P2 : 0 < 2 ^ (prec - 1)) by (apply Z.pow_pos_nonneg; lia).
    destruct (2 ^ (prec - 1)) as [|q|q] eqn:Eq; try lia.
    destruct (Z.leb_spec (f + 1) (emax - prec)) as [Le|Le]; [|reflexivity]. cbn [valid_binary]. apply canonical. split; [|assumption].
    rewrite (digits_eq q prec).
    + unfold fexp, SpecFloat.emin. lia.
    + rewrite <- Eq. split; [lia|]. apply Z.pow_lt_mono_r; lia.
    + assumption.
  - assert (Dp : Z.pos (digits2_pos p) <= prec) by (apply digits_le; lia).
    assert (Fx : fexp prec emax (Z.pos (digits2_pos p) + f) = f).
    { unfold fexp, SpecFloat.emin. destruct (Z_le_dec f (3 - emax - prec)) as [X|X]; [lia|].
      assert (D - f = prec) by lia.
      assert (G1 : 2 ^ (prec - 1) <= Z.pos p) by (rewrite <- H0; destruct R as [R|R]; rewrite R; specialize (L1 ltac:(lia)); lia).
      rewrite (digits_eq p prec); lia. }
    rewrite Fx, Z.sub_diag. cbn [shr shr_m].
    destruct (Z.leb_spec f (emax - prec)) as [Le|Le]; [|reflexivity]. cbn [valid_binary]. apply canonical. split; assumption.
Qed.

Lemma round_valid : forall s m e, valid_binary prec emax (binary_round prec emax s m e) = true.
Proof.
  intros s m e. unfold binary_round, shl_align.
  set (f := fexp prec emax (Z.pos (digits2_pos m) + e)).
  destruct (f - e) as [|k|k] eqn:K.
  - apply round_aux_valid. fold f. lia.
  - apply round_aux_valid. fold f. lia.
  - apply round_aux_valid. rewrite digits_shift.
    replace (Z.pos (digits2_pos m) + Z.pos k + f) with (Z.pos (digits2_pos m) + e) by lia. fold f. lia.
Qed.

Lemma normalize_valid : forall m e s, valid_binary prec emax (binary_normalize prec emax m e s) = true.
Proof. intros [|m|m] e s; [reflexivity| |]; apply round_valid. Qed.
Lemma recast_valid : forall f, valid_binary prec emax (recast prec emax f) = true.
Proof. intros [s|s| |s m e]; try reflexivity. apply normalize_valid. Qed.
End Round.

Lemma to_single_valid : forall f, valid_binary 24 128 (to_single f) = true.
Proof. intro f. apply recast_valid. lia. Qed.

Lemma recast_finite : forall p q s m e, recast p q (S754_finite s m e) = binary_round p q s m e.
Proof. intros p q [] m e; reflexivity. Qed.

Lemma single_exact : forall f, valid_binary 24 128 f = true -> to_single (to_double f) = f.
Proof.
  intros [s|s| |s m e] V; try reflexivity. cbn [valid_binary] in V. apply canonical in V. destruct V as [C L].
  unfold to_double, to_single. rewrite recast_finite.
  assert (Dm : Z.pos (digits2_pos m) <= 24) by (unfold fexp, SpecFloat.emin in C; lia).
  assert (Le : -149 <= e) by (unfold fexp, SpecFloat.emin in C; lia).
  set (e' := fexp 53 1024 (Z.pos (digits2_pos m) + e)).
  assert (E' : e' = Z.max (Z.pos (digits2_pos m) + e - 53) (-1074)) by reflexivity.
  destruct (e' - e) as [|k|k] eqn:K; [lia|lia|].
  assert (R1 : binary_round 53 1024 s m e = S754_finite s (shift_pos k m) e').
  { unfold binary_round, shl_align. fold e'. rewrite K. apply round_aux_exact. apply canonical. rewrite digits_shift. split.
    - replace (Z.pos (digits2_pos m) + Z.pos k + e') with (Z.pos (digits2_pos m) + e) by lia. reflexivity.
    - lia. }
  rewrite R1, recast_finite. unfold binary_round, shl_align. rewrite digits_shift.
  replace (Z.pos (digits2_pos m) + Z.pos k + e') with (Z.pos (digits2_pos m) + e) by lia. rewrite C.
  replace (e - e') with (Z.pos k) by lia. unfold binary_round_aux. unfold shr_fexp at 1. cbn [Zdigits2 shr_record_of_loc].
  rewrite digits_shift. replace (Z.pos (digits2_pos m) + Z.pos k + e') with (Z.pos (digits2_pos m) + e) by lia. rewrite C.
  replace (e - e') with (Z.pos k) by lia. cbn [shr]. rewrite shr_iter. cbn [shr_m loc_of_shr_record round_nearest_even].
  unfold shr_fexp. cbn [Zdigits2 shr_record_of_loc]. replace (e' + Z.pos k) with e by lia. rewrite C, Z.sub_diag. cbn [shr shr_m].
  replace (e <=? 128 - 24) with true by lia. reflexivity.
Qed.
