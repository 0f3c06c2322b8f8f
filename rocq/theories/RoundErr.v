(** How far the result of a double operation is from the exact result. *)
From Coq Require Import List NArith ZArith QArith Qabs Qpower Lia Lqa ZifyBool ZifyNat ZifyN Floats.SpecFloat.
From Verif Require Import Base Value SpecGrammar SpecReal FloatFacts ConvFloat RealRound.
Import ListNotations.
Open Scope Z_scope.

(** ** Shifting right keeps track of what is lost *)
Definition lost (r : shr_record) (rem P : Z) : Prop :=
  match loc_of_shr_record r with
  | loc_Exact => rem = 0
  | loc_Inexact Lt => 0 < 2 * rem < P
  | loc_Inexact Eq => 2 * rem = P
  | loc_Inexact Gt => P < 2 * rem
  end.

Lemma shr1_lost : forall r rem P, 0 <= shr_m r -> 0 <= rem < P -> lost r rem P ->
  shr_m (shr_1 r) = shr_m r / 2 /\ lost (shr_1 r) (rem + P * (shr_m r mod 2)) (P * 2).
Proof.
  intros r rem P H0 H1 L. split; [apply shr1_half; assumption|]. destruct r as [m r s]. cbn [shr_m] in *.
  assert (Z0 : rem = 0 <-> (r || s) = false) by (unfold lost in L; destruct r, s; cbn [loc_of_shr_record] in L; cbn [orb]; split; intro; (lia || discriminate || reflexivity)).
  assert (E : shr_1 {| shr_m := m; shr_r := r; shr_s := s |} = {| shr_m := m / 2; shr_r := Z.odd m; shr_s := r || s |}).
  { destruct m as [|p|p]; [reflexivity| |lia]. destruct p as [p|p|]; cbn [shr_1 Z.odd]; try reflexivity.
    - rewrite (Pos2Z.inj_xI p), Z.add_comm, (Z.mul_comm 2), Z.div_add by lia. reflexivity.
    - rewrite (Pos2Z.inj_xO p), (Z.mul_comm 2), Z.div_mul by lia. reflexivity. }
  rewrite E. unfold lost. pose proof (Zmod_odd m) as O. destruct (Z.odd m), (r || s) eqn:S; cbn [loc_of_shr_record]; rewrite O; lia.
Qed.

Lemma shr_lost : forall k M, 0 <= M ->
  let r := SpecFloat.iter_pos shr_1 k {| shr_m := M; shr_r := false; shr_s := false |} in
  shr_m r = M / 2 ^ Z.pos k /\ lost r (M mod 2 ^ Z.pos k) (2 ^ Z.pos k).
Proof.
  intros k M H. induction k as [|k IH] using Pos.peano_ind; cbv zeta in *.
  - change (SpecFloat.iter_pos shr_1 1 ?x) with (shr_1 x). change (2 ^ 1) with 2.
    destruct (shr1_lost {| shr_m := M; shr_r := false; shr_s := false |} 0 1) as [A B]; cbn [shr_m] in *; [lia|lia|reflexivity|].
    split; [assumption|]. replace (0 + 1 * (M mod 2)) with (M mod 2) in B by lia. exact B.
  - destruct IH as [A B]. rewrite iter_pos_S.
    assert (P : 0 < 2 ^ Z.pos k) by (apply Z.pow_pos_nonneg; lia).
    destruct (shr1_lost _ _ _ ltac:(rewrite A; apply Z.div_pos; lia) (Z.mod_pos_bound M _ P) B) as [C D].
    rewrite Pos2Z.inj_succ, Z.pow_succ_r, (Z.mul_comm 2) by lia. rewrite A in C, D. split.
    + rewrite C, Z.div_div by lia. reflexivity.
    + rewrite (Z.rem_mul_r M (2 ^ Z.pos k) 2) by lia. exact D.
Qed.

Lemma nearest_even_err : forall r M P, 0 < P -> shr_m r = M / P -> lost r (M mod P) P ->
  2 * Z.abs (round_nearest_even (shr_m r) (loc_of_shr_record r) * P - M) <= P.
Proof.
  intros r M P HP E L. unfold lost in L. pose proof (Z.div_mod M P ltac:(lia)) as D. pose proof (Z.mod_pos_bound M P HP) as B.
  rewrite E. set (q := M / P) in *. set (t := M mod P) in *. clearbody q t. clear E.
  unfold round_nearest_even. destruct (loc_of_shr_record r) as [|[]]; [|destruct (Z.even q)| |]; lia.
Qed.

(** ** binary_round_aux *)
(** what is divided by 2^(f-e) and rounded has the value R * 2^f *)
Lemma round_aux_err : forall s m e, exists f R, f = Z.max e (Z.max (Z.pos (digits2_pos m) + e - 53) (-1074)) /\
  2 * Z.abs (R * 2 ^ (f - e) - Z.pos m) <= (if f =? e then 0 else 2 ^ (f - e)) /\ 0 <= R /\
  ((R = 0 /\ binary_round_aux 53 1024 s (Z.pos m) e loc_Exact = S754_zero s) \/
   (exists m' e', Z.pos m' * 2 ^ (e' - f) = R /\ f <= e' <= f + 1 /\
     binary_round_aux 53 1024 s (Z.pos m) e loc_Exact = if e' <=? 971 then S754_finite s m' e' else S754_infinity s)).
Proof.
  intros s m e. set (D := Z.pos (digits2_pos m) + e). set (g := Z.max (D - 53) (-1074)). set (f := Z.max e g).
  pose proof (digits_bound m) as [B1 B2].
  set (r0 := {| shr_m := Z.pos m; shr_r := false; shr_s := false |}).
  assert (P1 : 0 < 2 ^ (f - e)) by (apply Z.pow_pos_nonneg; lia).
  assert (S1 : exists r, shr r0 e (g - e) = (r, f) /\ shr_m r = Z.pos m / 2 ^ (f - e) /\
     2 * Z.abs (round_nearest_even (shr_m r) (loc_of_shr_record r) * 2 ^ (f - e) - Z.pos m) <= (if f =? e then 0 else 2 ^ (f - e))).
  { destruct (g - e) as [|k|k] eqn:K.
    - exists r0. cbn [shr]. replace f with e by lia. rewrite Z.sub_diag, Z.eqb_refl. split; [reflexivity|].
      cbn [shr_m r0 loc_of_shr_record round_nearest_even]. change (2 ^ 0) with 1. rewrite Z.div_1_r. split; [reflexivity|lia].
    - exists (SpecFloat.iter_pos shr_1 k r0). cbn [shr]. split; [f_equal; lia|].
      replace (f - e) with (Z.pos k) in * by lia. destruct (shr_lost k (Z.pos m) ltac:(lia)) as [A B]. split; [exact A|].
      replace (f =? e) with false by lia. apply nearest_even_err; assumption.
    - exists r0. cbn [shr]. replace f with e by lia. rewrite Z.sub_diag, Z.eqb_refl. split; [reflexivity|].
      cbn [shr_m r0 loc_of_shr_record round_nearest_even]. change (2 ^ 0) with 1. rewrite Z.div_1_r. split; [reflexivity|lia]. }
  destruct S1 as (r & Sh & Er & Err).
  set (R := round_nearest_even (shr_m r) (loc_of_shr_record r)) in *.
  assert (M1 : 0 <= shr_m r) by (rewrite Er; apply Z.div_pos; lia).
  assert (RR : R = shr_m r \/ R = shr_m r + 1).
  { unfold R, round_nearest_even. destruct (loc_of_shr_record r) as [|[]]; auto. destruct (Z.even (shr_m r)); auto. }
  exists f, R. split; [reflexivity|]. split; [exact Err|]. split; [lia|].
  assert (Q : binary_round_aux 53 1024 s (Z.pos m) e loc_Exact =
    let '(mrs, e2) := shr_fexp 53 1024 R f loc_Exact in
    match shr_m mrs with
    | Z0 => S754_zero s
    | Z.pos q => if e2 <=? 971 then S754_finite s q e2 else S754_infinity s
    | Z.neg _ => S754_nan
    end).
  { unfold binary_round_aux, shr_fexp at 1. cbn [Zdigits2 shr_record_of_loc].
    change (fexp 53 1024 (Z.pos (digits2_pos m) + e)) with g. fold r0. rewrite Sh. reflexivity. }
  rewrite Q. clear Q.
  (* size of R *)
  assert (Ub : f = g -> R <= 2 ^ 53).
  { intro Fg. assert (shr_m r < 2 ^ 53); [|lia]. rewrite Er. apply Z.div_lt_upper_bound; [assumption|].
    rewrite <- Z.pow_add_r by lia. eapply Z.lt_le_trans; [exact B1|]. apply Z.pow_le_mono_r; unfold D in *; lia. }
  unfold shr_fexp. destruct R as [|p|p] eqn:E2; [| |lia].
  { left. split; [reflexivity|]. cbn [Zdigits2 shr_record_of_loc]. rewrite Z.add_0_l.
    destruct (fexp 53 1024 f - f) as [|k|k] eqn:K; cbn [shr shr_m]; try reflexivity.
    replace (SpecFloat.iter_pos shr_1 k {| shr_m := 0; shr_r := false; shr_s := false |}) with {| shr_m := 0; shr_r := false; shr_s := false |}; [reflexivity|].
    symmetry. clear. induction k as [|k IH] using Pos.peano_ind; [reflexivity|]. rewrite iter_pos_S, IH. reflexivity. }
  right. cbn [Zdigits2 shr_record_of_loc].
  destruct (Z_le_gt_dec (fexp 53 1024 (Z.pos (digits2_pos p) + f)) f) as [Le|Gt].
  - exists p, f. rewrite Z.sub_diag. split; [lia|]. split; [lia|].
    destruct (fexp 53 1024 (Z.pos (digits2_pos p) + f) - f) as [|k|k] eqn:K; [|lia|]; reflexivity.
  - (* rounded up to a power of two *)
    assert (Fg : f = g).
    { destruct (Z.eq_dec f g) as [|N]; [assumption|]. exfalso. assert (f = e) by lia.
      assert (Em : Z.pos p = Z.pos m).
      { rewrite H in Err. rewrite Z.eqb_refl, Z.sub_diag in Err. change (2 ^ 0) with 1 in Err. lia. }
      injection Em as ->. unfold fexp, SpecFloat.emin in Gt. unfold g, D in *. lia. }
    specialize (Ub Fg).
    assert (T : Z.pos p = 2 ^ 53).
    { destruct (Z.eq_dec (Z.pos p) (2 ^ 53)) as [|N]; [assumption|]. exfalso.
      pose proof (digits_le p 53 ltac:(lia) ltac:(lia)). unfold fexp, SpecFloat.emin in Gt. lia. }
    injection T as ->. change (Z.pos (digits2_pos 9007199254740992)) with 54 in *.
    replace (fexp 53 1024 (54 + f) - f) with 1 by (unfold fexp, SpecFloat.emin in *; lia).
    exists 4503599627370496%positive, (f + 1). split; [replace (f + 1 - f) with 1 by lia; reflexivity|]. split; [lia|]. reflexivity.
Qed.

(** ** Relative error *)
Definition eps : Q := 1 # 9007199254740992.
Definition near1 (x y : Q) : Prop := (x * (1 - eps) <= y /\ y <= x * (1 + eps))%Q.
Definition in_range (x : Q) : Prop := (pwr 2 (-1022) <= x)%Q /\ (x < pwr 2 1023)%Q.

Lemma mag_bounds : forall m e, (pwr 2 (Z.pos (digits2_pos m) + e - 1) <= mag m e)%Q /\ (mag m e < pwr 2 (Z.pos (digits2_pos m) + e))%Q.
Proof.
  intros m e. pose proof (digits_bound m) as [B1 B2]. pose proof (pwr_pos 2 e ltac:(lia)) as P. unfold mag. fold (pwr 2 e). split.
  - replace (Z.pos (digits2_pos m) + e - 1) with ((Z.pos (digits2_pos m) - 1) + e) by lia. rewrite pwr_plus, (pwr_nat 2 (Z.pos (digits2_pos m) - 1)) by lia.
    apply Qmult_le_compat_r; [apply inj_le; assumption|apply Qlt_le_weak; assumption].
  - rewrite pwr_plus, (pwr_nat 2 (Z.pos (digits2_pos m))) by lia. apply Qmult_lt_r; [assumption|]. apply inj_lt. assumption.
Qed.

Lemma pwr_le_inv : forall b i j, 1 < b -> (pwr b i <= pwr b j)%Q -> i <= j.
Proof.
  intros b i j B H. destruct (Z_le_gt_dec i j) as [|G]; [assumption|]. exfalso.
  apply (Qlt_not_le _ _ (pwr_lt b j i B ltac:(lia))). assumption.
Qed.

Lemma mag_shift : forall m' e' R f, Z.pos m' * 2 ^ (e' - f) = R -> f <= e' -> (mag m' e' == inject_Z R * pwr 2 f)%Q.
Proof.
  intros m' e' R f E L. unfold mag. fold (pwr 2 e'). subst R. rewrite inject_Z_mult, <- pwr_nat by lia.
  replace e' with ((e' - f) + f) at 1 by lia. rewrite pwr_plus by lia. ring.
Qed.

Lemma round_close : forall s m e, e <= fexp 53 1024 (Z.pos (digits2_pos m) + e) -> in_range (mag m e) ->
  exists m' e', binary_round_aux 53 1024 s (Z.pos m) e loc_Exact = S754_finite s m' e' /\ near1 (mag m e) (mag m' e').
Proof.
  intros s m e Al [Lo Hi]. destruct (mag_bounds m e) as [M1 M2]. set (D := Z.pos (digits2_pos m) + e) in *.
  assert (D1 : -1022 < D) by (apply (pwr_lt_inv 2); [lia|]; eapply Qle_lt_trans; eassumption).
  assert (D2 : D - 1 < 1023) by (apply (pwr_lt_inv 2); [lia|]; eapply Qle_lt_trans; eassumption).
  destruct (round_aux_err s m e) as (f & R & F & Err & R0 & C). fold D in F. unfold fexp, SpecFloat.emin in Al.
  assert (Ff : f = D - 53) by lia. assert (Le : e <= f) by lia.
  assert (P : 0 < 2 ^ (f - e)) by (apply Z.pow_pos_nonneg; lia).
  assert (E2 : 2 * Z.abs (R * 2 ^ (f - e) - Z.pos m) <= 2 ^ (f - e)) by (destruct (f =? e); lia).
  clear Err F Al.
  (* the error is at most half a unit, that is eps * 2^(D-1) *)
  assert (Ea : near1 (mag m e) (inject_Z R * pwr 2 f)).
  { assert (V : (inject_Z R * pwr 2 f == inject_Z (R * 2 ^ (f - e)) * pwr 2 e)%Q).
    { rewrite inject_Z_mult, <- (pwr_nat 2 (f - e)) by lia. replace f with ((f - e) + e) at 1 by lia. rewrite pwr_plus by lia. ring. }
    set (T := R * 2 ^ (f - e)) in *. pose proof (pwr_pos 2 e ltac:(lia)) as Pe.
    assert (H1 : (inject_Z (2 ^ (f - e)) * pwr 2 e == pwr 2 f)%Q).
    { rewrite <- (pwr_nat 2 (f - e)) by lia. rewrite <- pwr_plus by lia. replace (f - e + e) with f by lia. reflexivity. }
    assert (H2 : (pwr 2 f * inject_Z 1 == (2 # 1) * eps * pwr 2 (D - 1))%Q).
    { replace (D - 1) with (f + 52) by lia. rewrite pwr_plus by lia. change (pwr 2 52) with (inject_Z 4503599627370496). unfold eps.
      setoid_replace ((2 # 1) * (1 # 9007199254740992) * (pwr 2 f * inject_Z 4503599627370496))%Q
        with (pwr 2 f * ((2 # 1) * (1 # 9007199254740992) * inject_Z 4503599627370496))%Q by ring.
      setoid_replace ((2 # 1) * (1 # 9007199254740992) * inject_Z 4503599627370496)%Q with (inject_Z 1) by reflexivity. reflexivity. }
    assert (H3 : ((2 # 1) * eps * pwr 2 (D - 1) <= (2 # 1) * eps * mag m e)%Q).
    { apply Qmult_le_l; [reflexivity|assumption]. }
    assert (H4 : (inject_Z (2 * Z.abs (T - Z.pos m)) * pwr 2 e <= (2 # 1) * eps * mag m e)%Q).
    { eapply Qle_trans; [|exact H3]. rewrite <- H2, Qmult_1_r, <- H1. apply Qmult_le_compat_r; [|apply Qlt_le_weak; assumption].
      apply inj_le. assumption. }
    assert (H5 : (inject_Z (T - Z.pos m) <= inject_Z (Z.abs (T - Z.pos m)))%Q) by (apply inj_le; lia).
    assert (H6 : (inject_Z (- (T - Z.pos m)) <= inject_Z (Z.abs (T - Z.pos m)))%Q) by (apply inj_le; lia).
    rewrite inject_Z_mult in H4. rewrite inject_Z_opp in H6.
    unfold Zminus in H5, H6. rewrite inject_Z_plus, inject_Z_opp in H5, H6.
    assert (H7 := Qmult_le_compat_r _ _ (pwr 2 e) H5 (Qlt_le_weak _ _ Pe)). assert (H8 := Qmult_le_compat_r _ _ (pwr 2 e) H6 (Qlt_le_weak _ _ Pe)).
    unfold near1. rewrite V. change (mag m e) with (inject_Z (Z.pos m) * pwr 2 e)%Q in *.
    set (A := (inject_Z (Z.abs (T - Z.pos m)) * pwr 2 e)%Q) in *. set (B := (inject_Z (Z.pos m) * pwr 2 e)%Q) in *.
    assert (H9 : (A <= eps * B)%Q).
    { apply (Qmult_le_l _ _ (2 # 1)); [reflexivity|]. setoid_replace ((2 # 1) * A)%Q with (inject_Z 2 * inject_Z (Z.abs (T - Z.pos m)) * pwr 2 e)%Q by (unfold A; change (inject_Z 2) with (2 # 1); ring).
      setoid_replace ((2 # 1) * (eps * B))%Q with ((2 # 1) * eps * B)%Q by ring. exact H4. }
    assert (H10 : (inject_Z T * pwr 2 e - B <= A)%Q) by (unfold B; setoid_replace (inject_Z T * pwr 2 e - inject_Z (Z.pos m) * pwr 2 e)%Q with ((inject_Z T + - inject_Z (Z.pos m)) * pwr 2 e)%Q by ring; exact H7).
    assert (H11 : (B - inject_Z T * pwr 2 e <= A)%Q) by (unfold B; setoid_replace (inject_Z (Z.pos m) * pwr 2 e - inject_Z T * pwr 2 e)%Q with (- (inject_Z T + - inject_Z (Z.pos m)) * pwr 2 e)%Q by ring; exact H8).
    set (y := (inject_Z T * pwr 2 e)%Q) in *. clear - H9 H10 H11. clearbody A B y. clear T. split; lra. }
  destruct C as [[Rz _]|(m' & e' & Em & Ee & C)].
  - exfalso. rewrite Rz in Ea. destruct Ea as [Ea _]. pose proof (mag_pos m e). unfold eps in Ea. change (inject_Z 0) with 0%Q in Ea. lra.
  - exists m', e'. rewrite C. replace (e' <=? 971) with true by lia. split; [reflexivity|]. unfold near1.
    rewrite (mag_shift m' e' R f Em (proj1 Ee)). exact Ea.
Qed.

(** ** Operations on doubles that are not negative *)
Definition posf (f : f64) (x : Q) : Prop :=
  (f = S754_zero false /\ (x == 0)%Q) \/ (exists m e, f = S754_finite false m e /\ bounded 53 1024 m e = true /\ (x == mag m e)%Q).

Lemma posf_ge : forall f x, posf f x -> (0 <= x)%Q.
Proof. intros f x [[_ E]|(m & e & _ & _ & E)]; rewrite E; [apply Qle_refl|apply Qlt_le_weak, mag_pos]. Qed.
Lemma posf_eq : forall f x y, posf f x -> (x == y)%Q -> posf f y.
Proof. intros f x y [[F E]|(m & e & F & B & E)] H; [left; split; [assumption|]|right; exists m, e; repeat split; try assumption]; rewrite <- H; assumption. Qed.
Lemma near1_refl : forall x, (0 <= x)%Q -> near1 x x.
Proof. intros x H. unfold near1, eps. split; lra. Qed.
Lemma near1_eq : forall x x' y, near1 x y -> (x == x')%Q -> near1 x' y.
Proof. intros x x' y [A B] E. unfold near1. rewrite <- E. split; assumption. Qed.

Lemma digits_mul : forall p q, Z.pos (digits2_pos p) + Z.pos (digits2_pos q) - 1 <= Z.pos (digits2_pos (p * q)).
Proof.
  intros p q. destruct (digits_bound p) as [_ P]. destruct (digits_bound q) as [_ Q]. destruct (digits_bound (p * q)) as [H _].
  assert (X : 2 ^ (Z.pos (digits2_pos p) - 1 + (Z.pos (digits2_pos q) - 1)) < 2 ^ Z.pos (digits2_pos (p * q))).
  { rewrite Z.pow_add_r by lia. eapply Z.le_lt_trans; [|exact H]. rewrite Pos2Z.inj_mul. apply Z.mul_le_mono_nonneg; try assumption; apply Z.pow_nonneg; lia. }
  apply Z.pow_lt_mono_r_iff in X; lia.
Qed.

Lemma aux_posf : forall m e, e <= fexp 53 1024 (Z.pos (digits2_pos m) + e) -> in_range (mag m e) ->
  exists z, posf (binary_round_aux 53 1024 false (Z.pos m) e loc_Exact) z /\ near1 (mag m e) z.
Proof.
  intros m e Al R. destruct (round_close false m e Al R) as (m' & e' & E & N). exists (mag m' e'). split; [|assumption].
  right. exists m', e'. split; [assumption|]. split; [|reflexivity].
  pose proof (round_aux_valid 53 1024 ltac:(lia) false m e Al) as V. rewrite E in V. exact V.
Qed.
Lemma round_posf : forall m e, in_range (mag m e) -> exists z, posf (binary_round 53 1024 false m e) z /\ near1 (mag m e) z.
Proof.
  intros m e R. unfold binary_round, shl_align. set (f := fexp 53 1024 (Z.pos (digits2_pos m) + e)).
  destruct (f - e) as [|k|k] eqn:K.
  - apply aux_posf; [fold f; lia|assumption].
  - apply aux_posf; [fold f; lia|assumption].
  - assert (V : (mag (shift_pos k m) f == mag m e)%Q).
    { unfold mag. fold (pwr 2 f) (pwr 2 e). rewrite shift_pos_val, inject_Z_mult, <- pwr_nat by lia. replace e with (Z.pos k + f) by lia.
      rewrite pwr_plus by lia. ring. }
    destruct (aux_posf (shift_pos k m) f) as (z & P & N).
    + rewrite digits_shift. replace (Z.pos (digits2_pos m) + Z.pos k + f) with (Z.pos (digits2_pos m) + e) by lia. fold f. lia.
    + unfold in_range. rewrite V. exact R.
    + exists z. split; [assumption|]. eapply near1_eq; eassumption.
Qed.

Definition ok_result (x : Q) : Prop := (x == 0)%Q \/ in_range x.

Lemma in_range_eq : forall x y, (x == y)%Q -> in_range x -> in_range y.
Proof. intros x y E [A B]. unfold in_range. rewrite <- E. split; assumption. Qed.
Lemma in_range_pos : forall x, in_range x -> (0 < x)%Q.
Proof. intros x [A _]. eapply Qlt_le_trans; [|exact A]. apply pwr_pos. lia. Qed.

Lemma dmul_posf : forall f g x y, posf f x -> posf g y -> ok_result (x * y) -> exists z, posf (dmul f g) z /\ near1 (x * y) z.
Proof.
  intros f g x y F G R.
  assert (Z0 : posf (dmul f g) 0 -> (x * y == 0)%Q -> exists z, posf (dmul f g) z /\ near1 (x * y) z).
  { intros P E. exists 0%Q. split; [assumption|]. unfold near1. rewrite E. split; lra. }
  destruct F as [[-> E]|(m & e & -> & B & E)], G as [[-> E']|(m' & e' & -> & B' & E')].
  - apply Z0; [left; split; reflexivity|rewrite E; ring].
  - apply Z0; [left; split; reflexivity|rewrite E; ring].
  - apply Z0; [left; split; reflexivity|rewrite E'; ring].
  - cbn [dmul SFmul xorb]. unfold dmul, SFmul. cbn [xorb].
    assert (V : (x * y == mag (m * m') (e + e'))%Q).
    { rewrite E, E'. unfold mag. fold (pwr 2 e) (pwr 2 e') (pwr 2 (e + e')). rewrite Pos2Z.inj_mul, inject_Z_mult, pwr_plus by lia. ring. }
    destruct R as [R|R].
    { exfalso. rewrite V in R. pose proof (mag_pos (m * m') (e + e')). rewrite R in H. discriminate. }
    destruct (aux_posf (m * m') (e + e')) as (z & P & N).
    + apply canon in B. apply canon in B'. pose proof (digits_mul m m'). unfold fexp, SpecFloat.emin in *. lia.
    + eapply in_range_eq; eassumption.
    + exists z. split; [assumption|]. eapply near1_eq; [exact N|]. symmetry. exact V.
Qed.

Lemma align_val : forall m e ez, ez <= e -> (inject_Z (Z.pos (fst (shl_align m e ez))) * pwr 2 ez == mag m e)%Q.
Proof.
  intros m e ez L. unfold shl_align, mag. fold (pwr 2 e). destruct (ez - e) as [|k|k] eqn:K; cbn [fst].
  - replace ez with e by lia. reflexivity.
  - lia.
  - rewrite shift_pos_val, inject_Z_mult, <- pwr_nat by lia. replace e with (Z.pos k + ez) by lia. rewrite pwr_plus by lia. ring.
Qed.

Lemma dadd_posf : forall f g x y, posf f x -> posf g y -> ok_result (x + y) -> exists z, posf (dadd f g) z /\ near1 (x + y) z.
Proof.
  intros f g x y F G R. pose proof (posf_ge _ _ F) as X0. pose proof (posf_ge _ _ G) as Y0.
  destruct F as [[-> E]|(m & e & -> & B & E)], G as [[-> E']|(m' & e' & -> & B' & E')]; cbn [dadd SFadd Bool.eqb].
  - exists 0%Q. split; [left; split; reflexivity|]. unfold near1. rewrite E, E'. split; unfold eps; lra.
  - exists y. split; [right; exists m', e'; repeat split; assumption|]. apply (near1_eq y); [apply near1_refl; assumption|]. rewrite E. ring.
  - exists x. split; [right; exists m, e; repeat split; assumption|]. apply (near1_eq x); [apply near1_refl; assumption|]. rewrite E'. ring.
  - unfold dadd, SFadd. set (ez := Z.min e e'). cbn [cond_Zopp].
    pose proof (align_val m e ez ltac:(lia)) as A. pose proof (align_val m' e' ez ltac:(lia)) as A'.
    set (p := fst (shl_align m e ez)) in *. set (q := fst (shl_align m' e' ez)) in *.
    change (Z.pos p + Z.pos q) with (Z.pos (p + q)). cbn [binary_normalize].
    assert (V : (x + y == mag (p + q) ez)%Q).
    { rewrite E, E', <- A, <- A'. unfold mag. fold (pwr 2 ez). rewrite Pos2Z.inj_add, inject_Z_plus. ring. }
    destruct R as [R|R].
    { exfalso. rewrite V in R. pose proof (mag_pos (p + q) ez). rewrite R in H. discriminate. }
    destruct (round_posf (p + q) ez) as (z & P & N); [eapply in_range_eq; eassumption|].
    exists z. split; [assumption|]. eapply near1_eq; [exact N|]. symmetry. exact V.
Qed.

Lemma of_Z_posf : forall z, 0 <= z -> ok_result (inject_Z z) -> exists y, posf (d_of_Z z) y /\ near1 (inject_Z z) y.
Proof.
  intros [|p|p] H R; [| |lia].
  - exists 0%Q. split; [left; split; reflexivity|]. apply near1_refl. apply Qle_refl.
  - destruct R as [R|R]; [apply (proj1 (inj_eq _ 0)) in R; discriminate|].
    assert (V : (mag p 0 == inject_Z (Z.pos p))%Q) by (unfold mag; cbn [Qpower]; ring).
    destruct (round_posf p 0) as (z & P & N); [eapply in_range_eq; [symmetry; exact V|exact R]|].
    exists z. split; [exact P|]. eapply near1_eq; eassumption.
Qed.
