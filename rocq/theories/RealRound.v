(** Rounding of rationals and the decimal exponent, for SpecReal. *)
From Coq Require Import List NArith ZArith QArith Qabs Qpower Lia Lqa ZifyBool ZifyNat ZifyN Floats.SpecFloat.
From Verif Require Import Base Value FloatFmt SpecReal.
Import ListNotations.
Open Scope Z_scope.

(** ** Powers *)
Definition pwr (b k : Z) : Q := (inject_Z b ^ k)%Q.

Lemma inj_pos : forall z, 0 < z -> (0 < inject_Z z)%Q.
Proof. intros z H. unfold inject_Z, Qlt. cbn. lia. Qed.
Lemma pwr_pos : forall b k, 0 < b -> (0 < pwr b k)%Q.
Proof. intros b k H. apply Qpower_0_lt. apply inj_pos. assumption. Qed.
Lemma pwr_plus : forall b i j, 0 < b -> (pwr b (i + j) == pwr b i * pwr b j)%Q.
Proof. intros b i j H. apply Qpower_plus. intro E. apply inj_pos in H. rewrite E in H. discriminate. Qed.
Lemma pwr_nat : forall b k, 0 <= k -> (pwr b k == inject_Z (b ^ k))%Q.
Proof. intros b k H. symmetry. apply Zpower_Qpower. assumption. Qed.
Lemma pwr_split : forall b k, 0 < b -> (pwr b k * inject_Z (b ^ Z.max 0 (- k)) == inject_Z (b ^ Z.max 0 k))%Q.
Proof.
  intros b k H. rewrite <- !pwr_nat by lia. destruct (Z.le_ge_cases 0 k).
  - rewrite (Z.max_l 0 (- k)), (Z.max_r 0 k) by lia. unfold pwr at 2. cbn [Qpower]. ring.
  - rewrite (Z.max_r 0 (- k)), (Z.max_l 0 k) by lia. rewrite <- pwr_plus by assumption. rewrite Z.add_opp_diag_r. reflexivity.
Qed.

Lemma npow : forall b k, Z.of_N (b ^ Z.to_N k) = Z.of_N b ^ Z.max 0 k.
Proof. intros b k. rewrite N2Z.inj_pow. f_equal. lia. Qed.

Lemma inj_le : forall a b, (inject_Z a <= inject_Z b)%Q <-> a <= b.
Proof. intros. rewrite (Zle_Qle a b). reflexivity. Qed.
Lemma inj_lt : forall a b, (inject_Z a < inject_Z b)%Q <-> a < b.
Proof. intros. rewrite (Zlt_Qlt a b). reflexivity. Qed.
Lemma inj_eq : forall a b, (inject_Z a == inject_Z b)%Q <-> a = b.
Proof. intros. split; [|intros ->; reflexivity]. unfold Qeq. cbn. lia. Qed.
Lemma pwr_lt : forall b i j, 1 < b -> i < j -> (pwr b i < pwr b j)%Q.
Proof.
  intros b i j B H. replace j with (i + (j - i)) by lia. rewrite pwr_plus by lia. rewrite (pwr_nat b (j - i)) by lia.
  pose proof (pwr_pos b i ltac:(lia)). assert (L : 1 < b ^ (j - i)) by (apply Z.pow_gt_1; lia). apply inj_lt in L.
  rewrite <- (Qmult_1_r (pwr b i)) at 1. apply Qmult_lt_l; assumption.
Qed.
Lemma pwr_le : forall b i j, 1 < b -> i <= j -> (pwr b i <= pwr b j)%Q.
Proof. intros b i j B H. destruct (Z.eq_dec i j) as [->|]; [apply Qle_refl|]. apply Qlt_le_weak. apply pwr_lt; lia. Qed.
Lemma pwr_lt_inv : forall b i j, 1 < b -> (pwr b i < pwr b j)%Q -> i < j.
Proof. intros b i j B H. destruct (Z.lt_ge_cases i j) as [|L]; [assumption|]. pose proof (pwr_le b j i B L). exfalso. apply (Qlt_not_le _ _ H). assumption. Qed.

(** ** m * 2^e * 10^k as a fraction *)
Definition num (m : N) (e k : Z) : N := (m * 2 ^ Z.to_N e * 10 ^ Z.to_N k)%N.
Definition den (e k : Z) : N := (2 ^ Z.to_N (- e) * 10 ^ Z.to_N (- k))%N.

Lemma den_pos : forall e k, (0 < den e k)%N.
Proof.
  intros e k. unfold den. assert ((2 ^ Z.to_N (- e) <> 0)%N) by (apply N.pow_nonzero; discriminate).
  assert ((10 ^ Z.to_N (- k) <> 0)%N) by (apply N.pow_nonzero; discriminate). nia.
Qed.
Lemma num_pos : forall p e k, (0 < num (Npos p) e k)%N.
Proof.
  intros p e k. unfold num. assert ((2 ^ Z.to_N e <> 0)%N) by (apply N.pow_nonzero; discriminate).
  assert ((10 ^ Z.to_N k <> 0)%N) by (apply N.pow_nonzero; discriminate). nia.
Qed.

Lemma ratio : forall m e k, (mag m e * pwr 10 k * inject_Z (Z.of_N (den e k)) == inject_Z (Z.of_N (num (Npos m) e k)))%Q.
Proof.
  intros m e k. unfold num, den, mag. rewrite !N2Z.inj_mul, !npow, !inject_Z_mult.
  rewrite <- (pwr_split (Z.of_N 2) e), <- (pwr_split (Z.of_N 10) k) by lia.
  change (Z.of_N 2) with 2. change (Z.of_N 10) with 10. change (Z.of_N (Npos m)) with (Zpos m). fold (pwr 2 e). ring.
Qed.

(** ** Nearest integers *)
Lemma nearest_ratio : forall y P R n, 0 < R -> (y * inject_Z R == inject_Z P)%Q ->
  (nearest y n <-> 2 * Z.abs (P - n * R) <= R /\ (2 * Z.abs (P - n * R) = R -> Z.even n = true)).
Proof.
  intros y P R n HR E.
  assert (A : (Qabs (y - inject_Z n) * inject_Z R == inject_Z (Z.abs (P - n * R)))%Q).
  { rewrite <- (Qabs_pos (inject_Z R)) by (apply Qlt_le_weak, inj_pos; assumption). rewrite <- Qabs_Qmult.
    transitivity (Qabs (inject_Z (P - n * R))); [apply Qabs_wd|reflexivity].
    unfold Z.sub. rewrite inject_Z_plus, inject_Z_opp, inject_Z_mult, <- E. ring. }
  set (d := Qabs (y - inject_Z n)) in *. unfold nearest. fold d. pose proof (inj_pos R HR) as Rp.
  assert (B : (d <= 1 # 2)%Q <-> 2 * Z.abs (P - n * R) <= R).
  { rewrite <- inj_le, inject_Z_mult, <- A. change (inject_Z 2) with (2#1)%Q. split; intro H; nra. }
  assert (C : (d == 1 # 2)%Q <-> 2 * Z.abs (P - n * R) = R).
  { rewrite <- inj_eq, inject_Z_mult, <- A. change (inject_Z 2) with (2#1)%Q. split; intro H; [rewrite H; ring|]. 
    apply (Qmult_inj_r _ _ (inject_Z R)); [intro Z; rewrite Z in Rp; discriminate|]. lra. }
  rewrite B, C. reflexivity.
Qed.

Lemma nearest_unique : forall y n n', nearest y n -> nearest y n' -> n = n'.
Proof.
  intros [P R] n n'. assert (E : ((P # R) * inject_Z (Zpos R) == inject_Z P)%Q) by (unfold Qeq; cbn; lia).
  rewrite !(nearest_ratio _ P (Zpos R)) by (lia || assumption). intros [A B] [C D]. 
  assert (n = n' \/ n = n' + 1 \/ n' = n + 1) as [H|[->| ->]] by nia; [assumption| |]; exfalso.
  - assert (X : 2 * Z.abs (P - n' * Zpos R) = Zpos R) by nia. assert (Y : 2 * Z.abs (P - (n' + 1) * Zpos R) = Zpos R) by nia.
    specialize (B Y). specialize (D X). rewrite Z.add_1_r, Z.even_succ, <- Z.negb_even, D in B. discriminate.
  - assert (X : 2 * Z.abs (P - n * Zpos R) = Zpos R) by nia. assert (Y : 2 * Z.abs (P - (n + 1) * Zpos R) = Zpos R) by nia.
    specialize (D Y). specialize (B X). rewrite Z.add_1_r, Z.even_succ, <- Z.negb_even, B in D. discriminate.
Qed.

Lemma div_round_nearest : forall p q, (0 < q)%N ->
  2 * Z.abs (Z.of_N p - Z.of_N (div_round p q) * Z.of_N q) <= Z.of_N q /\
  (2 * Z.abs (Z.of_N p - Z.of_N (div_round p q) * Z.of_N q) = Z.of_N q -> Z.even (Z.of_N (div_round p q)) = true).
Proof.
  intros p q Q. unfold div_round. pose proof (N.div_mod p q ltac:(lia)) as E. pose proof (N.mod_lt p q ltac:(lia)) as L.
  set (d := (p / q)%N) in *. set (r := (p mod q)%N) in *. 
  assert (Ev : Z.even (Z.of_N d) = N.even d) by (destruct d as [|[]]; reflexivity).
  assert (Es : Z.even (Z.of_N (d + 1)) = negb (N.even d)) by (rewrite N2Z.inj_add, Z.add_1_r, Z.even_succ, <- Z.negb_even, Ev; reflexivity).
  assert (P : Z.of_N p = Z.of_N d * Z.of_N q + Z.of_N r) by (clearbody d r; subst p; rewrite N2Z.inj_add, N2Z.inj_mul; ring). rewrite P. clearbody d r. clear E P.
  assert (D1 : Z.of_N d * Z.of_N q + Z.of_N r - Z.of_N d * Z.of_N q = Z.of_N r) by ring.
  assert (D2 : Z.of_N d * Z.of_N q + Z.of_N r - Z.of_N (d + 1) * Z.of_N q = Z.of_N r - Z.of_N q) by (rewrite N2Z.inj_add; ring).
  destruct (N.compare_spec (2 * r) q) as [C|C|C].
  - destruct (N.even d) eqn:Ed.
    + rewrite D1, Ev. split; [lia|reflexivity].
    + rewrite D2, Es. split; [lia|reflexivity].
  - rewrite D1. split; [lia|]. intro; exfalso; lia.
  - rewrite D2. split; [lia|]. intro; exfalso; lia.
Qed.

Lemma scaled_nearest : forall m e k n, nearest (mag m e * pwr 10 k) n <-> n = Z.of_N (scaled (Npos m) e k).
Proof.
  intros m e k n.
  assert (S : nearest (mag m e * pwr 10 k) (Z.of_N (scaled (Npos m) e k))).
  { assert (D : 0 < Z.of_N (den e k)) by (pose proof (den_pos e k); lia). apply (nearest_ratio _ _ _ _ D (ratio m e k)). apply div_round_nearest. apply den_pos. }
  split; [|intros ->; exact S]. intro H. exact (nearest_unique _ _ _ H S).
Qed.

Lemma mag_pos : forall m e, (0 < mag m e)%Q.
Proof. intros m e. unfold mag. apply Qmult_lt_0_compat; [apply inj_pos; lia|]. apply (pwr_pos 2). lia. Qed.
