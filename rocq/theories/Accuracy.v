(** How close the parsed double is to the literal. *)
From Coq Require Import List NArith ZArith QArith Qabs Qpower Lia Lqa ZifyBool ZifyNat ZifyN Floats.SpecFloat.
From Verif Require Import Base Value SpecGrammar SpecText SpecReal FloatFacts RealRound RealText RoundErr Encoding Token Parser NumberFacts.
Import ListNotations.
Open Scope Z_scope.

(** ** Accumulated relative error *)
Fixpoint pw (b : Q) (n : nat) : Q := match n with O => 1 | S n' => b * pw b n' end.
Definition lo (n : nat) : Q := pw (1 - eps) n.
Definition hi (n : nat) : Q := pw (1 + eps) n.
Definition close (n : nat) (x y : Q) : Prop := (0 <= x /\ x * lo n <= y /\ y <= x * hi n)%Q.

Lemma pw_pos : forall b n, (0 < b)%Q -> (0 < pw b n)%Q.
Proof. intros b n H. induction n as [|n IH]; cbn [pw]; [reflexivity|]. apply Qmult_lt_0_compat; assumption. Qed.
Lemma pw_add : forall b n m, (pw b (n + m) == pw b n * pw b m)%Q.
Proof. intros b n m. induction n as [|n IH]; cbn [pw Nat.add]; [ring|]. rewrite IH. ring. Qed.
Lemma lo_pos : forall n, (0 < lo n)%Q.
Proof. intro n. apply pw_pos. reflexivity. Qed.
Lemma hi_pos : forall n, (0 < hi n)%Q.
Proof. intro n. apply pw_pos. reflexivity. Qed.
Lemma lo_S : forall n, (lo (S n) <= lo n)%Q.
Proof. intro n. unfold lo. cbn [pw]. fold (lo n). pose proof (lo_pos n). unfold eps. nra. Qed.
Lemma hi_S : forall n, (hi n <= hi (S n))%Q.
Proof. intro n. unfold hi. cbn [pw]. fold (hi n). pose proof (hi_pos n). unfold eps. nra. Qed.
Lemma lo_mono : forall n m, (n <= m)%nat -> (lo m <= lo n)%Q.
Proof. intros n m H. induction H as [|m H IH]; [apply Qle_refl|]. eapply Qle_trans; [apply lo_S|exact IH]. Qed.
Lemma hi_mono : forall n m, (n <= m)%nat -> (hi n <= hi m)%Q.
Proof. intros n m H. induction H as [|m H IH]; [apply Qle_refl|]. eapply Qle_trans; [exact IH|apply hi_S]. Qed.

Lemma lo_bound : forall n, (1 - inject_Z (Z.of_nat n) * eps <= lo n)%Q.
Proof.
  induction n as [|n IH]; [unfold lo; cbn [pw]; change (inject_Z (Z.of_nat 0)) with 0%Q; lra|].
  rewrite Nat2Z.inj_succ, <- Z.add_1_r, inject_Z_plus. unfold lo in *. cbn [pw]. set (L := pw (1 - eps) n) in *. clearbody L.
  assert (N : (0 <= inject_Z (Z.of_nat n))%Q) by (change 0%Q with (inject_Z 0); apply inj_le; lia). set (x := inject_Z (Z.of_nat n)) in *. clearbody x.
  change (inject_Z 1) with 1%Q. unfold eps in *.
  assert ((1 - (1 # 9007199254740992)) * (1 - x * (1 # 9007199254740992)) <= (1 - (1 # 9007199254740992)) * L)%Q by (apply Qmult_le_l; [reflexivity|assumption]).
  nra.
Qed.
Lemma hi_bound : forall n, (2 * inject_Z (Z.of_nat n) * eps <= 1)%Q -> (hi n <= 1 + 2 * inject_Z (Z.of_nat n) * eps)%Q.
Proof.
  induction n as [|n IH]; intro B; [unfold hi; cbn [pw]; change (inject_Z (Z.of_nat 0)) with 0%Q; lra|].
  rewrite Nat2Z.inj_succ, <- Z.add_1_r, inject_Z_plus in *. unfold hi in *. cbn [pw]. set (L := pw (1 + eps) n) in *. clearbody L.
  assert (N : (0 <= inject_Z (Z.of_nat n))%Q) by (change 0%Q with (inject_Z 0); apply inj_le; lia). set (x := inject_Z (Z.of_nat n)) in *. clearbody x.
  change (inject_Z 1) with 1%Q in *. unfold eps in *.
  assert (I : (L <= 1 + 2 * x * (1 # 9007199254740992))%Q) by (apply IH; nra).
  assert ((1 + (1 # 9007199254740992)) * L <= (1 + (1 # 9007199254740992)) * (1 + 2 * x * (1 # 9007199254740992)))%Q by (apply Qmult_le_l; [reflexivity|assumption]).
  nra.
Qed.
Lemma lo_half : forall n, (n <= 1000)%nat -> (1 # 2 <= lo n)%Q.
Proof.
  intros n H. eapply Qle_trans; [|apply lo_bound]. assert (inject_Z (Z.of_nat n) <= inject_Z 1000)%Q by (apply inj_le; lia).
  change (inject_Z 1000) with (1000 # 1)%Q in *. unfold eps. lra.
Qed.
Lemma hi_two : forall n, (n <= 1000)%nat -> (hi n <= 2)%Q.
Proof.
  intros n H. assert (inject_Z (Z.of_nat n) <= inject_Z 1000)%Q by (apply inj_le; lia).
  change (inject_Z 1000) with (1000 # 1)%Q in *. eapply Qle_trans; [apply hi_bound; unfold eps; lra|]. unfold eps. lra.
Qed.

Lemma close_refl : forall n x, (0 <= x)%Q -> close n x x.
Proof.
  intros n x H. split; [assumption|]. pose proof (lo_mono 0 n ltac:(lia)) as L. pose proof (hi_mono 0 n ltac:(lia)) as U.
  unfold lo at 2 in L. unfold hi at 1 in U. cbn [pw] in *. split; nra.
Qed.
Lemma close_mono : forall n m x y, (n <= m)%nat -> close n x y -> close m x y.
Proof.
  intros n m x y H (A & B & C). split; [assumption|]. pose proof (lo_mono n m H). pose proof (hi_mono n m H). split; nra.
Qed.
Lemma close_eq : forall n x x' y, close n x y -> (x == x')%Q -> close n x' y.
Proof. intros n x x' y (A & B & C) E. unfold close. rewrite <- E. repeat split; assumption. Qed.
Lemma close_near : forall n x y z, close n x y -> near1 y z -> close (S n) x z.
Proof.
  intros n x y z (A & B & C) [D E]. split; [assumption|]. unfold lo, hi in *. cbn [pw]. set (L := pw (1 - eps) n) in *. set (U := pw (1 + eps) n) in *.
  clearbody L U. split.
  - eapply Qle_trans; [|exact D]. setoid_replace (x * ((1 - eps) * L))%Q with ((x * L) * (1 - eps))%Q by ring. apply Qmult_le_compat_r; [assumption|discriminate].
  - eapply Qle_trans; [exact E|]. setoid_replace (x * ((1 + eps) * U))%Q with ((x * U) * (1 + eps))%Q by ring. apply Qmult_le_compat_r; [assumption|discriminate].
Qed.
Lemma close_ge : forall n x y, close n x y -> (0 <= y)%Q.
Proof. intros n x y (A & B & _). eapply Qle_trans; [|exact B]. apply Qmult_le_0_compat; [assumption|apply Qlt_le_weak, lo_pos]. Qed.
Lemma close_mul : forall n m x y x' y', close n x y -> close m x' y' -> close (n + m) (x * x') (y * y').
Proof.
  intros n m x y x' y' H H'. pose proof (close_ge _ _ _ H) as Y. pose proof (close_ge _ _ _ H') as Y'. destruct H as (A & B & C), H' as (A' & B' & C').
  split; [apply Qmult_le_0_compat; assumption|]. unfold lo, hi in *. rewrite !pw_add.
  pose proof (lo_pos n) as P1. pose proof (lo_pos m) as P2. pose proof (hi_pos n) as P3. pose proof (hi_pos m) as P4. unfold lo, hi in P1, P2, P3, P4.
  split.
  - eapply Qle_trans; [|apply Qmult_le_compat_r; [exact B|exact Y']].
    setoid_replace (x * x' * (pw (1 - eps) n * pw (1 - eps) m))%Q with ((x' * pw (1 - eps) m) * (x * pw (1 - eps) n))%Q by ring.
    rewrite (Qmult_comm (x * pw (1 - eps) n)). apply Qmult_le_compat_r; [exact B'|]. apply Qmult_le_0_compat; [assumption|apply Qlt_le_weak; assumption].
  - eapply Qle_trans; [apply Qmult_le_compat_r; [exact C|exact Y']|].
    setoid_replace (x * x' * (pw (1 + eps) n * pw (1 + eps) m))%Q with ((x' * pw (1 + eps) m) * (x * pw (1 + eps) n))%Q by ring.
    rewrite (Qmult_comm (x * pw (1 + eps) n)). apply Qmult_le_compat_r; [exact C'|]. apply Qmult_le_0_compat; [assumption|apply Qlt_le_weak; assumption].
Qed.
Lemma close_add : forall n x y x' y', close n x y -> close n x' y' -> close n (x + x') (y + y').
Proof. intros n x y x' y' (A & B & C) (A' & B' & C'). split; [lra|]. split; lra. Qed.
Lemma close_zero : forall n x y, close n x y -> (x == 0)%Q -> (y == 0)%Q.
Proof. intros n x y (A & B & C) E. rewrite E in *. lra. Qed.

(** ** One operation *)
Definition mid (x : Q) : Prop := (pwr 10 (-300) <= x <= pwr 10 300)%Q.
Lemma mid_eq : forall x y, (x == y)%Q -> mid x -> mid y.
Proof. intros x y E [A B]. unfold mid. rewrite <- E. split; assumption. Qed.
Lemma close_range : forall n x y, close n x y -> (n <= 1000)%nat -> mid x -> in_range y.
Proof.
  intros n x y (A & B & C) N [L H]. pose proof (lo_half n N) as Lh. pose proof (hi_two n N) as Ht. split.
  - apply Qle_trans with (pwr 10 (-300) * (1 # 2))%Q; [vm_compute; discriminate|]. eapply Qle_trans; [|exact B].
    eapply Qle_trans; [apply Qmult_le_compat_r; [exact L|discriminate]|]. rewrite !(Qmult_comm x). apply Qmult_le_compat_r; assumption.
  - apply Qle_lt_trans with (pwr 10 300 * 2)%Q; [|vm_compute; reflexivity]. eapply Qle_trans; [exact C|].
    eapply Qle_trans; [|apply Qmult_le_compat_r; [exact H|discriminate]]. rewrite !(Qmult_comm x). apply Qmult_le_compat_r; assumption.
Qed.
Definition fine (x : Q) : Prop := (x == 0)%Q \/ mid x.
Lemma fine_ok : forall n x y, close n x y -> (n <= 1000)%nat -> fine x -> ok_result y.
Proof. intros n x y C N [Z|M]; [left; eapply close_zero; eassumption|right; eapply close_range; eassumption]. Qed.

Lemma mul_close : forall f g x y a b X Y, posf f x -> posf g y -> close a X x -> close b Y y -> fine (X * Y) -> (a + b <= 1000)%nat ->
  exists z, posf (dmul f g) z /\ close (S (a + b)) (X * Y) z.
Proof.
  intros f g x y a b X Y F G A B R N. pose proof (close_mul _ _ _ _ _ _ A B) as C.
  destruct (dmul_posf f g x y F G (fine_ok _ _ _ C N R)) as (z & P & Nz). exists z. split; [assumption|]. eapply close_near; eassumption.
Qed.
Lemma add_close : forall f g x y a X Y, posf f x -> posf g y -> close a X x -> close a Y y -> fine (X + Y) -> (a <= 1000)%nat ->
  exists z, posf (dadd f g) z /\ close (S a) (X + Y) z.
Proof.
  intros f g x y a X Y F G A B R N. pose proof (close_add _ _ _ _ _ A B) as C.
  destruct (dadd_posf f g x y F G (fine_ok _ _ _ C N R)) as (z & P & Nz). exists z. split; [assumption|]. eapply close_near; eassumption.
Qed.

(** ** Fractions *)
Definition tenths (i : nat) : Q := pwr 10 (- Z.of_nat i).
Lemma tenths_S : forall i, (tenths (S i) * 10 == tenths i)%Q.
Proof.
  intro i. unfold tenths. replace (- Z.of_nat i) with (- Z.of_nat (S i) + 1) by lia. rewrite pwr_plus by lia. reflexivity.
Qed.
Lemma tenths_mul : forall i, (tenths i * (1 # 10) == tenths (S i))%Q.
Proof. intro i. rewrite <- (tenths_S i). field. Qed.
Lemma tenths_pos : forall i, (0 < tenths i)%Q.
Proof. intro i. apply pwr_pos. lia. Qed.
Lemma tenths_le : forall i, (tenths i <= 1)%Q.
Proof. intro i. change 1%Q with (pwr 10 0). apply pwr_le; lia. Qed.

Lemma tenth_posf : exists t, posf dtenth t /\ close 1 (1 # 10) t.
Proof.
  exists (mag 7205759403792794 (-56)). split.
  - right. exists 7205759403792794%positive, (-56). split; [vm_compute; reflexivity|]. split; [reflexivity|reflexivity].
  - unfold close, lo, hi, pw. split; [discriminate|]. split; vm_compute; discriminate.
Qed.
Lemma digit_posf : forall j, 0 <= j <= 9 -> posf (d_of_Z j) (inject_Z j).
Proof.
  intros j H. assert (C : j = 0 \/ j = 1 \/ j = 2 \/ j = 3 \/ j = 4 \/ j = 5 \/ j = 6 \/ j = 7 \/ j = 8 \/ j = 9) by lia.
  destruct C as [->|C]; [left; split; reflexivity|].
  repeat (destruct C as [->|C]; [right; eexists _, _; split; [vm_compute; reflexivity|split; reflexivity]|]).
  subst j. right. eexists _, _. split; [vm_compute; reflexivity|split; reflexivity].
Qed.
Lemma mid_scaled : forall A i, 1 <= A -> A < 2 ^ 64 * 10 ^ Z.of_nat i -> (i <= 280)%nat -> mid (inject_Z A * tenths i).
Proof.
  intros A i L U I. pose proof (tenths_pos i) as P. split.
  - apply Qle_trans with (tenths i); [apply pwr_le; lia|]. rewrite <- (Qmult_1_l (tenths i)) at 1. apply Qmult_le_compat_r; [|lra].
    change 1%Q with (inject_Z 1). apply inj_le. assumption.
  - apply Qle_trans with (inject_Z (2 ^ 64 * 10 ^ Z.of_nat i) * tenths i)%Q.
    + apply Qmult_le_compat_r; [apply inj_le; lia|lra].
    + rewrite inject_Z_mult, <- (pwr_nat 10) by lia. unfold tenths. rewrite <- Qmult_assoc, <- pwr_plus by lia.
      rewrite Z.add_opp_diag_r. vm_compute. discriminate.
Qed.

Lemma frac_close : forall ds i A f p x y, Forall ascii_digit ds -> 0 <= A -> A < 2 ^ 64 * 10 ^ Z.of_nat i -> (i + length ds <= 280)%nat ->
  posf f x -> close (2 * i + 1) (inject_Z A * tenths i) x -> posf p y -> close (2 * i + 1) (tenths (S i)) y ->
  exists z, posf (frac_value f p ds) z /\
    close (2 * (i + length ds) + 1) (inject_Z (A * 10 ^ Z.of_nat (length ds) + ten ds) * tenths (i + length ds)) z.
Proof.
  induction ds as [|d ds IH]; intros i A f p x y D A0 Au I F Cf P Cp; cbn [frac_value length] in *.
  - exists x. split; [assumption|]. rewrite Nat.add_0_r. change (ten []) with 0. change (10 ^ Z.of_nat 0) with 1.
    replace (A * 1 + 0) with A by lia. assumption.
  - inversion D as [|? ? Dd D']; subst. set (j := Z.of_N (dval d)).
    assert (J : 0 <= j <= 9 /\ j = Z.of_N d - 48) by (unfold j, dval; destruct Dd; unfold ascii_digit in *; lia).
    assert (Fp : fine (tenths (S i) * (1 # 10))).
    { right. apply (mid_eq (tenths (S (S i)))); [symmetry; apply tenths_mul|]. split; [apply pwr_le; lia|].
      eapply Qle_trans; [apply tenths_le|]. vm_compute. discriminate. }
    destruct tenth_posf as (t & Pt & Ct).
    destruct (mul_close p dtenth y t _ _ _ _ P Pt Cp Ct Fp ltac:(lia)) as (y' & P' & Cp').
    assert (Pj : posf (d_of_Z j) (inject_Z j)) by (apply digit_posf; lia).
    assert (Cj : close 0 (inject_Z j) (inject_Z j)) by (apply close_refl; change 0%Q with (inject_Z 0); apply inj_le; lia).
    assert (Fj : fine (inject_Z j * tenths (S i))).
    { destruct (Z.eq_dec j 0) as [->|Nj]; [left; ring|]. right. apply mid_scaled; [lia| |lia].
      pose proof (Z.pow_pos_nonneg 10 (Z.of_nat (S i)) ltac:(lia) ltac:(lia)). lia. }
    destruct (mul_close (d_of_Z j) p (inject_Z j) y _ _ _ _ Pj P Cj Cp Fj ltac:(lia)) as (t' & Pt' & Ct').
    assert (E : (inject_Z A * tenths i + inject_Z j * tenths (S i) == inject_Z (A * 10 + j) * tenths (S i))%Q).
    { rewrite inject_Z_plus, inject_Z_mult, <- (tenths_S i). change (inject_Z 10) with 10%Q. ring. }
    assert (Pw : 10 ^ Z.of_nat (S i) = 10 * 10 ^ Z.of_nat i) by (rewrite Nat2Z.inj_succ, Z.pow_succ_r by lia; reflexivity).
    assert (Au' : A * 10 + j < 2 ^ 64 * 10 ^ Z.of_nat (S i)) by (rewrite Pw; lia).
    assert (Fs : fine (inject_Z A * tenths i + inject_Z j * tenths (S i))).
    { destruct (Z.eq_dec (A * 10 + j) 0) as [Ez|Nz]; [left; rewrite E, Ez; ring|]. right. eapply mid_eq; [symmetry; exact E|]. apply mid_scaled; lia. }
    destruct (add_close f (dmul (d_of_Z j) p) x t' (2 * i + 2) (inject_Z A * tenths i) (inject_Z j * tenths (S i)) F Pt') as (x' & F' & Cf'); [eapply close_mono; [|exact Cf]; lia|eapply close_mono; [|exact Ct']; lia|exact Fs|lia|].
    destruct (IH (S i) (A * 10 + j) (dadd f (dmul (d_of_Z j) p)) (dmul p dtenth) x' y') as (z & Pz & Cz);
      [assumption|lia|assumption|lia|assumption| |assumption| |].
    + eapply close_mono; [|eapply close_eq; [exact Cf'|exact E]]. lia.
    + eapply close_mono; [|eapply close_eq; [exact Cp'|apply tenths_mul]]. lia.
    + exists z. split; [exact Pz|]. replace (i + S (length ds))%nat with (S i + length ds)%nat by lia.
      eapply close_eq; [exact Cz|]. apply Qmult_comp; [|reflexivity]. apply inj_eq.
      assert (T : ten (d :: ds) = j * 10 ^ Z.of_nat (length ds) + ten ds).
      { change (d :: ds) with ([d] ++ ds). rewrite ten_app. f_equal. f_equal. unfold ten. cbn [fold_left]. lia. }
      rewrite T, Nat2Z.inj_succ, Z.pow_succ_r by lia. ring.
Qed.

(** ** Powers *)
Lemma q_pos : forall b : Q, (0 < b)%Q -> ~ (b == 0)%Q.
Proof. intros b H Z. rewrite Z in H. discriminate. Qed.
Lemma pow_succ : forall b p, (0 < b)%Q -> (b ^ Z.pos (Pos.succ p) == b * b ^ Z.pos p)%Q.
Proof.
  intros b p H. apply q_pos in H. rewrite Pos2Z.inj_succ. unfold Z.succ. rewrite (Qpower_plus b (Z.pos p) 1 H). change (b ^ 1)%Q with b. ring.
Qed.
Lemma pow_mono : forall b p, (1 <= b)%Q -> (b <= b ^ Z.pos p)%Q.
Proof.
  intros b p H. induction p as [|p IH] using Pos.peano_ind; [cbn; lra|].
  rewrite pow_succ by lra. nra.
Qed.
Lemma pow_anti : forall b p, (0 < b)%Q -> (b <= 1)%Q -> (0 < b ^ Z.pos p)%Q /\ (b ^ Z.pos p <= b)%Q.
Proof.
  intros b p H H'. induction p as [|p [P IH]] using Pos.peano_ind; [cbn; lra|].
  rewrite pow_succ by lra. split; nra.
Qed.
Lemma pow_even : forall b p, (0 < b)%Q -> (b ^ Z.pos p~0 == (b * b) ^ Z.pos p)%Q.
Proof.
  intros b p H. rewrite Qmult_power. rewrite <- (Qpower_plus b (Z.pos p) (Z.pos p) (q_pos b H)). rewrite Z.add_diag. reflexivity.
Qed.
Lemma pow_odd : forall b p, (0 < b)%Q -> (b ^ Z.pos p~1 == b * (b * b) ^ Z.pos p)%Q.
Proof.
  intros b p H. rewrite <- pow_even by assumption. change (Z.pos p~1) with (1 + Z.pos p~0).
  rewrite (Qpower_plus b 1 (Z.pos p~0) (q_pos b H)). change (b ^ 1)%Q with b. ring.
Qed.

Definition aside (B C : Q) : Prop := ((1 <= B /\ 1 <= C) \/ (0 < B <= 1 /\ 0 < C <= 1))%Q.
Lemma mid_1 : mid 1.
Proof. split; vm_compute; discriminate. Qed.
Lemma mid_between : forall x y z, mid x -> mid z -> ((x <= y <= z) \/ (z <= y <= x))%Q -> mid y.
Proof. intros x y z [A B] [C D] [[E F]|[E F]]; split; lra. Qed.

Lemma pow_close : forall e base acc x y a c B C, posf base x -> posf acc y -> close a B x -> close c C y -> aside B C ->
  mid (C * B ^ Z.pos e) -> (c + (a + 1) * Pos.to_nat e <= 1000)%nat ->
  exists z, posf (pow_acc base acc e) z /\ close (c + (a + 1) * Pos.to_nat e) (C * B ^ Z.pos e) z.
Proof.
  induction e as [e IH|e IH|]; intros base acc x y a c B C Pb Pa Cb Ca S M N; cbn [pow_acc].
  - assert (Bp : (0 < B)%Q) by (destruct S as [[S _]|[[S _] _]]; lra).
    assert (E : (C * B ^ Z.pos e~1 == (C * B) * (B * B) ^ Z.pos e)%Q) by (rewrite pow_odd by assumption; ring).
    assert (S1 : aside (B * B) (C * B)) by (destruct S as [[S1 S2]|[[S1 S2] [S3 S4]]]; [left|right]; repeat split; nra).
    assert (M1 : mid (B * B) /\ mid (C * B)).
    { apply (mid_eq _ _ E) in M. destruct S as [[T1 T2]|[[T1 T2] [T3 T4]]], S1 as [[U1 U2]|[[U1 U2] [U3 U4]]].
      - pose proof (pow_mono _ e U1). split; apply (mid_between 1 _ _ mid_1 M); left; split; nra.
      - assert (B == 1)%Q by nra. assert (C == 1)%Q by nra. split; apply (mid_eq 1); try exact mid_1; rewrite H, ?H0; reflexivity.
      - assert (B == 1)%Q by nra. assert (C == 1)%Q by nra. split; apply (mid_eq 1); try exact mid_1; rewrite H, ?H0; reflexivity.
      - destruct (pow_anti _ e U1 U2). split; apply (mid_between 1 _ _ mid_1 M); right; split; nra. }
    destruct M1 as [M1 M2].
    destruct (mul_close base base x x a a B B Pb Pb Cb Cb (or_intror M1) ltac:(lia)) as (x' & Pb' & Cb').
    destruct (mul_close acc base y x c a C B Pa Pb Ca Cb (or_intror M2) ltac:(lia)) as (y' & Pa' & Ca').
    destruct (IH (dmul base base) (dmul acc base) x' y' (Datatypes.S (a + a)) (Datatypes.S (c + a)) (B * B)%Q (C * B)%Q Pb' Pa' Cb' Ca' S1) as (z & Pz & Cz).
    + eapply mid_eq; eassumption.
    + nia.
    + exists z. split; [assumption|]. eapply close_mono; [|eapply close_eq; [exact Cz|symmetry; exact E]]. nia.
  - assert (Bp : (0 < B)%Q) by (destruct S as [[S _]|[[S _] _]]; lra).
    assert (E : (C * B ^ Z.pos e~0 == C * (B * B) ^ Z.pos e)%Q) by (rewrite pow_even by assumption; ring).
    assert (S1 : aside (B * B) C) by (destruct S as [[S1 S2]|[[S1 S2] [S3 S4]]]; [left|right]; repeat split; nra).
    assert (M1 : mid (B * B)).
    { apply (mid_eq _ _ E) in M. destruct S as [[T1 T2]|[[T1 T2] [T3 T4]]], S1 as [[U1 U2]|[[U1 U2] [U3 U4]]].
      - pose proof (pow_mono _ e U1). apply (mid_between 1 _ _ mid_1 M); left; split; nra.
      - assert (B == 1)%Q by nra. apply (mid_eq 1); try exact mid_1; rewrite H; reflexivity.
      - assert (B == 1)%Q by nra. apply (mid_eq 1); try exact mid_1; rewrite H; reflexivity.
      - destruct (pow_anti _ e U1 U2). apply (mid_between 1 _ _ mid_1 M); right; split; nra. }
    destruct (mul_close base base x x a a B B Pb Pb Cb Cb (or_intror M1) ltac:(lia)) as (x' & Pb' & Cb').
    destruct (IH (dmul base base) acc x' y (Datatypes.S (a + a)) c (B * B)%Q C Pb' Pa Cb' Ca S1) as (z & Pz & Cz).
    + eapply mid_eq; eassumption.
    + nia.
    + exists z. split; [assumption|]. eapply close_mono; [|eapply close_eq; [exact Cz|symmetry; exact E]]. nia.
  - assert (E : (C * B ^ 1 == C * B)%Q) by (cbn; ring).
    destruct (mul_close acc base y x c a C B Pa Pb Ca Cb (or_intror (mid_eq _ _ E M)) ltac:(lia)) as (z & Pz & Cz).
    exists z. split; [assumption|]. eapply close_mono; [|eapply close_eq; [exact Cz|symmetry; exact E]]. lia.
Qed.

(** ** Literals *)
Lemma one_posf : posf (d_of_Z 1) 1 /\ close 0 1 1.
Proof. split; [exact (digit_posf 1 ltac:(lia))|apply close_refl; discriminate]. Qed.
Lemma ten_posf : posf (d_of_Z 10) 10 /\ close 0 10 10.
Proof.
  split; [|apply close_refl; discriminate]. right. eexists _, _. split; [vm_compute; reflexivity|split; reflexivity].
Qed.

Lemma dpow_ten : forall k, 0 <= k <= 280 -> exists z, posf (dpow (d_of_Z 10) (Z.to_N k)) z /\ close (2 * Z.to_nat k) (pwr 10 k) z.
Proof.
  intros k H. destruct one_posf as [P1 C1], ten_posf as [Pt Ct]. destruct k as [|p|p]; [| |lia]; cbn [Z.to_N dpow].
  - exists 1%Q. split; [assumption|]. exact C1.
  - destruct (pow_close p (d_of_Z 10) (d_of_Z 1) 10 1 0 0 10 1 Pt P1 Ct C1) as (z & Pz & Cz).
    + left. split; discriminate.
    + apply (mid_eq (pwr 10 (Z.pos p))); [unfold pwr; change (inject_Z 10) with 10%Q; ring|]. split; apply pwr_le; lia.
    + lia.
    + exists z. split; [exact Pz|]. eapply close_mono; [|eapply close_eq; [exact Cz|]]; [lia|]. unfold pwr. change (inject_Z 10) with 10%Q. ring.
Qed.
Lemma dpow_tenth : forall k, 0 <= k <= 280 -> exists z, posf (dpow dtenth (Z.to_N k)) z /\ close (2 * Z.to_nat k) (pwr 10 (- k)) z.
Proof.
  intros k H. destruct one_posf as [P1 C1], tenth_posf as (t & Pt & Ct). destruct k as [|p|p]; [| |lia]; cbn [Z.to_N dpow].
  - exists 1%Q. split; [assumption|]. exact C1.
  - assert (E : (1 * (1 # 10) ^ Z.pos p == pwr 10 (- Z.pos p))%Q).
    { unfold pwr. rewrite Qpower_opp. change (1 # 10)%Q with (/ 10)%Q. rewrite Qinv_power. change (inject_Z 10) with 10%Q. ring. }
    destruct (pow_close p dtenth (d_of_Z 1) t 1 1 0 (1 # 10) 1 Pt P1 Ct C1) as (z & Pz & Cz).
    + right. repeat split; discriminate.
    + eapply mid_eq; [symmetry; exact E|]. split; apply pwr_le; lia.
    + lia.
    + exists z. split; [exact Pz|]. eapply close_mono; [|eapply close_eq; [exact Cz|exact E]]. lia.
Qed.

Lemma Z_posf : forall z, 0 <= z < 2 ^ 64 -> exists y, posf (d_of_Z z) y /\ close 1 (inject_Z z) y.
Proof.
  intros z H. assert (M : fine (inject_Z z)).
  { destruct (Z.eq_dec z 0) as [->|]; [left; reflexivity|right]. apply (mid_eq (inject_Z z * tenths 0)); [change (tenths 0) with 1%Q; ring|].
    apply mid_scaled; [lia|change (10 ^ Z.of_nat 0) with 1; lia|lia]. }
  assert (C : close 0 (inject_Z z) (inject_Z z)) by (apply close_refl; change 0%Q with (inject_Z 0); apply inj_le; lia).
  destruct (of_Z_posf z ltac:(lia) (fine_ok _ _ _ C ltac:(lia) M)) as (y & P & N). exists y. split; [assumption|]. eapply close_near; eassumption.
Qed.

(** a mantissa below 2^63 *)
Lemma numeral_ge : forall z w, numeral z w -> 0 <= z.
Proof.
  intros z w [|d ds D1 D2 F]; [lia|]. destruct (ten_bound (d :: ds)) as [B _]; [constructor; [split; lia|assumption]|]. assumption.
Qed.
Lemma written_close : forall w n X, written w n X -> (X < inject_Z (2 ^ 63))%Q -> (n <= 280)%nat -> (n = O -> ~ (X == 0)%Q) ->
  exists fr f z A, mantissa w fr f /\ (fr = true <-> n <> O) /\ posf f z /\ close (2 * n + 1) X z /\ (X == inject_Z A * tenths n)%Q /\ 0 <= A < 2 ^ 64 * 10 ^ Z.of_nat n.
Proof.
  intros w n X [z u Nm|z u fd Nm Ne F] B I NZ; pose proof (numeral_ge _ _ Nm) as Zp.
  - apply (proj1 (inj_lt z (2 ^ 63))) in B. destruct (Z_posf z ltac:(lia)) as (y & P & C).
    exists false, (d_of_Z z), y, z. split; [apply ma_int; [assumption| |unfold max_int; lia]|].
    { intros ->. apply NZ; reflexivity. }
    split; [split; [discriminate|intro K; exfalso; apply K; reflexivity]|]. split; [assumption|]. split; [exact C|].
    change (tenths 0) with 1%Q. change (10 ^ Z.of_nat 0) with 1. split; [ring|lia].
  - destruct (ten_bound fd F) as [T1 T2]. fold (pwr 10 (- Z.of_nat (length fd))) in *. fold (tenths (length fd)) in *.
    pose proof (tenths_pos (length fd)) as Tp.
    assert (Zu : z < 2 ^ 63).
    { apply (proj1 (inj_lt z (2 ^ 63))). eapply Qle_lt_trans; [|exact B]. rewrite <- (Qplus_0_r (inject_Z z)) at 1. apply Qplus_le_r.
      apply Qmult_le_0_compat; [change 0%Q with (inject_Z 0); apply inj_le; assumption|lra]. }
    destruct (Z_posf z ltac:(lia)) as (y & P & C). destruct tenth_posf as (t & Pt & Ct).
    destruct (frac_close fd 0 z (d_of_Z z) dtenth y t) as (r & Pr & Cr); try assumption.
    + change (10 ^ Z.of_nat 0) with 1. lia.
    + eapply close_eq; [exact C|]. change (tenths 0) with 1%Q. ring.
    + cbn [Nat.add] in Cr.
      assert (E : (inject_Z (z * 10 ^ Z.of_nat (length fd) + ten fd) * tenths (length fd) == inject_Z z + inject_Z (ten fd) * tenths (length fd))%Q).
      { rewrite inject_Z_plus, inject_Z_mult, <- (pwr_nat 10) by lia.
        assert (U : (pwr 10 (Z.of_nat (length fd)) * tenths (length fd) == 1)%Q).
        { unfold tenths. rewrite <- pwr_plus by lia. rewrite Z.add_opp_diag_r. reflexivity. }
        setoid_replace ((inject_Z z * pwr 10 (Z.of_nat (length fd)) + inject_Z (ten fd)) * tenths (length fd))%Q
          with (inject_Z z * (pwr 10 (Z.of_nat (length fd)) * tenths (length fd)) + inject_Z (ten fd) * tenths (length fd))%Q by ring.
        rewrite U. ring. }
      exists true, (frac_value (d_of_Z z) dtenth fd), r, (z * 10 ^ Z.of_nat (length fd) + ten fd).
      split; [apply ma_frac; try assumption; unfold max_int; lia|].
      split; [split; [intros _; destruct fd; [congruence|discriminate]|reflexivity]|]. split; [assumption|].
      split; [eapply close_eq; [exact Cr|exact E]|]. split; [symmetry; exact E|]. split; [nia|].
      pose proof (Z.pow_pos_nonneg 10 (Z.of_nat (length fd)) ltac:(lia) ltac:(lia)). nia.
Qed.

Lemma power_close : forall x k, power x k -> x <> [] -> Z.abs k <= 280 ->
  exists g z, expo x g /\ posf g z /\ close (2 * Z.to_nat (Z.abs k)) (pwr 10 k) z.
Proof.
  intros x k [|e d ds E D1 D2 F|e ds E Ne F|e ds E Ne F] Nx K; [congruence|..].
  - destruct (ten_bound (d :: ds)) as [B _]; [constructor; [split; lia|assumption]|].
    destruct (dpow_ten (ten (d :: ds)) ltac:(lia)) as (z & P & C). eexists _, z. split; [apply xp_plain; eassumption|].
    rewrite Z.mod_small by lia. split; [exact P|]. rewrite Z.abs_eq by lia. exact C.
  - destruct (ten_bound ds F) as [B _]. destruct (dpow_ten (ten ds) ltac:(lia)) as (z & P & C). eexists _, z. split; [apply xp_plus; eassumption|].
    rewrite Z.mod_small by lia. split; [exact P|]. rewrite Z.abs_eq by lia. exact C.
  - destruct (ten_bound ds F) as [B _]. destruct (dpow_tenth (ten ds) ltac:(lia)) as (z & P & C). eexists _, z. split; [apply xp_minus; eassumption|].
    rewrite Z.mod_small by lia. split; [exact P|]. rewrite Z.abs_opp, Z.abs_eq by lia. exact C.
Qed.

Lemma posf_Q : forall f z, posf f z -> exists q, f64_Q f = Some q /\ (q == z)%Q.
Proof.
  intros f z [[-> E]|(m & e & -> & _ & E)]; cbn [f64_Q]; eexists; (split; [reflexivity|]); rewrite E; [reflexivity|].
  unfold mag. destruct e as [|p|p].
  - cbn [Qpower]. ring.
  - fold (pwr 2 (Z.pos p)). rewrite pwr_nat, inject_Z_mult by lia. reflexivity.
  - change (Z.neg p) with (- Z.pos p). rewrite Qpower_opp. fold (pwr 2 (Z.pos p)). rewrite pwr_nat by lia.
    rewrite <- Pos2Z.inj_pow. unfold Qeq, Qinv, inject_Z, Qmult. cbn. destruct (2 ^ p)%positive; cbn; lia.
Qed.
Lemma opp_Q : forall f q, f64_Q f = Some q -> exists q', f64_Q (SFopp f) = Some q' /\ (q' == - q)%Q.
Proof.
  intros [s|s| |s m e] q H; cbn [f64_Q SFopp] in *; try discriminate; inversion H as [H0]; clear H; subst q; eexists; (split; [reflexivity|]); [reflexivity|].
  assert (R : forall b, (if negb b then Z.neg m else Z.pos m) = - (if b then Z.neg m else Z.pos m)) by (intros []; reflexivity).
  rewrite R. set (z := if s then Z.neg m else Z.pos m). clearbody z.
  destruct e as [|p|p]; unfold Qeq, Qopp, inject_Z; cbn [Qnum Qden]; [lia| |lia].
  change (Z.pow_pos 2 p) with (2 ^ Z.pos p). generalize (2 ^ Z.pos p). intro t. lia.
Qed.

Lemma close_abs : forall n x y, close n x y -> (n <= 1000)%nat -> (Qabs (y - x) <= x * (Z.of_nat n # 4503599627370496))%Q.
Proof.
  intros n x y (A & B & C) N. pose proof (lo_bound n) as L. 
  assert (Nb : (inject_Z (Z.of_nat n) <= inject_Z 1000)%Q) by (apply inj_le; lia).
  pose proof (hi_bound n) as U. change (inject_Z 1000) with (1000 # 1)%Q in *.
  assert (U' : (hi n <= 1 + 2 * inject_Z (Z.of_nat n) * eps)%Q) by (apply U; unfold eps; lra). clear U.
  assert (N0 : (0 <= inject_Z (Z.of_nat n))%Q) by (change 0%Q with (inject_Z 0); apply inj_le; lia).
  setoid_replace (Z.of_nat n # 4503599627370496)%Q with (2 * inject_Z (Z.of_nat n) * eps)%Q by (unfold eps, inject_Z, Qeq, Qmult; cbn [Qnum Qden]; lia).
  set (t := inject_Z (Z.of_nat n)) in *. clearbody t. unfold eps in *. apply Qabs_Qle_condition. split.
  - assert (x * (1 - t * (1 # 9007199254740992)) <= x * lo n)%Q by (rewrite !(Qmult_comm x); apply Qmult_le_compat_r; assumption). nra.
  - assert (x * hi n <= x * (1 + 2 * t * (1 # 9007199254740992)))%Q by (rewrite !(Qmult_comm x); apply Qmult_le_compat_r; assumption). nra.
Qed.

(** ** The parsed double *)
Lemma shifted_fine : forall A n k X, (X == inject_Z A * tenths n)%Q -> 0 <= A < 2 ^ 64 * 10 ^ Z.of_nat n -> Z.of_nat n + Z.abs k <= 280 -> fine (X * pwr 10 k).
Proof.
  intros A n k X E [A0 A1] K. destruct (Z.eq_dec A 0) as [->|Az]; [left; rewrite E; change (inject_Z 0) with 0%Q; ring|right].
  assert (U : (X * pwr 10 k == inject_Z A * pwr 10 (k - Z.of_nat n))%Q).
  { rewrite E. unfold tenths. rewrite <- Qmult_assoc, <- pwr_plus by lia. replace (- Z.of_nat n + k) with (k - Z.of_nat n) by lia. reflexivity. }
  apply (mid_eq _ _ (Qeq_sym _ _ U)). pose proof (pwr_pos 10 (k - Z.of_nat n) ltac:(lia)) as P. split.
  - apply Qle_trans with (1 * pwr 10 (k - Z.of_nat n))%Q.
    + rewrite Qmult_1_l. apply pwr_le; lia.
    + apply Qmult_le_compat_r; [change 1%Q with (inject_Z 1); apply inj_le; lia|lra].
  - assert (V : (inject_Z A <= inject_Z (2 ^ 64) * pwr 10 (Z.of_nat n))%Q).
    { rewrite pwr_nat by lia. rewrite <- inject_Z_mult. apply inj_le. lia. }
    apply Qle_trans with (inject_Z (2 ^ 64) * pwr 10 (Z.of_nat n) * pwr 10 (k - Z.of_nat n))%Q; [apply Qmult_le_compat_r; [exact V|lra]|].
    rewrite <- Qmult_assoc, <- pwr_plus by lia. replace (Z.of_nat n + (k - Z.of_nat n)) with k by lia.
    apply Qle_trans with (inject_Z (2 ^ 64) * pwr 10 280)%Q.
    + rewrite !(Qmult_comm (inject_Z (2 ^ 64))). apply Qmult_le_compat_r; [apply pwr_le; lia|vm_compute; discriminate].
    + vm_compute; discriminate.
Qed.

Lemma signed_close : forall (neg : bool) f z n X, posf f z -> close n X z -> (n <= 1000)%nat ->
  exists q, f64_Q (if neg then SFopp f else f) = Some q /\ (Qabs (q - (if neg then - X else X)) <= X * (Z.of_nat n # 4503599627370496))%Q.
Proof.
  intros neg f z n X P C N. destruct (posf_Q f z P) as (q & F & E). pose proof (close_abs n X z C N) as A. destruct neg.
  - destruct (opp_Q f q F) as (q' & F' & E'). exists q'. split; [assumption|].
    setoid_replace (q' - - X)%Q with (- (z - X))%Q by (rewrite E', E; ring). rewrite Qabs_opp. exact A.
  - exists q. split; [assumption|]. rewrite E. exact A.
Qed.

Section Literal.
Variable cf : pcfg.
Hypothesis Se : enc_ok (src_enc cf) (src_ck cf) = true.
Hypothesis Te : enc_ok (tgt_enc cf) (tgt_ck cf) = true.
Theorem literal_close : forall p neg w n X x k, sign p neg -> written w n X -> power x k -> (X < inject_Z (2 ^ 63))%Q ->
  (n <> O \/ (x <> [] /\ ~ X == 0)%Q) -> Z.of_nat n + Z.abs k <= 280 ->
  exists f q, parse_string cf (p ++ w ++ x) = Ret (VFloat f) /\ f64_Q f = Some q /\
    (Qabs (q - (if neg then - (X * inject_Z 10 ^ k) else X * inject_Z 10 ^ k)) <=
      X * inject_Z 10 ^ k * ((2 * Z.of_nat n + 2 * Z.abs k + 2) # 4503599627370496))%Q.
Proof.
  intros p neg w n X x k S W P B L K. fold (pwr 10 k).
  destruct (written_close w n X W B ltac:(lia)) as (fr & f & z & A & M & Fr & Pf & C & E & Ab).
  { intros Hn. destruct L as [L|[_ L]]; [congruence|exact L]. }
  destruct (list_eq_dec N.eq_dec x []) as [Ex|Nx].
  - subst x. assert (Hk : k = 0) by (inversion P; reflexivity). subst k. rewrite app_nil_r.
    assert (Ft : fr = true) by (apply Fr; destruct L as [L|[L _]]; [exact L|congruence]). subst fr.
    assert (C' : close (2 * n + 2) (X * pwr 10 0) z).
    { eapply close_mono; [|eapply close_eq; [exact C|]]; [lia|]. change (pwr 10 0) with 1%Q. ring. }
    destruct (signed_close neg f z _ _ Pf C' ltac:(lia)) as (q & F & Q). eexists _, q.
    split; [exact (parse_frac cf Se Te p neg w f S M)|]. split; [exact F|].
    replace (2 * Z.of_nat n + 2 * Z.abs 0 + 2) with (Z.of_nat (2 * n + 2)) by lia. exact Q.
  - destruct (power_close x k P Nx ltac:(lia)) as (g & y & Xg & Pg & Cg).
    destruct (mul_close f g z y _ _ X (pwr 10 k) Pf Pg C Cg (shifted_fine A n k X E Ab K) ltac:(lia)) as (r & Pr & Cr).
    destruct (signed_close neg (dmul f g) r _ _ Pr Cr ltac:(lia)) as (q & F & Q). eexists _, q.
    split; [exact (parse_expo cf Se Te p neg w fr f x g S M Xg)|]. split; [exact F|].
    replace (2 * Z.of_nat n + 2 * Z.abs k + 2) with (Z.of_nat (Datatypes.S (2 * n + 1 + 2 * Z.to_nat (Z.abs k)))) by lia. exact Q.
Qed.
End Literal.
