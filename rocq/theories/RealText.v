(** The model's number formatting meets SpecReal. *)
From Coq Require Import List NArith ZArith QArith Qabs Qpower Lia Lqa ZifyBool ZifyNat ZifyN Floats.SpecFloat.
From Verif Require Import Base Value FloatFmt SpecText SpecReal RealRound NumberFacts DumpFacts Stream Encoding Serializer SpecDump DumpMore.
Import ListNotations.
Open Scope Z_scope.

(** ** The decimal exponent *)
Lemma exp_test : forall m e x, (den e (- x) <=? num (Npos m) e (- x))%N = true <-> (pwr 10 x <= mag m e)%Q.
Proof.
  intros m e x. rewrite N.leb_le. transitivity (inject_Z (Z.of_N (den e (- x))) <= inject_Z (Z.of_N (num (Npos m) e (- x))))%Q; [rewrite inj_le; lia|].
  rewrite <- ratio. pose proof (pwr_pos 10 x ltac:(lia)) as P. pose proof (pwr_pos 10 (- x) ltac:(lia)) as P'.
  assert (E : (pwr 10 x * pwr 10 (- x) == 1)%Q) by (rewrite <- pwr_plus by lia; rewrite Z.add_opp_diag_r; reflexivity).
  assert (D : (0 < inject_Z (Z.of_N (den e (- x))))%Q) by (apply inj_pos; pose proof (den_pos e (- x)); lia).
  set (d := inject_Z (Z.of_N (den e (- x)))) in *. set (y := mag m e) in *. set (a := pwr 10 x) in *. set (b := pwr 10 (- x)) in *. clearbody d y a b.
  split; intro H.
  - assert (H1 : (1 <= y * b)%Q) by (apply (Qmult_le_l _ _ d D); lra). nra.
  - assert (H1 : (1 <= y * b)%Q) by nra. nra.
Qed.

Lemma find_floor : forall f m e x, (mag m e < pwr 10 (x + 1))%Q -> (pwr 10 (x - Z.of_nat f) <= mag m e)%Q ->
  (pwr 10 (find_exp10 f (Npos m) e x) <= mag m e)%Q /\ (mag m e < pwr 10 (find_exp10 f (Npos m) e x + 1))%Q.
Proof.
  induction f as [|f IH]; intros m e x U L.
  - cbn [find_exp10]. rewrite Z.sub_0_r in L. split; assumption.
  - cbn [find_exp10]. destruct (_ <=? _)%N eqn:T.
    + split; [|assumption]. apply exp_test. unfold num, den. rewrite Z.opp_involutive. exact T.
    + apply IH.
      * replace (x - 1 + 1) with x by lia. apply Qnot_le_lt. intro H. apply exp_test in H. unfold num, den in H. rewrite Z.opp_involutive in H.
        rewrite H in T. discriminate.
      * replace (x - 1 - Z.of_nat f) with (x - Z.of_nat (S f)) by lia. exact L.
Qed.

Definition start (bits : Z) : Z := if 0 <=? bits then bits * 31 / 100 + 1 else bits * 30 / 100 + 1.
Definition zp (b k : Z) : Z := b ^ Z.max 0 k.
(** b^i <= c^j *)
Definition pw_le (b i c j : Z) : bool := zp b i * zp c (- j) <=? zp c j * zp b (- i).
Lemma pw_le_ok : forall b i c j, 0 < b -> 0 < c -> pw_le b i c j = true -> (pwr b i <= pwr c j)%Q.
Proof.
  intros b i c j B C H. unfold pw_le in H. apply Z.leb_le in H. apply inj_le in H. rewrite !inject_Z_mult in H. unfold zp in H.
  pose proof (pwr_split b i B) as E1. pose proof (pwr_split c j C) as E2. rewrite <- E1, <- E2 in H.
  assert (P1 : (0 < inject_Z (b ^ Z.max 0 (- i)))%Q) by (apply inj_pos, Z.pow_pos_nonneg; lia).
  assert (P2 : (0 < inject_Z (c ^ Z.max 0 (- j)))%Q) by (apply inj_pos, Z.pow_pos_nonneg; lia).
  set (u := inject_Z (b ^ Z.max 0 (- i))) in *. set (v := inject_Z (c ^ Z.max 0 (- j))) in *. clearbody u v.
  apply (Qmult_le_l _ _ (u * v)); [apply Qmult_lt_0_compat; assumption|]. lra.
Qed.
Definition start_ok (b : Z) : bool := pw_le 2 b 10 (start b + 1) && pw_le 10 (start b - 64) 2 (b - 1).
Lemma starts : forall b, -1100 <= b <= 1100 -> start_ok b = true.
Proof.
  assert (H : forallb start_ok (map (fun n => Z.of_nat n - 1100) (seq 0 2201)) = true) by (vm_compute; reflexivity).
  intros b B. rewrite forallb_forall in H. apply H. apply in_map_iff. exists (Z.to_nat (b + 1100)). split; [lia|]. apply in_seq. lia.
Qed.

Lemma size_bounds : forall m e, (pwr 2 (Z.of_N (N.size (Npos m)) + e - 1) <= mag m e)%Q /\ (mag m e < pwr 2 (Z.of_N (N.size (Npos m)) + e))%Q.
Proof.
  intros m e. assert (Z.of_N (N.size (Npos m)) = Z.succ (Z.log2 (Zpos m))) as ->.
  { cbn [N.size Z.of_N]. destruct m; cbn; lia. }
  destruct (Z.log2_spec (Zpos m) ltac:(lia)) as [A B]. unfold mag. fold (pwr 2 e). pose proof (Z.log2_nonneg (Zpos m)).
  replace (Z.succ (Z.log2 (Zpos m)) + e - 1) with (Z.log2 (Zpos m) + e) by lia. rewrite !pwr_plus by lia. rewrite (pwr_nat 2 (Z.log2 _)), (pwr_nat 2 (Z.succ _)) by lia.
  apply inj_le in A. apply inj_lt in B. pose proof (pwr_pos 2 e ltac:(lia)). split; [apply Qmult_le_compat_r; [assumption|apply Qlt_le_weak; assumption]|apply Qmult_lt_r; assumption].
Qed.

Lemma exp10_floor : forall m e, -1100 <= Z.of_N (N.size (Npos m)) + e <= 1100 ->
  (pwr 10 (exp10 (Npos m) e) <= mag m e)%Q /\ (mag m e < pwr 10 (exp10 (Npos m) e + 1))%Q.
Proof.
  intros m e B. destruct (size_bounds m e) as [L U]. unfold exp10. cbv zeta. fold (start (Z.of_N (N.size (Npos m)) + e)).
  set (b := Z.of_N (N.size (Npos m)) + e) in *. clearbody b. pose proof (starts b B) as S. apply andb_prop in S. destruct S as [S1 S2].
  apply pw_le_ok in S1; [|lia|lia]. apply pw_le_ok in S2; [|lia|lia]. apply find_floor.
  - eapply Qlt_le_trans; eassumption.
  - change (Z.of_nat 64) with 64. eapply Qle_trans; eassumption.
Qed.

Lemma floor_unique : forall x k k', (pwr 10 k <= x)%Q -> (x < pwr 10 (k + 1))%Q -> (pwr 10 k' <= x)%Q -> (x < pwr 10 (k' + 1))%Q -> k = k'.
Proof.
  intros x k k' A B C D. assert (k < k' + 1) by (apply (pwr_lt_inv 10); [lia|]; eapply Qle_lt_trans; eassumption).
  assert (k' < k + 1) by (apply (pwr_lt_inv 10); [lia|]; eapply Qle_lt_trans; eassumption). lia.
Qed.

(** ** Significant digits *)
Lemma nearest_le : forall y n M, nearest y n -> (y <= inject_Z M)%Q -> n <= M.
Proof.
  intros y n M [A _] L. apply Qabs_Qle_condition in A. destruct A as [A1 A2]. destruct (Z.le_gt_cases n M) as [|G]; [assumption|exfalso].
  assert (H : M + 1 <= n) by lia. apply inj_le in H. rewrite inject_Z_plus in H. change (inject_Z 1) with (1#1)%Q in H. lra.
Qed.

Lemma nearest_wd : forall y y' n, (y == y')%Q -> nearest y n -> nearest y' n.
Proof. intros y y' n E [A B]. unfold nearest. rewrite <- E. auto. Qed.

Lemma sci_sig : forall p m e, -1100 <= Z.of_N (N.size (Npos m)) + e <= 1100 ->
  sig p (mag m e) (Z.of_N (fst (sci p (Npos m) e))) (snd (sci p (Npos m) e)).
Proof.
  intros p m e B. destruct (exp10_floor m e B) as [L U]. unfold sci. set (k := exp10 (Npos m) e) in *. clearbody k. cbv zeta.
  assert (Nr : nearest (mag m e * pwr 10 (Z.of_nat p - k)) (Z.of_N (scaled (Npos m) e (Z.of_nat p - k)))) by (apply scaled_nearest; reflexivity).
  set (r := scaled (Npos m) e (Z.of_nat p - k)) in *.
  assert (E : Z.of_N (10 ^ N.of_nat (S p)) = 10 ^ (Z.of_nat p + 1)) by (rewrite N2Z.inj_pow; f_equal; lia).
  destruct (N.leb_spec (10 ^ N.of_nat (S p)) r) as [H|H]; cbn [fst snd].
  2:{ apply sig_in; try assumption. lia. }
  assert (Hi : (mag m e * pwr 10 (Z.of_nat p - k) < inject_Z (10 ^ (Z.of_nat p + 1)))%Q).
  { rewrite <- pwr_nat by lia. replace (Z.of_nat p + 1) with ((k + 1) + (Z.of_nat p - k)) by lia. rewrite (pwr_plus 10 (k + 1)) by lia.
    apply Qmult_lt_r; [apply pwr_pos; lia|assumption]. }
  assert (R : Z.of_N r = 10 ^ (Z.of_nat p + 1)).
  { assert (Z.of_N r <= 10 ^ (Z.of_nat p + 1)) by (eapply nearest_le; [exact Nr|apply Qlt_le_weak; exact Hi]). lia. }
  replace (Z.of_N (scaled (Npos m) e (Z.of_nat p - (k + 1)))) with (10 ^ Z.of_nat p).
  { eapply sig_up; [exact L|exact U|exact Nr|exact R]. }
  apply scaled_nearest. replace (Z.of_nat p - (k + 1)) with ((Z.of_nat p - k) + -1) by lia.
  eapply nearest_wd; [rewrite pwr_plus by lia; reflexivity|].
  destruct Nr as [A _]. apply Qabs_Qle_condition in A. rewrite R in A. rewrite Z.pow_add_r in Hi, A by lia. rewrite inject_Z_mult in Hi, A.
  change (inject_Z (10 ^ 1)) with (10#1)%Q in *. change (pwr 10 (-1)) with (1#10)%Q.
  set (y := (mag m e * pwr 10 (Z.of_nat p - k))%Q) in *. set (t := inject_Z (10 ^ Z.of_nat p)) in *.
  assert (A' : (Qabs (mag m e * (pwr 10 (Z.of_nat p - k) * (1 # 10)) - t) <= 1 # 20)%Q).
  { apply Qabs_Qle_condition. assert ((mag m e * (pwr 10 (Z.of_nat p - k) * (1 # 10)) == y * (1#10))%Q) as -> by (unfold y; ring). lra. }
  unfold nearest. fold t. split; [eapply Qle_trans; [exact A'|discriminate]|]. intro X. exfalso. lra.
Qed.

Lemma sig_unique : forall p x n k n' k', sig p x n k -> sig p x n' k' -> n = n' /\ k = k'.
Proof.
  intros p x n k n' k' H G. destruct H as [n k A B C D|n k A B C D]; destruct G as [n' k' A' B' C' D'|n' k' A' B' C' D'];
    pose proof (floor_unique _ _ _ A B A' B'); subst; pose proof (nearest_unique _ _ _ C C'); subst; auto; lia.
Qed.

(** ** Digits *)
Lemma ten_app : forall a b, ten (a ++ b) = ten a * 10 ^ Z.of_nat (length b) + ten b.
Proof.
  intros a b. induction b as [|d b IH] using rev_ind; [rewrite app_nil_r; cbn; lia|].
  rewrite app_assoc, !ten_snoc, IH, app_length. cbn [length]. rewrite Nat2Z.inj_add, Z.pow_add_r by lia. change (10 ^ Z.of_nat 1) with 10. ring.
Qed.
Lemma ten_bound : forall b, Forall ascii_digit b -> 0 <= ten b < 10 ^ Z.of_nat (length b).
Proof.
  intros b. induction b as [|d b IH] using rev_ind; intro F; [cbn; lia|]. apply Forall_app in F. destruct F as [F1 F2]. specialize (IH F1).
  inversion F2 as [|? ? D _]; subst. unfold ascii_digit in D. rewrite ten_snoc, app_length. cbn [length]. rewrite Nat2Z.inj_add, Z.pow_add_r by lia. change (10 ^ Z.of_nat 1) with 10. lia.
Qed.
Lemma ten_len : forall a b, Forall ascii_digit a -> Forall ascii_digit b -> length a = length b -> ten a = ten b -> a = b.
Proof.
  intros a. induction a as [|d a IH] using rev_ind; intros b Fa Fb L E.
  - destruct b; [reflexivity|discriminate].
  - destruct b as [|d' b _] using rev_ind; [rewrite app_length in L; cbn in L; lia|].
    apply Forall_app in Fa. apply Forall_app in Fb. destruct Fa as [Fa Da]. destruct Fb as [Fb Db]. inversion Da as [|? ? D1 _]; inversion Db as [|? ? D2 _]; subst.
    unfold ascii_digit in *. rewrite !ten_snoc in E. rewrite !app_length in L. cbn [length] in L.
    assert (ten a = ten b) by lia. rewrite (IH b Fa Fb ltac:(lia) ltac:(assumption)). f_equal. f_equal. lia.
Qed.
Lemma zeros_ascii : forall n, Forall ascii_digit (repeat 48%N n).
Proof. intro n. apply Forall_forall. intros x H. apply repeat_spec in H. subst. unfold ascii_digit. lia. Qed.
Lemma ten_zeros : forall n, ten (repeat 48%N n) = 0.
Proof. induction n as [|n IH]; [reflexivity|]. cbn [repeat]. change (48%N :: repeat 48%N n) with ([48%N] ++ repeat 48%N n). rewrite ten_app, IH. change (ten [48%N]) with 0. lia. Qed.
Lemma numeral_ten : forall z w, numeral z w -> ten w = z.
Proof. intros z w []; reflexivity. Qed.

Lemma pad_spec : forall w l, Forall ascii_digit l -> Forall ascii_digit (pad_left w c_0 l) /\ ten (pad_left w c_0 l) = ten l /\ length (pad_left w c_0 l) = Nat.max w (length l).
Proof.
  intros w l F. unfold pad_left. split; [apply Forall_app; split; [apply zeros_ascii|assumption]|]. split; [rewrite ten_app, ten_zeros; lia|].
  rewrite app_length, repeat_length. lia.
Qed.

Lemma in_firstn : forall {A} (P : A -> Prop) k l, Forall P l -> Forall P (firstn k l) /\ Forall P (skipn k l).
Proof. intros A P k l F. rewrite <- (firstn_skipn k l) in F. apply Forall_app in F. exact F. Qed.
Lemma point_decimals : forall p n, decimals p (Z.of_N n) (with_point p (dec_digits n)).
Proof.
  intros p n. pose proof (dec_digits_numeral n) as Nm. destruct (numeral_ascii _ _ Nm) as [F (d0 & ds0 & E0)]. pose proof (numeral_ten _ _ Nm) as T.
  set (w := dec_digits n) in *. clearbody w. destruct (pad_spec (S p) w F) as (F' & T' & L').
  unfold with_point. set (l := pad_left (S p) c_0 w) in *. set (k := (length l - p)%nat).
  assert (exists k', k = S k') as [k' K] by (exists (length l - p - 1)%nat; unfold k; rewrite L'; lia).
  assert (Hd : exists z, numeral z (firstn k l)).
  { destruct (Nat.le_gt_cases (S p) (length w)) as [G|G].
    - assert (l = w) as El by (unfold l, pad_left; replace (S p - length w)%nat with O by lia; reflexivity). rewrite El.
      destruct Nm as [|d ds A B D].
      + cbn in G. rewrite K. exists 0. destruct k'; apply nm_zero.
      + rewrite K. cbn [firstn]. eexists. apply nm_pos; [assumption|assumption|]. apply in_firstn. assumption.
    - replace k with 1%nat by (unfold k; rewrite L'; lia). unfold l, pad_left. destruct (S p - length w)%nat as [|q] eqn:Q; [lia|]. cbn [repeat app firstn]. exists 0. apply nm_zero. }
  destruct Hd as [z Hd].
  assert (D : decimals p (Z.of_N n) (firstn k l ++ match p with O => [] | _ => 46%N :: skipn k l end)).
  { eapply dcm; [exact Hd|apply in_firstn; assumption|rewrite skipn_length; unfold k; lia|rewrite firstn_skipn; rewrite T'; exact T]. }
  destruct p as [|p]; [|exact D]. rewrite app_nil_r in D. unfold k in D. rewrite Nat.sub_0_r, firstn_all in D. exact D.
Qed.

Lemma decimals_unique : forall p n v w, decimals p n v -> decimals p n w -> v = w.
Proof.
  intros p n v w [z a b Na Fb Lb Tb] [z' a' b' Na' Fb' Lb' Tb'].
  rewrite ten_app in Tb, Tb'. pose proof (ten_bound b Fb). pose proof (ten_bound b' Fb'). rewrite Lb in *. rewrite Lb' in *.
  assert (ten a = ten a' /\ ten b = ten b') as [E1 E2] by (apply (Z.div_mod_unique (10 ^ Z.of_nat p)); [left; assumption|left; assumption|lia]).
  rewrite (numeral_ten _ _ Na), (numeral_ten _ _ Na') in E1. subst z'. rewrite (numeral_unique _ _ _ Na Na').
  rewrite (ten_len b b') by congruence. reflexivity.
Qed.

Lemma exp_ok : forall k, exponent k (fmt_exp k).
Proof.
  intro k. unfold fmt_exp. pose proof (dec_digits_numeral (Z.to_N (Z.abs k))) as Nm. destruct (numeral_ascii _ _ Nm) as [F _]. pose proof (numeral_ten _ _ Nm) as T.
  destruct (pad_spec 2 _ F) as (F' & T' & L'). set (w := dec_digits (Z.to_N (Z.abs k))) in *. clearbody w.
  apply xp; [assumption|lia|]. rewrite L'. destruct (Nat.le_gt_cases (length w) 2) as [G|G]; [left; lia|right]. split; [lia|].
  unfold pad_left. replace (2 - length w)%nat with O by lia. cbn [repeat app]. destruct Nm; [cbn in G; lia|]. cbn [hd]. lia.
Qed.
Lemma exp_unique : forall k v w, exponent k v -> exponent k w -> v = w.
Proof.
  intros k v w [a Fa Ta La] [b Fb Tb Lb]. do 2 f_equal.
  assert (Big : forall l, Forall ascii_digit l -> (2 < length l)%nat -> hd 0%N l <> 48%N -> 100 <= ten l).
  { intros l F L H. destruct l as [|d l]; [cbn in L; lia|]. cbn [hd] in H. inversion F as [|? ? D F']; subst. unfold ascii_digit in D.
    change (d :: l) with ([d] ++ l). rewrite ten_app. pose proof (ten_bound l F'). unfold ten at 1. cbn [fold_left].
    assert (100 <= 10 ^ Z.of_nat (length l)) by (change 100 with (10 ^ 2); apply Z.pow_le_mono_r; cbn in L; lia). nia. }
  assert (Sm : forall l, Forall ascii_digit l -> length l = 2%nat -> ten l < 100).
  { intros l F L. pose proof (ten_bound l F) as X. rewrite L in X. change (10 ^ Z.of_nat 2) with 100 in X. lia. }
  destruct La as [La|[La Ha]], Lb as [Lb|[Lb Hb]].
  - apply ten_len; congruence.
  - exfalso. specialize (Big b Fb Lb Hb). specialize (Sm a Fa La). lia.
  - exfalso. specialize (Big a Fa La Ha). specialize (Sm b Fb Lb). lia.
  - apply ten_inj; [assumption|assumption| | |congruence]; [destruct a|destruct b]; cbn in *; (lia || assumption).
Qed.

(** ** Stripping *)
Lemma strip_zeros_app : forall zs l, Forall (eq 48%N) zs -> strip_zeros (zs ++ l) = strip_zeros l.
Proof. intros zs l H. induction H as [|x zs <- H IH]; [reflexivity|]. exact IH. Qed.
Lemma zeros_end : forall l, Forall ascii_digit l -> Forall (eq 48%N) l \/ exists b d zs, l = b ++ d :: zs /\ d <> 48%N /\ ascii_digit d /\ Forall (eq 48%N) zs.
Proof.
  intros l. induction l as [|d l IH]; intro F; [left; constructor|]. inversion F as [|? ? D F']; subst. destruct (IH F') as [Z|(b & x & zs & -> & A & B & C)].
  - destruct (N.eq_dec d 48) as [->|Nz]; [left; constructor; auto|right]. exists [], d, l. auto.
  - right. exists (d :: b), x, zs. auto.
Qed.
Lemma no_dot : forall l, Forall ascii_digit l -> ~ In 46%N l.
Proof. intros l F I. rewrite Forall_forall in F. specialize (F _ I). unfold ascii_digit in F. lia. Qed.
Lemma strip_dot : forall a b, Forall ascii_digit a -> Forall ascii_digit b -> stripped (a ++ 46%N :: b) (strip (a ++ 46%N :: b)).
Proof.
  intros a b Fa Fb. unfold strip. replace (existsb (N.eqb c_dot) (a ++ 46%N :: b)) with true.
  2:{ symmetry. apply existsb_exists. exists 46%N. split; [apply in_or_app; right; left; reflexivity|reflexivity]. }
  destruct (zeros_end b Fb) as [Z|(b' & d & zs & -> & A & B & C)].
  - rewrite rev_app_distr. cbn [rev]. rewrite <- app_assoc, strip_zeros_app by (apply Forall_rev; assumption). cbn [app strip_zeros N.eqb Pos.eqb]. rewrite rev_involutive. apply sp_all; [apply no_dot; assumption|assumption].
  - replace (a ++ 46%N :: b' ++ d :: zs) with ((a ++ 46%N :: b' ++ [d]) ++ zs) by (rewrite <- app_assoc; cbn [app]; rewrite <- app_assoc; reflexivity).
    rewrite rev_app_distr, strip_zeros_app by (apply Forall_rev; assumption). replace (rev (a ++ 46%N :: b' ++ [d])) with (d :: rev (a ++ 46%N :: b')).
    2:{ change (a ++ 46%N :: b' ++ [d]) with (a ++ (46%N :: b') ++ [d]). rewrite app_assoc, (rev_app_distr _ [d]). reflexivity. }
    cbn [strip_zeros]. unfold ascii_digit in B. destruct (N.eqb_spec d c_0) as [->|_]; [contradiction|]. destruct (N.eqb_spec d c_dot) as [->|_]; [exfalso; lia|].
    cbn [rev]. rewrite rev_involutive, <- !app_assoc. cbn [app]. rewrite <- (app_assoc b'). cbn [app]. apply sp_some; [apply no_dot; assumption|assumption|lia|assumption].
Qed.
Lemma strip_decimals : forall p n w, decimals p n w -> stripped w (strip w).
Proof.
  intros p n w [z a b Na Fb Lb Tb]. destruct (numeral_ascii _ _ Na) as [Fa _]. destruct p as [|p].
  - rewrite app_nil_r. unfold strip. destruct (existsb (N.eqb c_dot) a) eqn:E; [|apply sp_none, no_dot; assumption].
    exfalso. apply existsb_exists in E. destruct E as (x & I & X). apply N.eqb_eq in X. subst x. exact (no_dot a Fa I).
  - apply strip_dot; assumption.
Qed.
Lemma first_dot : forall a b a' b', ~ In 46%N a -> ~ In 46%N a' -> a ++ 46%N :: b = a' ++ 46%N :: b' -> a = a' /\ b = b'.
Proof.
  induction a as [|x a IH]; intros b [|x' a'] b' H H' E; cbn in E.
  - injection E as ->. auto.
  - injection E as <- _. exfalso. apply H'. left. reflexivity.
  - injection E as -> _. exfalso. apply H. left. reflexivity.
  - injection E as <- E. destruct (IH b a' b') as [-> ->]; auto.
    + intro I. apply H. right. exact I.
    + intro I. apply H'. right. exact I.
Qed.
Lemma zeros_split : forall b d zs b' d' zs', d <> 48%N -> d' <> 48%N -> Forall (eq 48%N) zs -> Forall (eq 48%N) zs' ->
  b ++ d :: zs = b' ++ d' :: zs' -> b = b' /\ d = d'.
Proof.
  induction b as [|x b IH]; intros d zs [|x' b'] d' zs' D D' Z Z' E; cbn in E.
  - injection E as -> _. auto.
  - injection E as <- ->. exfalso. apply Forall_app in Z. destruct Z as [_ Z]. inversion Z; subst. contradiction.
  - injection E as -> <-. exfalso. apply Forall_app in Z'. destruct Z' as [_ Z']. inversion Z'; subst. contradiction.
  - injection E as <- E. destruct (IH _ _ _ _ _ D D' Z Z' E) as [-> ->]. auto.
Qed.
Lemma stripped_unique : forall w u v, stripped w u -> stripped w v -> u = v.
Proof.
  assert (I : forall a b, In 46%N (a ++ 46%N :: b)) by (intros; apply in_or_app; right; left; reflexivity).
  intros w u v H G. destruct H as [w N|a zs N Z|a b d zs N D D' Z].
  - inversion G; subst; [reflexivity| |]; exfalso; apply N; apply I.
  - inversion G as [? N' E|a' zs' N' Z' E|a' b' d' zs' N' D1 D2 Z' E]; subst.
    + exfalso. apply N'. apply I.
    + apply first_dot in E; [|assumption|assumption]. symmetry. tauto.
    + apply first_dot in E; [|assumption|assumption]. destruct E as [_ E]. subst zs. apply Forall_app in Z. destruct Z as [_ Z]. inversion Z; subst. contradiction.
  - inversion G as [? N' E|a' zs' N' Z' E|a' b' d' zs' N' D1 D2 Z' E]; subst.
    + exfalso. apply N'. apply I.
    + apply first_dot in E; [|assumption|assumption]. destruct E as [_ E]. subst zs'. apply Forall_app in Z'. destruct Z' as [_ Z']. inversion Z'; subst. contradiction.
    + apply first_dot in E; [|assumption|assumption]. destruct E as [-> E]. apply zeros_split in E; [|assumption..]. destruct E as [-> ->]. reflexivity.
Qed.

(** ** Numbers *)
Lemma fixed_iff : forall p m e w, fixed_text p (mag m e) w <-> w = fmt_f p (Npos m) e.
Proof.
  intros p m e w. unfold fixed_text, fmt_f. split.
  - intros (n & A & B). apply scaled_nearest in A. subst n. eapply decimals_unique; [exact B|apply point_decimals].
  - intros ->. exists (Z.of_N (scaled (Npos m) e (Z.of_nat p))). split; [apply scaled_nearest; reflexivity|apply point_decimals].
Qed.

Definition in_range (m : positive) (e : Z) : Prop := -1100 <= Z.of_N (N.size (Npos m)) + e <= 1100.

Lemma sci_iff : forall p m e w, in_range m e -> (sci_text p (mag m e) w <-> w = fmt_e p (Npos m) e).
Proof.
  intros p m e w R. pose proof (sci_sig p m e R) as S. unfold sci_text, fmt_e. destruct (sci p (Npos m) e) as [r x]. cbn [fst snd] in S. split.
  - intros (n & k & a & b & S' & D & X & ->). destruct (sig_unique _ _ _ _ _ _ S' S) as [-> ->].
    f_equal; [eapply decimals_unique; [exact D|apply point_decimals]|eapply exp_unique; [exact X|apply exp_ok]].
  - intros ->. exists (Z.of_N r), x, (with_point p (dec_digits r)), (fmt_exp x). split; [exact S|]. split; [apply point_decimals|]. split; [apply exp_ok|reflexivity].
Qed.

Lemma general_iff : forall p m e w, in_range m e -> (general_text p (mag m e) w <-> w = fmt_g p (Npos m) e).
Proof.
  intros p m e w R. unfold fmt_g.
  assert (E : (match p with O => 1 | _ => p end)%nat = Nat.max 1 p) by (destruct p; lia). rewrite E. set (q := Nat.max 1 p) in *.
  pose proof (sci_sig (q - 1) m e R) as S. destruct (sci (q - 1) (Npos m) e) as [r x]. cbn [fst snd] in S. split.
  - intro H. destruct H as [q' n k u w Q S' K F St|q' n k a a' b Q S' K D St X]; fold q in Q; subst q'; destruct (sig_unique _ _ _ _ _ _ S' S) as [-> ->].
    + replace ((-4 <=? x) && (x <? Z.of_nat q))%bool with true by lia. apply fixed_iff in F. subst u. eapply stripped_unique; [exact St|].
      eapply strip_decimals. apply point_decimals.
    + replace ((-4 <=? x) && (x <? Z.of_nat q))%bool with false by lia. assert (a = with_point (q - 1) (dec_digits r)) as -> by (eapply decimals_unique; [exact D|apply point_decimals]).
      f_equal; [eapply stripped_unique; [exact St|]; eapply strip_decimals; apply point_decimals|eapply exp_unique; [exact X|apply exp_ok]].
  - intros ->. destruct ((-4 <=? x) && (x <? Z.of_nat q))%bool eqn:K.
    + eapply gt_fixed; [reflexivity|exact S|lia|apply fixed_iff; reflexivity|]. eapply strip_decimals. apply point_decimals.
    + eapply gt_sci; [reflexivity|exact S|lia|apply point_decimals| |apply exp_ok]. eapply strip_decimals. apply point_decimals.
Qed.

Lemma bounded_range : forall m e, bounded 53 1024 m e = true -> in_range m e.
Proof.
  intros m e B. unfold bounded in B. apply andb_prop in B. destruct B as [C L]. unfold canonical_mantissa in C. apply Zeq_bool_eq in C.
  unfold in_range. assert (Z.of_N (N.size (Npos m)) = Zpos (digits2_pos m)) as ->.
  { reflexivity. }
  unfold fexp, emin in C. lia.
Qed.

Theorem float_iff : forall ff prec s m e w, bounded 53 1024 m e = true ->
  (fmt_float ff prec (S754_finite s m e) = w <-> exists u, w = (if s then [45%N] else []) ++ u /\ real_text ff prec (mag m e) u).
Proof.
  intros ff prec s m e w B. apply bounded_range in B. unfold fmt_float, real_text. cbv zeta. set (p := if prec <? 0 then 6%nat else Z.to_nat prec). clearbody p.
  split.
  - intros <-. eexists. split; [reflexivity|]. destruct ff; [apply general_iff|apply fixed_iff|apply sci_iff|apply general_iff]; auto.
  - intros (u & -> & H). f_equal. destruct ff; [apply general_iff in H|apply fixed_iff in H|apply sci_iff in H|apply general_iff in H]; auto.
Qed.

Lemma dump_real : forall cf s m e w, enc_ok (out_enc cf) (out_ck cf) = true -> bounded 53 1024 m e = true ->
  (forall z, ~ is_int (S754_finite s m e) z) ->
  (dump_string cf (VFloat (S754_finite s m e)) = Ret w <->
   exists u, w = (if s then [45%N] else []) ++ u /\ real_text (s_ff cf) (s_prec cf) (mag m e) u).
Proof.
  intros cf s m e w Ok B I. rewrite dump_frac by (assumption || discriminate). rewrite <- float_iff by assumption. split; [congruence|intros ->; reflexivity].
Qed.
