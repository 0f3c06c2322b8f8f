(** Values with arbitrary finite numbers: the dumped text is RFC 8259 text of
    the value in which each number is the one its text denotes. *)
From Coq Require Import Lia ZifyBool ZifyNat ZifyN Floats.SpecFloat QArith.
From Verif Require Import Base Stream Encoding Value Token FloatFmt Parser Feeds SpecUnicode SpecGrammar
  SpecText SpecRfc NumberFacts FloatFacts RfcFacts Serializer DumpProofs SpecDump DumpFacts RoundTrip DumpFail DumpMore SpecReal RealRound RealText.
Open Scope Z_scope.

(** ** Decimal texts are JSON numbers *)
Definition unsigned_ok (A : feature -> Prop) (w : list N) : Prop :=
  Forall (fun c => c < 128)%N w /\ forall p neg, minus p neg -> exists x, rfc_number A (p ++ w) x.

Lemma plain_number : forall A z ip, numeral z ip -> z <= max_int -> unsigned_ok A ip.
Proof.
  intros A z ip Nm Le. split; [apply digits_ascii; apply (numeral_ascii z ip Nm)|].
  intros p neg M. exists (signed_int neg z). apply rn_int; [assumption|assumption|lia].
Qed.
Lemma point_number : forall A z ip fd, numeral z ip -> z <= max_int -> fd <> [] -> Forall ascii_digit fd -> unsigned_ok A (ip ++ 46%N :: fd).
Proof.
  intros A z ip fd Nm Le Ne Fd. split.
  - apply Forall_app. split; [apply digits_ascii; apply (numeral_ascii z ip Nm)|]. constructor; [lia|apply digits_ascii; assumption].
  - intros p neg M. eexists. apply rn_frac with (z := z) (f := frac_value (d_of_Z z) dtenth fd); [eassumption|assumption|lia|constructor; assumption|discriminate].
Qed.
Lemma exp_number : forall A z ip fr f k b, numeral z ip -> 0 < z <= max_int -> rfc_frac z fr f -> Z.abs k < 4294967296 -> exponent k b ->
  unsigned_ok A ((ip ++ fr) ++ b).
Proof.
  intros A z ip fr f k b Nm [Lo Le] Fr Hk [ds Fd Td Hl].
  assert (Nd : ds <> []) by (destruct ds; [cbn in Hl; lia|discriminate]).
  assert (As : Forall (fun c => c < 128)%N fr) by (destruct Fr; [constructor|constructor; [lia|apply digits_ascii; assumption]]).
  split.
  - apply Forall_app. split; [apply Forall_app; split; [apply digits_ascii; apply (numeral_ascii z ip Nm)|assumption]|].
    constructor; [lia|]. constructor; [destruct (k <? 0); lia|apply digits_ascii; assumption].
  - intros p neg M. rewrite <- app_assoc.
    destruct (k <? 0); eexists; eapply rn_exp; try eassumption; try lia.
    + apply rx_minus; [left; reflexivity|assumption|assumption|lia].
    + apply rx_plus; [left; reflexivity|assumption|assumption|lia].
Qed.

(** ** What the formats give *)
Lemma decimals_parts : forall p n w, decimals p n w -> exists z ip fp, numeral z ip /\ Forall ascii_digit fp /\ length fp = p /\
  w = ip ++ match p with O => [] | _ => 46%N :: fp end /\ n = z * 10 ^ Z.of_nat p + ten fp /\ z * 10 ^ Z.of_nat p <= n < (z + 1) * 10 ^ Z.of_nat p.
Proof.
  intros p n w H. inversion H as [z ip fp Nm Fp Lp Tn E]; subst. exists z, ip, fp. pose proof (ten_bound fp Fp) as Tb.
  rewrite ten_app, (numeral_ten _ _ Nm). repeat split; auto; try lia; nia.
Qed.

(** the text before an exponent: a numeral and a fraction or nothing *)
Inductive shape (z : Z) : list N -> Prop :=
| sh_int ip : numeral z ip -> shape z ip
| sh_frac ip fd : numeral z ip -> fd <> [] -> Forall ascii_digit fd -> shape z (ip ++ 46%N :: fd).

Lemma decimals_shape : forall p n w, decimals p n w -> exists z, shape z w /\ z * 10 ^ Z.of_nat p <= n < (z + 1) * 10 ^ Z.of_nat p.
Proof.
  intros p n w H. destruct (decimals_parts p n w H) as (z & ip & fp & Nm & Fp & Lp & -> & _ & B). exists z. split; [|exact B].
  destruct p as [|p]; [rewrite app_nil_r; apply sh_int; assumption|]. apply sh_frac; [assumption| |assumption]. destruct fp; discriminate.
Qed.
Lemma stripped_shape : forall z w u, shape z w -> stripped w u -> shape z u.
Proof.
  intros z w u H S. destruct H as [ip Nm|ip fd Nm Ne Fd]; pose proof (numeral_ascii z ip Nm) as [Fi _].
  - pose proof (no_dot ip Fi) as Nd. inversion S; subst; [apply sh_int; assumption| |]; exfalso; apply Nd; apply in_or_app; right; left; reflexivity.
  - inversion S as [w0 Nd E1 E2|a zs Na Fz E1 E2|a b d zs Na D1 D2 Fz E1 E2].
    + exfalso. apply Nd. apply in_or_app. right. left. reflexivity.
    + subst a. destruct (first_dot u zs ip fd Na (no_dot ip Fi) E1) as [-> ->]. apply sh_int. assumption.
    + destruct (first_dot a (b ++ d :: zs) ip fd Na (no_dot ip Fi) E1) as [-> <-].
      apply sh_frac; [assumption|destruct b; discriminate|]. apply Forall_app in Fd. destruct Fd as [F1 F2]. inversion F2; subst.
      apply Forall_app. split; [assumption|constructor; [assumption|constructor]].
Qed.
Lemma shape_ok : forall A z w, shape z w -> z <= max_int -> unsigned_ok A w.
Proof. intros A z w [ip Nm|ip fd Nm Ne Fd] Le; [eapply plain_number|eapply point_number]; eassumption. Qed.
Lemma shape_exp : forall A z w k b, shape z w -> 0 < z <= max_int -> Z.abs k < 4294967296 -> exponent k b -> unsigned_ok A (w ++ b).
Proof.
  intros A z w k b [ip Nm|ip fd Nm Ne Fd] Le Hk Hb.
  - rewrite <- (app_nil_r ip). eapply exp_number; try eassumption. constructor.
  - eapply exp_number; try eassumption. constructor; assumption.
Qed.

(** ** Bounds *)
Section Frac.
Variables (m : positive) (e : Z).
Hypothesis Bd : bounded 53 1024 m e = true.
Hypothesis Neg : e < 0.

Lemma m_small : Z.pos m < 2 ^ 53.
Proof.
  destruct (canon m e Bd) as [C _]. unfold fexp in C.
  pose proof (proj1 (digits_bound m)) as D. eapply Z.lt_le_trans; [exact D|]. apply Z.pow_le_mono_r; [lia|].
  unfold emin in C. lia.
Qed.
Lemma e_low : -1074 <= e.
Proof. destruct (canon m e Bd) as [C _]. unfold fexp, emin in C. lia. Qed.

Lemma mag_small : (mag m e < inject_Z (2 ^ 53))%Q.
Proof.
  pose proof m_small as Ms. unfold mag.
  assert (X : (inject_Z 2 ^ e <= 1)%Q) by (apply (pwr_le 2 e 0); lia).
  eapply Qle_lt_trans; [|apply (proj2 (inj_lt (Z.pos m) (2 ^ 53))); exact Ms].
  setoid_replace (inject_Z (Z.pos m)) with (inject_Z (Z.pos m) * 1)%Q at 2 by ring.
  apply Qmult_le_l; [apply inj_pos; lia|exact X].
Qed.
Lemma mag_low : (pwr 2 e <= mag m e)%Q.
Proof.
  apply Qle_trans with (1 * pwr 2 e)%Q; [apply Qle_lteq; right; ring|]. unfold mag.
  apply Qmult_le_compat_r; [|apply Qlt_le_weak, (pwr_pos 2); lia].
  apply (proj2 (inj_le 1 (Z.pos m))). lia.
Qed.

Lemma exp_bound : forall k, (pwr 10 k <= mag m e)%Q -> (mag m e < pwr 10 (k + 1))%Q -> -1076 <= k < 53.
Proof.
  intros k L U. split.
  - pose proof e_low as El. assert (X : (pwr 10 (-1074) < pwr 10 (k + 1))%Q).
    { eapply Qle_lt_trans; [|exact U]. eapply Qle_trans; [|exact mag_low].
      eapply Qle_trans; [|apply (pwr_le 2 (-1074) e); lia]. apply pw_le_ok; [lia|lia|]. vm_compute. reflexivity. }
    apply pwr_lt_inv in X; lia.
  - assert (X : (pwr 10 k < pwr 10 53)%Q).
    { eapply Qle_lt_trans; [exact L|]. eapply Qlt_le_trans; [exact mag_small|]. rewrite <- (pwr_nat 2 53) by lia. apply pw_le_ok; [lia|lia|]. vm_compute. reflexivity. }
    apply pwr_lt_inv in X; lia.
Qed.

Lemma fixed_ok : forall p w, fixed_text p (mag m e) w -> exists z, shape z w /\ z <= 2 ^ 53.
Proof.
  intros p w (n & Nr & D). destruct (decimals_shape p n w D) as (z & Sh & B). exists z. split; [exact Sh|].
  assert (Le : n <= 2 ^ 53 * 10 ^ Z.of_nat p).
  { apply (nearest_le _ _ _ Nr). rewrite inject_Z_mult. rewrite <- (pwr_nat 10 (Z.of_nat p)) by lia.
    apply Qmult_le_compat_r; [apply Qlt_le_weak; exact mag_small|apply Qlt_le_weak, (pwr_pos 10); lia]. }
  pose proof (Z.pow_pos_nonneg 10 (Z.of_nat p) ltac:(lia) ltac:(lia)). nia.
Qed.

Lemma sig_bounds : forall p n k, sig p (mag m e) n k -> 10 ^ Z.of_nat p <= n < 10 ^ (Z.of_nat p + 1) /\ -1076 <= k < 54.
Proof.
  intros p n k H. destruct H as [n k L U Nr Lt|n k L U Nr ->]; pose proof (exp_bound k L U) as B.
  - split; [|lia]. split; [|assumption]. destruct Nr as [Nr _]. apply Z.nlt_ge. intro G.
    assert (P10 : (inject_Z (10 ^ Z.of_nat p) <= mag m e * pwr 10 (Z.of_nat p - k))%Q).
    { rewrite <- (pwr_nat 10) by lia. replace (Z.of_nat p) with (k + (Z.of_nat p - k)) at 1 by lia. rewrite (pwr_plus 10) by lia.
      apply Qmult_le_compat_r; [assumption|apply Qlt_le_weak, pwr_pos; lia]. }
    pose proof (proj2 (inj_le (n + 1) (10 ^ Z.of_nat p)) ltac:(lia)) as G'. rewrite inject_Z_plus in G'.
    change (inject_Z 1) with 1%Q in G'. apply Qabs.Qabs_Qle_condition in Nr. destruct Nr as [_ Nr].
    apply (Qlt_irrefl 1). apply Qle_lt_trans with (1 # 2)%Q; [|reflexivity].
    eapply Qle_trans; [|exact Nr]. apply (Qplus_le_l _ _ (inject_Z n)). 
    setoid_replace (mag m e * inject_Z 10 ^ (Z.of_nat p - k) - inject_Z n + inject_Z n)%Q with (mag m e * pwr 10 (Z.of_nat p - k))%Q by (unfold pwr; ring).
    rewrite Qplus_comm. eapply Qle_trans; [exact G'|exact P10].
  - split; [|lia]. split; [lia|]. apply Z.pow_lt_mono_r; lia.
Qed.
Lemma sig_shape : forall p n k a, sig p (mag m e) n k -> decimals p n a -> exists z, shape z a /\ 0 < z <= 9.
Proof.
  intros p n k a S D. destruct (sig_bounds p n k S) as [Bn _]. destruct (decimals_shape p n a D) as (z & Sh & B). exists z. split; [exact Sh|].
  pose proof (Z.pow_pos_nonneg 10 (Z.of_nat p) ltac:(lia) ltac:(lia)). rewrite Z.pow_add_r in Bn by lia. change (10 ^ 1) with 10 in Bn. nia.
Qed.

Lemma real_number : forall A ff prec u, real_text ff prec (mag m e) u -> unsigned_ok A u.
Proof.
  intros A ff prec u H. unfold real_text in H.
  assert (Mx : 2 ^ 53 <= max_int) by (unfold max_int; lia).
  assert (Fx : forall p w, fixed_text p (mag m e) w -> unsigned_ok A w).
  { intros p w F. destruct (fixed_ok p w F) as (z & Sh & B). eapply shape_ok; [eassumption|lia]. }
  assert (Sc : forall p w, sci_text p (mag m e) w -> unsigned_ok A w).
  { intros p w (n & k & a & b & S & D & X & ->). destruct (sig_shape p n k a S D) as (z & Sh & B). destruct (sig_bounds p n k S) as [_ Bk].
    apply (shape_exp A z a k b); [assumption|unfold max_int; lia|lia|assumption]. }
  assert (Ge : forall p w, general_text p (mag m e) w -> unsigned_ok A w).
  { intros p w G. destruct G as [q n k u0 w Eq S Rk F St|q n k a a' b Eq S Rk D St X].
    - destruct (fixed_ok _ _ F) as (z & Sh & B). eapply shape_ok; [eapply stripped_shape; eassumption|lia].
    - destruct (sig_shape _ n k a S D) as (z & Sh & B). destruct (sig_bounds _ n k S) as [_ Bk].
      apply (shape_exp A z a' k b); [eapply stripped_shape; eassumption|unfold max_int; lia|lia|assumption]. }
  destruct ff; eauto.
Qed.
End Frac.

(** ** Values *)
Lemma finite_read : forall A cf f w, finite_float f -> float_text (s_ff cf) (s_prec cf) f w ->
  exists x, number_read A (s_ff cf) (s_prec cf) f x /\ rfc_number A w x /\ made A cf w w.
Proof.
  intros A cf f w (V & Nn & Ni & Zb) T.
  assert (X : exists x, rfc_number A w x /\ Forall (fun c => c < 128)%N w).
  { destruct T as [z u Iz Bz Tx|Nz _].
    - specialize (Zb z Iz). destruct Tx as [z u Nm|z u Ng Nm].
      + destruct (point_number A z u [48%N]) as [As P]; [assumption|unfold max_int; lia|discriminate|repeat constructor; lia|].
        destruct (P [] false) as [x Px]; [constructor|]. exists x. auto.
      + destruct (point_number A (- z) u [48%N]) as [As P]; [assumption|unfold max_int; lia|discriminate|repeat constructor; lia|].
        destruct (P [45%N] true) as [x Px]; [constructor|]. exists x. split; [exact Px|]. constructor; [lia|exact As].
    - destruct f as [s|s| |s m e]; [exfalso; exact (Nz 0 eq_refl)|exfalso; exact (Ni s eq_refl)|congruence|].
      assert (Neg : e < 0).
      { destruct (Z_lt_le_dec e 0) as [|G]; [assumption|]. exfalso. cbn [is_int] in Nz. replace (0 <=? e) with true in Nz by lia.
        exact (Nz _ eq_refl). }
      destruct (proj1 (float_iff (s_ff cf) (s_prec cf) s m e _ V) eq_refl) as (u & Ew & R).
      destruct (real_number m e V Neg A _ _ _ R) as [As P]. rewrite Ew.
      destruct s.
      + destruct (P [45%N] true) as [x Px]; [constructor|]. exists x. split; [exact Px|]. constructor; [lia|exact As].
      + destruct (P [] false) as [x Px]; [constructor|]. exists x. split; [exact Px|]. exact As. }
  destruct X as (x & R & As). exists x. split; [exists w; split; assumption|]. split; [exact R|]. apply made_ascii. exact As.
Qed.

Lemma dump_json_of : forall A cf v w, enc_ok (out_enc cf) (out_ck cf) = true -> enc_ok (val_enc cf) (val_ck cf) = true ->
  blank_indent cf -> ok_value_but finite_float A cf v -> dump_string cf v = Ret w ->
  exists L v', echo (number_read A (s_ff cf) (s_prec cf)) v v' /\ rfc_text A (val_enc cf) (val_ck cf) L v' /\
    out_text (out_enc cf) (out_ck cf) L = Some w /\ Forall (plain_cp A cf) L.
Proof.
  intros A cf v w Ho Hv B O D. eapply dump_rfc_but; try eassumption. intros f u Ff T. exact (finite_read A cf f u Ff T).
Qed.

(** ** and it is read as that value *)
Lemma finite_good : forall cf f, finite_float f -> ~ bad_leaf cf (LFloat f).
Proof.
  intros cf f (V & Nn & Ni & Zb) X. inversion X as [| |b E|f0 z' Iz' Nb]; subst.
  - exact (Ni b eq_refl).
  - apply Nb. specialize (Zb z' Iz'). unfold int64. lia.
Qed.

Lemma reads_echo : forall pc cf v w, reads pc cf -> enc_ok (out_enc cf) (out_ck cf) = true -> enc_ok (val_enc cf) (val_ck cf) = true ->
  (out_enc cf = Ignore -> s_esc cf = true) -> blank_indent cf -> ok_value_but finite_float plain cf v -> dump_string cf v = Ret w ->
  exists v', echo (number_read plain (s_ff cf) (s_prec cf)) v v' /\ parse_string pc w = Ret v'.
Proof.
  intros pc cf v w R Ho Hv Ig B O D. destruct (dump_json_of plain cf v w Ho Hv B O D) as (L & v' & Ec & T & E & P).
  exists v'. split; [exact Ec|]. eapply text_read; eassumption.
Qed.

Lemma reads_echo_all : forall pc cf v, reads pc cf -> enc_ok (out_enc cf) (out_ck cf) = true -> enc_ok (val_enc cf) (val_ck cf) = true ->
  wide_out cf -> (out_enc cf = Ignore -> s_esc cf = true) -> blank_indent cf -> ok_value_but finite_float plain cf v ->
  exists w v', dump_string cf v = Ret w /\ echo (number_read plain (s_ff cf) (s_prec cf)) v v' /\ parse_string pc w = Ret v'.
Proof.
  intros pc cf v R Ho Hv W Ig B O. destruct (ok_dumps_but finite_float plain cf v (finite_good cf) Ho Hv W Ig O) as [w D].
  destruct (reads_echo pc cf v w R Ho Hv Ig B O D) as (v' & Ec & P). exists w, v'. auto.
Qed.

Lemma dump_json_any : forall cf v w, enc_ok (out_enc cf) (out_ck cf) = true -> enc_ok (val_enc cf) (val_ck cf) = true ->
  blank_indent cf -> ok_value_but finite_float any cf v -> dump_string cf v = Ret w ->
  exists L v', echo (number_read any (s_ff cf) (s_prec cf)) v v' /\ rfc_text any (val_enc cf) (val_ck cf) L v' /\
    out_text (out_enc cf) (out_ck cf) L = Some w.
Proof.
  intros cf v w Ho Hv B O D. destruct (dump_json_of any cf v w Ho Hv B O D) as (L & v' & Ec & T & E & _). exists L, v'. auto.
Qed.
