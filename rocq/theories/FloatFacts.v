(** Integers as doubles. *)
From Coq Require Import Lia ZifyBool ZifyNat ZifyN Floats.SpecFloat.
From Verif Require Import Base Stream Encoding Value Token Parser EncodingProofs Feeds ListMachine
  SpecGrammar SpecText GrammarLex NumberFacts.
Open Scope Z_scope.

Definition valid (f : f64) : Prop := valid_binary 53 1024 f = true.

Lemma digits_shift : forall k m, Z.pos (digits2_pos (shift_pos k m)) = Z.pos (digits2_pos m) + Z.pos k.
Proof.
  intros k m. unfold shift_pos. induction k as [|k IH] using Pos.peano_ind.
  - cbn. lia.
  - rewrite Pos.iter_succ. cbn [digits2_pos]. lia.
Qed.

Lemma shift_pos_val : forall k m, Z.pos (shift_pos k m) = Z.pos m * 2 ^ Z.pos k.
Proof. intros. rewrite shift_pos_correct. rewrite Z.mul_comm. f_equal. Qed.

Lemma iter_pos_S : forall A (f : A -> A) k x, SpecFloat.iter_pos f (Pos.succ k) x = f (SpecFloat.iter_pos f k x).
Proof.
  assert (C : forall A (f : A -> A) k x, SpecFloat.iter_pos f k (f x) = f (SpecFloat.iter_pos f k x)).
  { intros A f. induction k as [k IH|k IH|]; intro x; cbn [SpecFloat.iter_pos]; [rewrite !IH|rewrite !IH|]; reflexivity. }
  intros A f. induction k as [k IH|k IH|]; intro x; cbn [SpecFloat.iter_pos Pos.succ].
  - rewrite !IH. rewrite !C. reflexivity.
  - rewrite !C. reflexivity.
  - reflexivity.
Qed.

Lemma shr_iter : forall k m, SpecFloat.iter_pos shr_1 k {| shr_m := Z.pos (shift_pos k m); shr_r := false; shr_s := false |} =
  {| shr_m := Z.pos m; shr_r := false; shr_s := false |}.
Proof.
  assert (C : forall A (f : A -> A) k x, SpecFloat.iter_pos f k (f x) = f (SpecFloat.iter_pos f k x)).
  { intros A f. induction k as [k IH|k IH|]; intro x; cbn [SpecFloat.iter_pos]; [rewrite !IH|rewrite !IH|]; reflexivity. }
  unfold shift_pos. intros k m. induction k as [|k IH] using Pos.peano_ind; [reflexivity|].
  rewrite Pos.iter_succ, iter_pos_S, <- C. cbn [shr_1 orb]. exact IH.
Qed.

Lemma canon : forall m e, bounded 53 1024 m e = true -> fexp 53 1024 (Z.pos (digits2_pos m) + e) = e /\ e <= 971.
Proof.
  intros m e H. unfold bounded in H. apply andb_prop in H. destruct H as [H1 H2].
  unfold canonical_mantissa in H1. apply Zeq_bool_eq in H1. split; [assumption|]. lia.
Qed.

Lemma round_aux_exact : forall s m e, bounded 53 1024 m e = true ->
  binary_round_aux 53 1024 s (Z.pos m) e loc_Exact = S754_finite s m e.
Proof.
  intros s m e B. apply canon in B. destruct B as [B L]. unfold binary_round_aux, shr_fexp.
  cbn [Zdigits2 shr_record_of_loc]. rewrite B, Z.sub_diag. cbn [shr shr_m loc_of_shr_record round_nearest_even Zdigits2].
  rewrite B, Z.sub_diag. cbn [shr shr_m shr_record_of_loc]. replace (e <=? 1024 - 53) with true by lia. reflexivity.
Qed.

Lemma round_shift : forall s m k, bounded 53 1024 m (Z.pos k) = true ->
  binary_round_aux 53 1024 s (Z.pos (shift_pos k m)) 0 loc_Exact = S754_finite s m (Z.pos k).
Proof.
  intros s m k B. apply canon in B. destruct B as [B L]. unfold binary_round_aux. unfold shr_fexp at 1.
  cbn [Zdigits2 shr_record_of_loc]. rewrite digits_shift, Z.add_0_r, B, Z.sub_0_r. cbn [shr]. rewrite shr_iter.
  cbn [shr_m loc_of_shr_record round_nearest_even]. unfold shr_fexp. cbn [Zdigits2 shr_record_of_loc].
  rewrite Z.add_0_l, B, Z.sub_diag. cbn [shr shr_m]. replace (Z.pos k <=? 1024 - 53) with true by lia. reflexivity.
Qed.

(** a double that is an integer is the double of that integer *)
Lemma round_int : forall s m e z, bounded 53 1024 m e = true ->
  (if (0 <=? e) then Z.pos z = Z.pos m * 2 ^ e else Z.pos m = Z.pos z * 2 ^ (- e)) ->
  binary_round 53 1024 s z 0 = S754_finite s m e.
Proof.
  intros s m e z B H. unfold binary_round, shl_align. rewrite !Z.add_0_r, Z.sub_0_r.
  pose proof (canon _ _ B) as [Cm L].
  destruct e as [|k|k].
  - rewrite Z.mul_1_r in H. cbn in H. inversion H; subst. rewrite Z.add_0_r in Cm. rewrite Cm. cbv iota beta.
    apply round_aux_exact. assumption.
  - change (0 <=? Z.pos k) with true in H. cbv iota in H. rewrite <- shift_pos_val in H. inversion H; subst.
    rewrite digits_shift, Cm. apply round_shift. assumption.
  - change (0 <=? Z.neg k) with false in H. cbv iota in H. change (- Z.neg k) with (Z.pos k) in H.
    rewrite <- shift_pos_val in H. inversion H; subst. clear H.
    assert (E : fexp 53 1024 (Z.pos (digits2_pos z)) = Z.neg k).
    { rewrite digits_shift in Cm. rewrite <- Cm. f_equal. lia. }
    rewrite E. cbv iota beta. apply round_aux_exact. assumption.
Qed.

Lemma d_of_Z_exact : forall f z, valid f -> is_int f z -> z <> 0 -> d_of_Z z = f.
Proof.
  intros f z V I N. destruct f as [s|s| |s m e]; cbn [is_int] in I; try contradiction.
  unfold valid in V. cbn [valid_binary] in V. unfold d_of_Z, binary_normalize.
  destruct (0 <=? e) eqn:E.
  - destruct s.
    + destruct z as [|p|p]; [congruence| |].
      * exfalso. assert (0 < 2 ^ e) by (apply Z.pow_pos_nonneg; lia). nia.
      * apply round_int; [assumption|]. rewrite E. change (Z.neg p) with (- Z.pos p) in I; change (Z.neg m) with (- Z.pos m) in I; rewrite Z.mul_opp_l in I; lia.
    + destruct z as [|p|p]; [congruence| |].
      * apply round_int; [assumption|]. rewrite E. assumption.
      * exfalso. assert (0 < 2 ^ e) by (apply Z.pow_pos_nonneg; lia). nia.
  - assert (0 < 2 ^ (- e)) by (apply Z.pow_pos_nonneg; lia).
    destruct s; destruct z as [|p|p]; try congruence; try (exfalso; nia).
    + apply round_int; [assumption|]. rewrite E. change (Z.neg p) with (- Z.pos p) in I; change (Z.neg m) with (- Z.pos m) in I; rewrite Z.mul_opp_l in I; lia.
    + apply round_int; [assumption|]. rewrite E. assumption.
Qed.

Lemma digits_bound : forall p, Z.pos p < 2 ^ Z.pos (digits2_pos p) /\ 2 ^ (Z.pos (digits2_pos p) - 1) <= Z.pos p.
Proof.
  induction p as [p [IH1 IH2]|p [IH1 IH2]|]; cbn [digits2_pos].
  - rewrite Pos2Z.inj_succ, Z.pow_succ_r by lia. split; [lia|].
    replace (Z.succ (Z.pos (digits2_pos p)) - 1) with (Z.succ (Z.pos (digits2_pos p) - 1)) by lia.
    rewrite Z.pow_succ_r by lia. lia.
  - rewrite Pos2Z.inj_succ, Z.pow_succ_r by lia. split; [lia|].
    replace (Z.succ (Z.pos (digits2_pos p)) - 1) with (Z.succ (Z.pos (digits2_pos p) - 1)) by lia.
    rewrite Z.pow_succ_r by lia. lia.
  - split; cbn; lia.
Qed.

Lemma digits_le : forall p k, 0 <= k -> Z.pos p < 2 ^ k -> Z.pos (digits2_pos p) <= k.
Proof.
  intros p k K H. destruct (digits_bound p) as [_ L].
  destruct (Z_le_gt_dec (Z.pos (digits2_pos p)) k) as [|G]; [assumption|].
  assert (2 ^ k <= 2 ^ (Z.pos (digits2_pos p) - 1)) by (apply Z.pow_le_mono_r; lia). lia.
Qed.

(** integers below 2^53 have a double *)
Lemma small_double : forall z, 0 < z < 2 ^ 53 -> exists m e, bounded 53 1024 m e = true /\ is_int (S754_finite false m e) z.
Proof.
  intros z H. destruct z as [|p|p]; try lia. pose proof (digits_le p 53 ltac:(lia) ltac:(lia)) as D.
  destruct (Z.eq_dec (Z.pos (digits2_pos p)) 53) as [E|E].
  - exists p, 0. split; [|cbn [is_int]; change (0 <=? 0) with true; cbv iota; lia].
    unfold bounded, canonical_mantissa. rewrite E. reflexivity.
  - pose (k := Z.to_pos (53 - Z.pos (digits2_pos p))).
    assert (K : Z.pos k = 53 - Z.pos (digits2_pos p)) by (unfold k; apply Z2Pos.id; lia).
    exists (shift_pos k p), (Z.neg k). split.
    + unfold bounded, canonical_mantissa. rewrite digits_shift. apply andb_true_intro. split; [|lia].
      apply Zeq_is_eq_bool. change (Z.neg k) with (- Z.pos k). rewrite K. unfold fexp, emin. lia.
    + cbn [is_int]. change (0 <=? Z.neg k) with false. cbv iota. change (- Z.neg k) with (Z.pos k). apply shift_pos_val.
Qed.

Lemma d_of_Z_small : forall z, 0 <= z < 2 ^ 53 -> is_int (d_of_Z z) z /\ valid (d_of_Z z).
Proof.
  intros z H. destruct (Z.eq_dec z 0) as [->|N]; [split; reflexivity|].
  destruct (small_double z ltac:(lia)) as (m & e & B & I).
  rewrite (d_of_Z_exact (S754_finite false m e) z B I N). split; assumption.
Qed.

(** ** Fractions made of zeros *)

(** the scale factors: finite and positive, and zero in the end *)
Definition tame (p : f64) : Prop := match p with S754_zero false | S754_finite false _ _ => True | _ => False end.

Fixpoint tames (n : nat) (p : f64) : bool :=
  match n with
  | O => match p with S754_zero false => true | _ => false end
  | S n => match p with S754_zero false | S754_finite false _ _ => tames n (dmul p dtenth) | _ => false end
  end.

Fixpoint scale (n : nat) (p : f64) : f64 := match n with O => p | S n => scale n (dmul p dtenth) end.

Lemma tames_all : forall n p, tames n p = true -> forall k, tame (scale k p).
Proof.
  induction n as [|n IH]; intros p H k; cbn [tames] in H.
  - destruct p as [[]| | |]; try discriminate. clear H. 
    assert (X : forall k, scale k (S754_zero false) = S754_zero false).
    { clear. induction k as [|k IH]; [reflexivity|]. cbn [scale]. change (dmul (S754_zero false) dtenth) with (S754_zero false). exact IH. }
    rewrite X. exact I.
  - destruct k as [|k]; cbn [scale].
    + destruct p as [[]| | |[]]; try discriminate; exact I.
    + destruct p as [[]| | |[]]; try discriminate; apply IH; assumption.
Qed.

Lemma dtenth_tame : forall k, tame (scale k dtenth).
Proof. apply (tames_all 400). vm_compute. reflexivity. Qed.

Lemma dadd_zero : forall f p, tame p -> (match f with S754_finite _ _ _ | S754_zero false => True | _ => False end) ->
  dadd f (dmul (d_of_Z 0) p) = f.
Proof.
  intros f p T F. change (d_of_Z 0) with (S754_zero false).
  assert (E : dmul (S754_zero false) p = S754_zero false) by (destruct p as [[]| | |[]]; try contradiction; reflexivity).
  rewrite E. destruct f as [[]| | |]; try contradiction; reflexivity.
Qed.

Lemma scale_S : forall k p, dmul (scale k p) dtenth = scale (S k) p.
Proof. induction k as [|k IH]; intro p; [reflexivity|]. cbn [scale] in *. apply IH. Qed.

Lemma zero_fraction : forall f ds, (match f with S754_finite _ _ _ | S754_zero false => True | _ => False end) ->
  Forall (fun d => d = 48%N) ds -> frac_value f dtenth ds = f.
Proof.
  intros f ds F Z0.
  assert (X : forall ds k, Forall (fun d => d = 48%N) ds -> frac_value f (scale k dtenth) ds = f).
  { clear ds Z0. induction ds as [|d ds IH]; intros k H; [reflexivity|]. inversion H; subst. cbn [frac_value].
    change (Z.of_N (dval 48)) with 0. rewrite dadd_zero by (auto; apply dtenth_tame).
    rewrite scale_S. apply IH; assumption. }
  apply (X ds O Z0).
Qed.

