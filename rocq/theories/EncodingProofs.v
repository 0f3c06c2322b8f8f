(** Lemmas about the encoders and decoders. *)
From Coq Require Import Lia ZifyBool ZifyNat ZifyN.
From Verif Require Import Base Stream Encoding SpecUnicode.
Ltac Zify.zify_post_hook ::= Z.div_mod_to_equations.

Lemma some_inj : forall A (x y : A), Some x = Some y -> y = x.
Proof. intros. congruence. Qed.

(** ** Bit operations as arithmetic *)

Lemma land_ones_mod : forall n k, N.land n (N.ones k) = n mod 2 ^ k.
Proof. exact N.land_ones. Qed.

Lemma land63 : forall n, N.land n 63 = n mod 64.
Proof. intro n. change 63 with (N.ones 6). rewrite N.land_ones. reflexivity. Qed.

Lemma land1023 : forall n, N.land n 1023 = n mod 1024.
Proof. intro n. change 1023 with (N.ones 10). rewrite N.land_ones. reflexivity. Qed.

Lemma shr6 : forall n, N.shiftr n 6 = n / 64.
Proof. intro n. rewrite N.shiftr_div_pow2. reflexivity. Qed.
Lemma shr10 : forall n, N.shiftr n 10 = n / 1024.
Proof. intro n. rewrite N.shiftr_div_pow2. reflexivity. Qed.
Lemma shr12 : forall n, N.shiftr n 12 = n / 4096.
Proof. intro n. rewrite N.shiftr_div_pow2. reflexivity. Qed.
Lemma shr18 : forall n, N.shiftr n 18 = n / 262144.
Proof. intro n. rewrite N.shiftr_div_pow2. reflexivity. Qed.
Lemma shl6 : forall n, N.shiftl n 6 = n * 64.
Proof. intro n. rewrite N.shiftl_mul_pow2. reflexivity. Qed.
Lemma shl10 : forall n, N.shiftl n 10 = n * 1024.
Proof. intro n. rewrite N.shiftl_mul_pow2. reflexivity. Qed.

Lemma lor_add_pow2 : forall b k x, x < 2 ^ k -> N.lor (b * 2 ^ k) x = b * 2 ^ k + x.
Proof.
  intros b k x Hx.
  assert (Hl : N.land (b * 2 ^ k) x = 0).
  { apply N.bits_inj_0. intro n. rewrite N.land_spec.
    destruct (N.lt_ge_cases n k) as [Hn|Hn].
    - rewrite N.mul_pow2_bits_low by assumption. reflexivity.
    - replace (N.testbit x n) with false; [apply andb_false_r|].
      symmetry. destruct (N.eq_dec x 0) as [->|Hx0]; [apply N.bits_0|].
      apply N.bits_above_log2.
      apply N.lt_le_trans with k; [|assumption].
      apply N.log2_lt_pow2; lia. }
  rewrite <- N.lxor_lor by assumption.
  symmetry. apply N.add_nocarry_lxor. assumption.
Qed.

Lemma lor192 : forall x, x < 32 -> N.lor 192 x = 192 + x.
Proof. intros. change 192 with (6 * 2 ^ 5). apply lor_add_pow2. assumption. Qed.
Lemma lor224 : forall x, x < 16 -> N.lor 224 x = 224 + x.
Proof. intros. change 224 with (14 * 2 ^ 4). apply lor_add_pow2. assumption. Qed.
Lemma lor240 : forall x, x < 8 -> N.lor 240 x = 240 + x.
Proof. intros. change 240 with (30 * 2 ^ 3). apply lor_add_pow2. assumption. Qed.
Lemma lor128 : forall x, x < 64 -> N.lor 128 x = 128 + x.
Proof. intros. change 128 with (2 * 2 ^ 6). apply lor_add_pow2. assumption. Qed.

(** ** Streams over strings *)

Definition unit_ok (ck : ckind) (u : N) : Prop :=
  match ck with C8 => u < 256 | C16 => u < 65535 | C32 => u < 4294967295 end.

Definition cksize (ck : ckind) : N :=
  match ck with C8 => 256 | C16 => 65536 | C32 => 4294967296 end.

Lemma narrow_mod : forall ck n, narrow ck n = n mod cksize ck.
Proof. destruct ck; reflexivity. Qed.

Lemma get_unit : forall ck u r, unit_ok ck u ->
  is_get ck (mkIs (IStr (u :: r)) false false) = (Z.of_N u, mkIs (IStr r) false false).
Proof.
  intros ck u r H. unfold is_get. cbn [is_good is_eof is_fail negb andb is_buf throws uflow].
  replace (Z.of_N u =? eof_int ck)%Z with false; [reflexivity|].
  destruct ck; cbn [unit_ok eof_int] in *; lia.
Qed.

Lemma get_eof : forall ck,
  is_get ck (mkIs (IStr []) false false) = (eof_int ck, mkIs (IStr []) true true).
Proof. intros ck. unfold is_get. cbn. rewrite Z.eqb_refl. reflexivity. Qed.

Lemma peek_unit : forall ck u r, unit_ok ck u ->
  is_peek ck (mkIs (IStr (u :: r)) false false) = (Z.of_N u, mkIs (IStr (u :: r)) false false).
Proof.
  intros ck u r H. unfold is_peek. cbn [is_good is_eof is_fail negb andb is_buf throws underflow].
  replace (Z.of_N u =? eof_int ck)%Z with false; [reflexivity|].
  destruct ck; cbn [unit_ok eof_int] in *; lia.
Qed.

Lemma peek_eof : forall ck,
  is_peek ck (mkIs (IStr []) false false) = (eof_int ck, mkIs (IStr []) true false).
Proof. intros ck. unfold is_peek. cbn. rewrite Z.eqb_refl. reflexivity. Qed.

Lemma byte_unit_ok : forall ck u, u < 256 -> unit_ok ck u.
Proof. destruct ck; cbn; lia. Qed.

Lemma z_u8_of_N : forall u, z_u8 (Z.of_N u) = u mod 256.
Proof. intro u. unfold z_u8. lia. Qed.
Lemma z_u16_of_N : forall u, z_u16 (Z.of_N u) = u mod 65536.
Proof. intro u. unfold z_u16. lia. Qed.
Lemma z_u32_of_N : forall u, z_u32 (Z.of_N u) = u mod 4294967296.
Proof. intro u. unfold z_u32. lia. Qed.

Lemma z_u8_small : forall u, u < 256 -> z_u8 (Z.of_N u) = u.
Proof. intros u H. unfold z_u8. lia. Qed.
Lemma z_u16_small : forall u, u < 65536 -> z_u16 (Z.of_N u) = u.
Proof. intros u H. unfold z_u16. lia. Qed.
Lemma z_u32_small : forall u, u < 4294967296 -> z_u32 (Z.of_N u) = u.
Proof. intros u H. unfold z_u32. lia. Qed.

(** ** Encoders: what they append *)

Lemma put_ok : forall ck l u, unit_ok ck u ->
  os_put ck (mkOs l false) u = mkOs (l ++ [u]) false.
Proof.
  intros ck l u H. unfold os_put. cbn [os_fail os_units].
  replace (Z.of_N u =? eof_int ck)%Z with false; [reflexivity|].
  destruct ck; cbn [unit_ok eof_int] in *; lia.
Qed.

Lemma put_byte : forall ck l u, u < 256 ->
  os_put ck (mkOs l false) (narrow ck u) = mkOs (l ++ [u]) false.
Proof.
  intros ck l u H. rewrite narrow_mod.
  replace (u mod cksize ck) with u by (destruct ck; unfold cksize; lia).
  apply put_ok. apply byte_unit_ok. assumption.
Qed.

Lemma utf8_encode_units : forall ck l cp,
  utf8_encode ck (mkOs l false) cp =
  match units8 cp with Some us => mkOs (l ++ us) false | None => mkOs l true end.
Proof.
  intros ck l cp. unfold utf8_encode, units8.
  rewrite !land63, shr6, shr12, shr18.
  destruct (N.ltb_spec cp 128).
  { rewrite put_byte by lia. reflexivity. }
  destruct (N.leb_spec cp 2047).
  { replace (cp <? 2048) with true by lia.
    rewrite lor192, lor128 by lia.
    rewrite !put_byte by lia. rewrite <- app_assoc. reflexivity. }
  replace (cp <? 2048) with false by lia.
  destruct (N.leb_spec cp 65535).
  { replace (cp <? 65536) with true by lia.
    rewrite lor224 by lia. rewrite !lor128 by lia.
    rewrite !put_byte by lia. rewrite <- !app_assoc. reflexivity. }
  replace (cp <? 65536) with false by lia.
  destruct (N.leb_spec cp 1114111).
  { replace (cp <? 1114112) with true by lia.
    rewrite lor240 by lia. rewrite !lor128 by lia.
    rewrite !put_byte by lia. rewrite <- !app_assoc. reflexivity. }
  replace (cp <? 1114112) with false by lia. reflexivity.
Qed.

Lemma encode_surrogates_eq : forall cp, 65536 <= cp -> cp <= 1114111 ->
  encode_surrogates cp = (55296 + (cp - 65536) / 1024, 56320 + (cp - 65536) mod 1024).
Proof.
  intros cp H1 H2. unfold encode_surrogates.
  rewrite land1023, shr10. unfold u32_sub, u16.
  f_equal; lia.
Qed.

Lemma decode_surrogates_eq : forall hi lo,
  55296 <= hi -> hi <= 56319 -> 56320 <= lo -> lo <= 57343 ->
  decode_surrogates hi lo = 65536 + (hi - 55296) * 1024 + (lo - 56320).
Proof.
  intros hi lo H1 H2 H3 H4. unfold decode_surrogates.
  rewrite shl10. unfold u32, u32_sub. lia.
Qed.

Definition ck_wide (ck : ckind) : bool := match ck with C8 => false | _ => true end.

Lemma utf16_encode_units : forall ck l cp, ck_wide ck = true -> cp <> 65535 \/ ck = C32 ->
  utf16_encode ck (mkOs l false) cp =
  match units16 cp with Some us => mkOs (l ++ us) false | None => mkOs l true end.
Proof.
  intros ck l cp Hck Hcp. unfold utf16_encode, units16.
  destruct (N.leb_spec cp 65535).
  { replace (cp <? 65536) with true by lia.
    rewrite narrow_mod. replace (cp mod cksize ck) with cp by (destruct ck; try discriminate; unfold unit_ok, cksize; lia).
    rewrite put_ok; [reflexivity|].
    destruct ck; try discriminate; unfold unit_ok; destruct Hcp; try discriminate; lia. }
  replace (cp <? 65536) with false by lia.
  destruct (N.leb_spec cp 1114111).
  { replace (cp <? 1114112) with true by lia.
    rewrite encode_surrogates_eq by lia.
    rewrite !narrow_mod.
    assert (Hs : forall x, x <= 57343 -> x mod cksize ck = x)
      by (intros; destruct ck; try discriminate; unfold unit_ok, cksize; lia).
    rewrite !Hs by lia.
    rewrite !put_ok by (destruct ck; try discriminate; unfold unit_ok, cksize; lia).
    rewrite <- app_assoc. reflexivity. }
  replace (cp <? 1114112) with false by lia. reflexivity.
Qed.

Lemma utf32_encode_units : forall l cp,
  utf32_encode C32 (mkOs l false) cp =
  match units32 cp with Some us => mkOs (l ++ us) false | None => mkOs l true end.
Proof.
  intros l cp. unfold utf32_encode, units32.
  destruct (N.ltb_spec 1114111 cp).
  { replace (cp <? 1114112) with false by lia. reflexivity. }
  replace (cp <? 1114112) with true by lia.
  rewrite narrow_mod. replace (cp mod cksize C32) with cp by (cbn; lia).
  apply put_ok. cbn. lia.
Qed.

(** ** Decoders on encoded text *)

Lemma utf8_read_S : forall ck e cp b r, b < 256 ->
  utf8_read ck (S e) cp (mkIs (IStr (b :: r)) false false) =
  utf8_read ck e (u32 (u32 (cp + b) * 64)) (mkIs (IStr r) false false).
Proof.
  intros. cbn [utf8_read]. rewrite get_unit by (apply byte_unit_ok; assumption).
  rewrite z_u8_of_N, shl6. rewrite N.mod_small by assumption. reflexivity.
Qed.

Lemma utf8_read_O : forall ck cp b r, b < 256 ->
  utf8_read ck 0 cp (mkIs (IStr (b :: r)) false false) =
  (u32 (cp + b), mkIs (IStr r) false false).
Proof.
  intros. cbn [utf8_read]. rewrite get_unit by (apply byte_unit_ok; assumption).
  rewrite z_u8_of_N. rewrite N.mod_small by assumption. reflexivity.
Qed.

Lemma utf8_decode_units : forall ck cp us r cur, units8 cp = Some us ->
  utf8_decode ck (mkIs (IStr (us ++ r)) false false) cur =
  (true, cp, mkIs (IStr r) false false).
Proof.
  intros ck cp us r cur H. unfold units8 in H. unfold utf8_decode.
  destruct (N.ltb_spec cp 128).
  { apply some_inj in H; subst us. cbn [app].
    rewrite peek_unit by (apply byte_unit_ok; lia). cbn [is_eof].
    rewrite z_u8_small by lia.
    unfold utf8_extra_bytes. replace (cp <? 192) with true by lia.
    rewrite utf8_read_O by lia. cbn [utf8_offset].
    unfold u32, u32_sub.
    replace ((((0 + cp) mod 4294967296 + 4294967296 - 0) mod 4294967296)) with cp by lia.
    replace (1114111 <? cp) with false by lia. reflexivity. }
  destruct (N.ltb_spec cp 2048).
  { apply some_inj in H; subst us. cbn [app].
    rewrite peek_unit by (apply byte_unit_ok; lia). cbn [is_eof].
    rewrite z_u8_small by lia.
    unfold utf8_extra_bytes.
    replace (192 + cp / 64 <? 192) with false by lia.
    replace (192 + cp / 64 <? 224) with true by lia.
    rewrite utf8_read_S by lia. rewrite utf8_read_O by lia. cbn [utf8_offset].
    unfold u32, u32_sub.
    match goal with |- (true, ?x, _) = _ => replace x with cp by lia end.
    replace (1114111 <? cp) with false by lia. reflexivity. }
  destruct (N.ltb_spec cp 65536).
  { apply some_inj in H; subst us. cbn [app].
    rewrite peek_unit by (apply byte_unit_ok; lia). cbn [is_eof].
    rewrite z_u8_small by lia.
    unfold utf8_extra_bytes.
    replace (224 + cp / 4096 <? 192) with false by lia.
    replace (224 + cp / 4096 <? 224) with false by lia.
    replace (224 + cp / 4096 <? 240) with true by lia.
    rewrite !utf8_read_S by lia. rewrite utf8_read_O by lia. cbn [utf8_offset].
    unfold u32, u32_sub.
    rewrite N.add_0_l.
    rewrite (N.mod_small (224 + cp / 4096)) by lia.
    rewrite (N.mod_small ((224 + cp / 4096) * 64)) by lia.
    rewrite (N.mod_small ((224 + cp / 4096) * 64 + _)) by lia.
    match goal with |- (true, ?x, _) = _ => replace x with cp by lia end.
    replace (1114111 <? cp) with false by lia. reflexivity. }
  destruct (N.ltb_spec cp 1114112); [|discriminate].
  apply some_inj in H; subst us. cbn [app].
  rewrite peek_unit by (apply byte_unit_ok; lia). cbn [is_eof].
  rewrite z_u8_small by lia.
  unfold utf8_extra_bytes.
  replace (240 + cp / 262144 <? 192) with false by lia.
  replace (240 + cp / 262144 <? 224) with false by lia.
  replace (240 + cp / 262144 <? 240) with false by lia.
  replace (240 + cp / 262144 <? 248) with true by lia.
  rewrite !utf8_read_S by lia. rewrite utf8_read_O by lia. cbn [utf8_offset].
  unfold u32, u32_sub. rewrite N.add_0_l.
  rewrite (N.mod_small (240 + cp / 262144)) by lia.
  rewrite (N.mod_small ((240 + cp / 262144) * 64)) by lia.
  rewrite (N.mod_small ((240 + cp / 262144) * 64 + _)) by lia.
  rewrite (N.mod_small (((240 + cp / 262144) * 64 + (128 + cp / 4096 mod 64)) * 64)) by lia.
  rewrite (N.mod_small (((240 + cp / 262144) * 64 + (128 + cp / 4096 mod 64)) * 64 + _)) by lia.
  match goal with |- (true, ?x, _) = _ => replace x with cp by lia end.
  replace (1114111 <? cp) with false by lia. reflexivity.
Qed.

Lemma utf16_decode_units : forall ck cp us r, ck_wide ck = true -> (cp <> 65535 \/ ck = C32) ->
  (cp < 55296 \/ 56319 < cp) -> units16 cp = Some us ->
  utf16_decode ck (mkIs (IStr (us ++ r)) false false) =
  (true, cp, mkIs (IStr r) false false).
Proof.
  intros ck cp us r Hck Hcp Hs H. unfold units16 in H. unfold utf16_decode.
  assert (Hu : forall x, x < 65535 -> unit_ok ck x)
    by (intros; destruct ck; try discriminate; unfold unit_ok, cksize; lia).
  destruct (N.ltb_spec cp 65536).
  { apply some_inj in H; subst us. cbn [app].
    rewrite get_unit by (destruct ck; try discriminate; unfold unit_ok; destruct Hcp; try discriminate; lia).
    cbn [is_eof]. rewrite z_u16_small by lia.
    unfold is_lead_surrogate.
    replace ((55296 <=? cp) && (cp <=? 56319)) with false by lia.
    replace (1114111 <? cp) with false by lia. reflexivity. }
  destruct (N.ltb_spec cp 1114112); [|discriminate].
  apply some_inj in H; subst us. cbn [app].
  rewrite get_unit by (apply Hu; lia).
  cbn [is_eof]. rewrite z_u16_small by lia.
  unfold is_lead_surrogate.
  replace ((55296 <=? 55296 + (cp - 65536) / 1024) && (55296 + (cp - 65536) / 1024 <=? 56319))
    with true by lia.
  rewrite get_unit by (apply Hu; lia).
  rewrite z_u16_small by lia.
  unfold is_trail_surrogate.
  replace ((56320 <=? 56320 + (cp - 65536) mod 1024) && (56320 + (cp - 65536) mod 1024 <=? 57343))
    with true by lia.
  rewrite decode_surrogates_eq by lia.
  replace (65536 + (55296 + (cp - 65536) / 1024 - 55296) * 1024 + (56320 + (cp - 65536) mod 1024 - 56320))
    with cp by lia.
  replace (1114111 <? cp) with false by lia. reflexivity.
Qed.

Lemma utf32_decode_units : forall cp us r, units32 cp = Some us ->
  utf32_decode C32 (mkIs (IStr (us ++ r)) false false) =
  (true, cp, mkIs (IStr r) false false).
Proof.
  intros cp us r H. unfold units32 in H. unfold utf32_decode.
  destruct (N.ltb_spec cp 1114112); [|discriminate].
  apply some_inj in H; subst us. cbn [app].
  rewrite get_unit by (cbn; lia). cbn [is_eof].
  rewrite z_u32_small by lia.
  replace (1114111 <? cp) with false by lia. reflexivity.
Qed.

(** ** RFC 3629 *)

Lemma utf8_seq_units : forall cp bs, utf8_seq cp bs <-> scalar cp /\ units8 cp = Some bs.
Proof.
  intros cp bs. split.
  - intro H. unfold scalar, units8. inversion H; subst; unfold cont in *; (split; [lia|]);
      repeat match goal with
      | |- context [?a <? ?b] => destruct (N.ltb_spec a b); try lia
      end; repeat f_equal; try lia.
  - intros [Hs H]. unfold scalar in Hs. unfold units8 in H.
    destruct (N.ltb_spec cp 128); [apply some_inj in H; subst bs; constructor; lia|].
    destruct (N.ltb_spec cp 2048).
    { apply some_inj in H; subst bs.
      replace cp with ((192 + cp / 64 - 192) * 64 + (128 + cp mod 64 - 128)) at 1 by lia.
      constructor; unfold cont; lia. }
    destruct (N.ltb_spec cp 65536).
    { apply some_inj in H; subst bs.
      destruct (N.ltb_spec cp 4096).
      { replace (224 + cp / 4096) with 224 by lia.
        replace cp with ((128 + cp / 64 mod 64 - 128) * 64 + (128 + cp mod 64 - 128)) at 1 by lia.
        constructor; unfold cont; lia. }
      destruct (N.eq_dec (cp / 4096) 13) as [E|E].
      { rewrite E. change (224 + 13) with 237.
        replace cp with (53248 + (128 + cp / 64 mod 64 - 128) * 64 + (128 + cp mod 64 - 128)) at 1 by lia.
        constructor; unfold cont; lia. }
      replace cp with ((224 + cp / 4096 - 224) * 4096 + (128 + cp / 64 mod 64 - 128) * 64
                       + (128 + cp mod 64 - 128)) at 1 by lia.
      constructor; unfold cont; lia. }
    destruct (N.ltb_spec cp 1114112); [|discriminate].
    apply some_inj in H; subst bs.
    destruct (N.eq_dec (cp / 262144) 0) as [E|E].
    { rewrite E. change (240 + 0) with 240.
      replace cp with ((128 + cp / 4096 mod 64 - 128) * 4096 + (128 + cp / 64 mod 64 - 128) * 64
                       + (128 + cp mod 64 - 128)) at 1 by lia.
      constructor; unfold cont; lia. }
    destruct (N.eq_dec (cp / 262144) 4) as [E4|E4].
    { rewrite E4. change (240 + 4) with 244.
      replace cp with (1048576 + (128 + cp / 4096 mod 64 - 128) * 4096
                       + (128 + cp / 64 mod 64 - 128) * 64 + (128 + cp mod 64 - 128)) at 1 by lia.
      constructor; unfold cont; lia. }
    replace cp with ((240 + cp / 262144 - 240) * 262144 + (128 + cp / 4096 mod 64 - 128) * 4096
                     + (128 + cp / 64 mod 64 - 128) * 64 + (128 + cp mod 64 - 128)) at 1 by lia.
    constructor; unfold cont; lia.
Qed.

Lemma utf16_seq_units : forall cp us, utf16_seq cp us <-> scalar cp /\ units16 cp = Some us.
Proof.
  intros cp us. split.
  - intro H. unfold scalar, units16. inversion H as [cp0 Hsc Hle|hi lo]; subst.
    + unfold scalar in Hsc. split; [lia|]. destruct (N.ltb_spec cp 65536); [reflexivity|lia].
    + split; [lia|].
      repeat match goal with
      | |- context [?a <? ?b] => destruct (N.ltb_spec a b); try lia
      end. repeat f_equal; lia.
  - intros [Hs H]. unfold units16 in H.
    destruct (N.ltb_spec cp 65536); [apply some_inj in H; subst us; constructor; [assumption|lia]|].
    destruct (N.ltb_spec cp 1114112); [|discriminate].
    apply some_inj in H; subst us.
    replace cp with (65536 + (55296 + (cp - 65536) / 1024 - 55296) * 1024
                     + (56320 + (cp - 65536) mod 1024 - 56320)) at 1 by lia.
    constructor; lia.
Qed.
