(** C01-C05: the Unicode codecs. *)
From Verif Require Import Base Stream Encoding SpecUnicode Feeds EncodingFacts.

(** C01.  Any code point up to U+10FFFF written in UTF-8 is read back, with
    exactly its bytes consumed and the stream good; larger numbers write
    nothing and fail the stream. *)
Theorem C01_utf8_roundtrip : forall ck cp out rest cur, cp <= 1114111 ->
  exists us, us <> [] /\ (length us <= 4)%nat /\
    encode Utf8 ck (mkOs out false) cp = mkOs (out ++ us) false /\
    decode Utf8 ck (is_open (IStr (us ++ rest))) cur = (true, cp, is_open (IStr rest)).
Proof. exact utf8_rt. Qed.
Print Assumptions C01_utf8_roundtrip.

Example C01_case : encode Utf8 C8 (mkOs [34] false) 128512 = mkOs [34; 240; 159; 152; 128] false /\
  decode Utf8 C8 (is_open (IStr [240; 159; 152; 128; 34])) 7 = (true, 128512, is_open (IStr [34])).
Proof. vm_compute. auto. Qed.

Theorem C01_utf8_too_big : forall ck cp out, 1114111 < cp ->
  encode Utf8 ck (mkOs out false) cp = mkOs out true.
Proof. exact utf8_big. Qed.
Print Assumptions C01_utf8_too_big.

Example C01_big_case : 1114111 < 1114112 /\ encode Utf8 C8 (mkOs [65] false) 1114112 = mkOs [65] true.
Proof. vm_compute. auto. Qed.

(** C02.  UTF-16 (16- and 32-bit units) and UTF-32. *)
Theorem C02_utf16_roundtrip : forall ck cp out rest cur, ck <> C8 -> scalar cp -> (cp = 65535 -> ck = C32) ->
  exists us, utf16_seq cp us /\
    encode Utf16 ck (mkOs out false) cp = mkOs (out ++ us) false /\
    decode Utf16 ck (is_open (IStr (us ++ rest))) cur = (true, cp, is_open (IStr rest)).
Proof. exact utf16_rt. Qed.
Print Assumptions C02_utf16_roundtrip.

Example C02_case : C16 <> C8 /\ scalar 65536 /\ (65536 = 65535 -> C16 = C32) /\
  encode Utf16 C16 (mkOs [] false) 65536 = mkOs [55296; 56320] false.
Proof. repeat split; try discriminate; unfold scalar. right; split; discriminate. Qed.

(** The hypothesis on U+FFFF is needed: with 16-bit units it is the stream's
    end-of-file value, and writing it fails. *)
Theorem C02_utf16_ffff_refuted : exists cp, scalar cp /\
  os_fail (encode Utf16 C16 (mkOs [] false) cp) = true.
Proof. exists 65535. split; [right; split; discriminate|reflexivity]. Qed.
Print Assumptions C02_utf16_ffff_refuted.

Theorem C02_utf32_roundtrip : forall cp out rest cur, cp <= 1114111 ->
    encode Utf32 C32 (mkOs out false) cp = mkOs (out ++ [cp]) false /\
    decode Utf32 C32 (is_open (IStr (cp :: rest))) cur = (true, cp, is_open (IStr rest)).
Proof. exact utf32_rt. Qed.
Print Assumptions C02_utf32_roundtrip.

Example C02_case32 : decode Utf32 C32 (is_open (IStr [128512; 65])) 0 = (true, 128512, is_open (IStr [65])).
Proof. reflexivity. Qed.

(** A lead surrogate followed by anything but a trail surrogate, or by
    nothing, fails the stream. *)
Theorem C02_utf16_lone_lead : forall ck lead rest cur, ck <> C8 -> 55296 <= lead <= 56319 ->
  match rest with u :: _ => u < 56320 \/ 57343 < u /\ u < 65535 | [] => True end ->
  exists c i, decode Utf16 ck (is_open (IStr (lead :: rest))) cur = (true, c, i) /\ is_fail i = true.
Proof. exact utf16_lone. Qed.
Print Assumptions C02_utf16_lone_lead.

Example C02_lone_case : is_fail (snd (decode Utf16 C16 (is_open (IStr [55296; 65])) 0)) = true.
Proof. reflexivity. Qed.

(** C03.  For scalar values the encoder writes the one RFC 3629 sequence. *)
Theorem C03_utf8_wellformed : forall ck cp out, scalar cp ->
  exists bs, utf8_seq cp bs /\ encode Utf8 ck (mkOs out false) cp = mkOs (out ++ bs) false /\
    (forall bs', utf8_seq cp bs' -> bs' = bs).
Proof. exact utf8_shortest. Qed.
Print Assumptions C03_utf8_wellformed.

Example C03_case : scalar 8364 /\ utf8_seq 8364 [226; 130; 172] /\
  encode Utf8 C8 (mkOs [] false) 8364 = mkOs [226; 130; 172] false.
Proof.
  split; [left; reflexivity|]. split; [|reflexivity].
  apply (u8_3 226 130 172); [left|split|split]; try split; discriminate.
Qed.

(** C04.  Arbitrary bytes: an error, or a code point up to U+10FFFF with as
    many bytes consumed as the first one announces; end of input only when
    nothing is left. *)
Theorem C04_utf8_decode_any : forall ck b s cur, Forall (fun b => b < 256) (b :: s) ->
  exists c i, decode Utf8 ck (is_open (IStr (b :: s))) cur = (true, c, i) /\
    (is_fail i = true \/
     (c <= 1114111 /\ (announced b <= S (length s))%nat /\
      i = is_open (IStr (skipn (announced b) (b :: s))))).
Proof. exact utf8_decode_step. Qed.
Print Assumptions C04_utf8_decode_any.

Theorem C04_utf8_truncated : forall ck b s cur, Forall (fun b => b < 256) (b :: s) ->
  (length (b :: s) < announced b)%nat ->
  exists c i, decode Utf8 ck (is_open (IStr (b :: s))) cur = (true, c, i) /\ is_fail i = true.
Proof. exact utf8_decode_cut. Qed.
Print Assumptions C04_utf8_truncated.

(** [announced] is the length of every well-formed sequence with that first byte. *)
Theorem C04_announced : forall cp b bs, utf8_seq cp (b :: bs) -> announced b = S (length bs).
Proof. exact utf8_seq_announced. Qed.
Print Assumptions C04_announced.

Example C04_case : Forall (fun b => b < 256) [226; 130] /\ (length [226; 130] < announced 226)%nat /\
  is_fail (snd (decode Utf8 C8 (is_open (IStr [226; 130])) 0)) = true.
Proof. split; [repeat constructor|]. split; [vm_compute; repeat constructor|reflexivity]. Qed.

(** Well-formed text decodes to its code points, then to end of input. *)
Theorem C04_utf8_text : forall ck cps s, utf8_text cps s ->
  feeds Utf8 ck (is_open (IStr s)) cps TEof.
Proof. exact feeds_utf8_text. Qed.
Print Assumptions C04_utf8_text.

Example C04_text_case : utf8_text [65; 8364] [65; 226; 130; 172].
Proof.
  apply (u8t_cons 65 [65]); [apply u8_1; discriminate|].
  apply (u8t_cons 8364 [226; 130; 172] [] []); [|constructor].
  apply (u8_3 226 130 172); [left|split|split]; try split; discriminate.
Qed.

(** Ill-formed text is not always rejected: an overlong form, a surrogate, a
    wrong continuation byte. *)
Theorem C04_utf8_strict_refuted :
  exists s cp, (forall cp', ~ utf8_seq cp' s) /\
    decode Utf8 C8 (is_open (IStr s)) 0 = (true, cp, is_open (IStr [])).
Proof.
  exists [192; 175], 47. split; [|reflexivity].
  intros cp' H. inversion H; subst.
  match goal with X : 194 <= 192 |- _ => exact (X eq_refl) end.
Qed.
Print Assumptions C04_utf8_strict_refuted.

(** C05.  Surrogate arithmetic. *)
Theorem C05_surrogates_split : forall cp, 65536 <= cp <= 1114111 ->
  let '(hi, lo) := encode_surrogates cp in
  (55296 <= hi <= 56319) /\ (56320 <= lo <= 57343) /\ decode_surrogates hi lo = cp.
Proof. exact surr_split. Qed.
Print Assumptions C05_surrogates_split.

Theorem C05_surrogates_join : forall hi lo, 55296 <= hi <= 56319 -> 56320 <= lo <= 57343 ->
  65536 <= decode_surrogates hi lo <= 1114111 /\
  decode_surrogates hi lo = 65536 + (hi - 55296) * 1024 + (lo - 56320) /\
  encode_surrogates (decode_surrogates hi lo) = (hi, lo).
Proof. exact surr_join. Qed.
Print Assumptions C05_surrogates_join.

Example C05_case : encode_surrogates 128512 = (55357, 56832) /\ decode_surrogates 55357 56832 = 128512.
Proof. split; reflexivity. Qed.

(** The units classified as surrogates are those that occur in pairs. *)
Theorem C05_classes : forall u,
  (is_lead_surrogate u = true <-> exists cp, 65536 <= cp <= 1114111 /\ fst (encode_surrogates cp) = u) /\
  (is_trail_surrogate u = true <-> exists cp, 65536 <= cp <= 1114111 /\ snd (encode_surrogates cp) = u).
Proof. exact surr_classes. Qed.
Print Assumptions C05_classes.
