(** C60: other integer and float types than int64_t and double. *)
From Coq Require Import Lia ZifyBool ZifyNat ZifyN Floats.SpecFloat.
From Verif Require Import Base Stream Encoding Value Token Parser EncodingProofs Feeds SpecUnicode SpecGrammar
  SpecText SpecRfc Serializer SpecDump RoundTrip DumpMore NumType SpecNumType NumDump SpecNumRound NumLex NumParse NumInst NumParam NumIty NumRound SpecNumDump NumDumpText Cpp NumSingle SpecNumSingle NumSingleProofs.
Open Scope N_scope.

Notation text s := (chars s%string).
Notation reads_in t s := (n_parse_string (num_of t) cfg_json (text s)).

(** With int64_t and double the parser is that of Parser.v. *)
Theorem C60_int64 : forall cf h n c b,
  parse_ibuf cf h n (emb c) b = (emb (fst (n_parse_ibuf (num_of t_int64) cf h n c b)), snd (n_parse_ibuf (num_of t_int64) cf h n c b)).
Proof. exact n_int64. Qed.
Print Assumptions C60_int64.

Example C60_int64_case : let b := IStr (text "[-1, 2.5") in
  parse_ibuf cfg_json HNone 60 VNull b = (VArr [VInt (-1)%Z; VFloat (fmul (f64_of_Z 25) f64_tenth)], snd (n_parse_ibuf (num_of t_int64) cfg_json HNone 60 GNull b)) /\
  fst (n_parse_ibuf (num_of t_int64) cfg_json HNone 60 GNull b) = GArr [GInt (-1)%Z; GFloat (fmul (f64_of_Z 25) f64_tenth)].
Proof. split; vm_compute; reflexivity. Qed.

(** Whatever the arithmetic of the number types: accepted are the texts that
    say a document the literals of which have a meaning, and the value is that
    document with every literal computed in the types. *)
Theorem C60_reads : forall T cf s l t v, enc_ok (tgt_enc cf) (tgt_ck cf) = true -> feeds (src_enc cf) (src_ck cf) (is_open (IStr s)) l t ->
  (n_parse_string T cf s = Ret v <-> exists d rest, said cf l d rest /\ (t = TEof \/ rest <> []) /\ gives T d v).
Proof. exact n_string_iff. Qed.
Print Assumptions C60_reads.

Example C60_reads_case :
  reads_in t_int16 "{""a"": [-7, 2.5e1], ""b"": 40000, ""a"": 1}" = Ret (GObj [(text "a", GArr [GInt (-7)%Z; GFloat (f64_of_Z 25)]); (text "b", GInt (-25536)%Z)]).
Proof. vm_compute. reflexivity. Qed.

(** Types that are not signed and as wide as int have no overflow that is
    undefined. *)
Theorem C60_narrow : forall t, ~ wide t -> total (num_of t).
Proof. exact narrow_total. Qed.
Print Assumptions C60_narrow.

Example C60_narrow_case : i_step (num_of t_uint32) 4294967295%Z 9 = Ret 4294967295%Z /\ i_step (num_of t_int16) 32767%Z 9 = Ret (-1)%Z /\
  i_step (num_of t_int32) 2147483647%Z 9 = UB /\ wide t_int32 /\ ~ wide t_int16 /\ ~ wide t_uint64.
Proof. repeat split; try (vm_compute; reflexivity); try (vm_compute; discriminate); intros [A B]; vm_compute in A, B; congruence. Qed.

(** Number types without undefined overflow: every parse, of any text, with any
    handler and into any value, ends in the same way and with the same
    message, and the values left differ in their numbers only. *)
Theorem C60_same_end : forall T T', total T -> total T' -> forall cf h n c c' b, alike (fun _ _ => True) (fun _ _ => True) c c' ->
  alike (fun _ _ => True) (fun _ _ => True) (fst (n_parse_ibuf T cf h n c b)) (fst (n_parse_ibuf T' cf h n c' b)) /\
  snd (n_parse_ibuf T cf h n c b) = snd (n_parse_ibuf T' cf h n c' b).
Proof. exact totals. Qed.
Print Assumptions C60_same_end.

Example C60_same_end_case :
  n_parse_ibuf (num_of t_uint8) cfg_json HRecord 60 GNull (IStr (text "[300, -1, x")) =
    (GArr [GInt 44%Z; GInt 255%Z], (Ret tt, "value deserialization error: unexpected character '\u0078'"%string)) /\
  n_parse_ibuf (num_of t_uint64) cfg_json HRecord 60 GNull (IStr (text "[300, -1, x")) =
    (GArr [GInt 300%Z; GInt 18446744073709551615%Z], (Ret tt, "value deserialization error: unexpected character '\u0078'"%string)).
Proof. split; vm_compute; reflexivity. Qed.

(** Any of the types against integers without bound: undefined overflow, only
    possible for signed types as wide as int, or the same end and every
    integer modulo 2^bits. *)
Theorem C60_wraps : forall t, cpp_ity t -> forall cf h n c c' b, alike (fun z i => i = t_wrap t z) (fun _ _ => True) c c' ->
  (wide t /\ fst (snd (n_parse_ibuf (num_of t) cf h n c' b)) = UB) \/
  (alike (fun z i => i = t_wrap t z) (fun _ _ => True) (fst (n_parse_ibuf num_z cf h n c b)) (fst (n_parse_ibuf (num_of t) cf h n c' b)) /\
   snd (n_parse_ibuf num_z cf h n c b) = snd (n_parse_ibuf (num_of t) cf h n c' b)).
Proof. exact (fun t H => wraps t (cpp_sound t H)). Qed.
Print Assumptions C60_wraps.

Example C60_wraps_case :
  n_parse_string num_z cfg_json (text "[70000, 1, -40000]") = Ret (GArr [GInt 70000%Z; GInt 1%Z; GInt (-40000)%Z]) /\
  reads_in t_int16 "[70000, 1, -40000]" = Ret (GArr [GInt 4464%Z; GInt 1%Z; GInt 25536%Z]) /\ reads_in t_int32 "[70000, 99999999999" = UB.
Proof. repeat split; vm_compute; reflexivity. Qed.

(** [t_wrap] is the number within the type that is congruent. *)
Theorem C60_wrap_meaning : forall t z i, cpp_ity t ->
  (i = t_wrap t z <-> (t_min t <= i <= t_max t)%Z /\ exists k, z = (i + k * 2 ^ Z.of_N (t_bits t))%Z).
Proof. exact wrap_meaning. Qed.
Print Assumptions C60_wrap_meaning.

Example C60_wrap_case : t_wrap t_int8 200 = (-56)%Z /\ t_wrap t_uint8 (-1) = 255%Z /\ t_wrap t_int64 (2 ^ 63) = (- 2 ^ 63)%Z.
Proof. repeat split; vm_compute; reflexivity. Qed.

(** Integer literals: of a type that wraps, the number modulo 2^bits ... *)
Theorem C60_literal_wraps : forall t, cpp_ity t -> ~ wide t -> forall x v, l_int x ->
  (stands (num_of t) x v <-> v = GInt (t_wrap t (signed_decimal x))).
Proof. exact narrow_int. Qed.
Print Assumptions C60_literal_wraps.

(** ... of the others the number itself, if it is at most the greatest one, and
    undefined otherwise (also if it is the least one). *)
Theorem C60_literal_exact : forall t, cpp_ity t -> wide t -> forall x v, l_int x -> ascii_lit x ->
  (stands (num_of t) x v <-> (decimal x <= t_max t)%Z /\ v = GInt (signed_decimal x)).
Proof. exact wide_int. Qed.
Print Assumptions C60_literal_exact.

Example C60_literal_case :
  reads_in t_int32 "2147483647" = Ret (GInt 2147483647%Z) /\ reads_in t_int32 "2147483648" = UB /\
  reads_in t_int32 "-2147483647" = Ret (GInt (-2147483647)%Z) /\ reads_in t_int32 "-2147483648" = UB /\
  reads_in t_uint32 "-1" = Ret (GInt 4294967295%Z) /\ reads_in t_int16 "-32768" = Ret (GInt (-32768)%Z).
Proof. repeat split; vm_compute; reflexivity. Qed.

(** Texts all literals of which are within the type read as with integers
    without bound. *)
Theorem C60_fits : forall t cf s l e d rest, cpp_ity t -> enc_ok (tgt_enc cf) (tgt_ck cf) = true ->
  feeds (src_enc cf) (src_ck cf) (is_open (IStr s)) l e -> said cf l d rest -> (e = TEof \/ rest <> []) -> every (fits t) d ->
  exists v, n_parse_string num_z cf s = Ret v /\ n_parse_string (num_of t) cf s = Ret v.
Proof. exact fits_same. Qed.
Print Assumptions C60_fits.

Example C60_fits_case : forall t, t = t_int8 \/ t = t_uint8 \/ t = t_int16 \/ t = t_uint64 ->
  n_parse_string (num_of t) cfg_json (text "[100, 12.75, 7]") = n_parse_string num_z cfg_json (text "[100, 12.75, 7]").
Proof. intros t [->|[->|[->| ->]]]; vm_compute; reflexivity. Qed.

(** That floats do not depend on the integer type is false: the digits before
    the point go through it. *)
Theorem C60_float_refuted : ~ forall t t' cf s f f', cpp_ity t -> cpp_ity t' ->
  n_parse_string (num_of t) cf s = Ret (GFloat f) -> n_parse_string (num_of t') cf s = Ret (GFloat f') -> f = f'.
Proof. exact float_refuted. Qed.
Print Assumptions C60_float_refuted.

Example C60_float_case :
  reads_in t_uint32 "4294967297.5" = reads_in t_int64 "1.5" /\ reads_in t_int32 "3000000000.0" = UB.
Proof. split; vm_compute; reflexivity. Qed.

(** Where integers are printed in decimal the serializer is that of
    Serializer.v. *)
Theorem C60_dump : forall t cf v, by_number t cf -> n_dump_string t cf v = dump_string cf (emb v).
Proof. exact n_dump_string_same. Qed.
Print Assumptions C60_dump.

Example C60_dump_case : n_dump_string t_int8 (ser_cfg C8 C32 fmt_default []) (GArr [GInt (-5)%Z; GNull]) = Ret (text "[-5,null]") /\
  n_dump_string t_int8 (ser_cfg C8 C8 fmt_default []) (GArr [GInt 45%Z; GNull]) = Ret (text "[-,null]").
Proof. split; vm_compute; reflexivity. Qed.

(** The text is the rendering of SpecNumDump: integers in decimal, except that
    those of 8 bits become one unit of a stream of char. *)
Theorem C60_text : forall t cf v w, cpp_ity t -> enc_ok (out_enc cf) (out_ck cf) = true -> ints_in t v -> s_pretty cf = false ->
  (n_dump_string t cf v = Ret w <-> n_rend (n_int t cf) (unit_string cf) (float_text (s_ff cf) (s_prec cf)) compact 0 v w).
Proof. intros. apply n_compact; assumption. Qed.
Print Assumptions C60_text.
Theorem C60_text_indented : forall t cf v w, cpp_ity t -> enc_ok (out_enc cf) (out_ck cf) = true -> ints_in t v ->
  s_pretty cf = true -> s_ichar cf <> 0 -> n_height v < 65536 ->
  (n_dump_string t cf v = Ret w <->
   n_rend (n_int t cf) (unit_string cf) (float_text (s_ff cf) (s_prec cf)) (indented (s_step cf) (s_ichar cf)) 0 v w).
Proof. intros. apply n_pretty; assumption. Qed.
Print Assumptions C60_text_indented.

Example C60_text_case : n_dump_string t_int8 (ser_cfg C8 C8 fmt_default []) (GArr [GInt 65%Z; GInt (-1)%Z; GBool true]) = Ret [91; 65; 44; 255; 44; 116; 114; 117; 101; 93] /\
  n_int t_int8 (ser_cfg C8 C8 fmt_default []) (-1) [255].
Proof.
  split; [vm_compute; reflexivity|]. apply ni_byte; [intros [X|X]; [vm_compute in X; discriminate|apply X; reflexivity]|]. apply (by_neg 255). lia.
Qed.

(** Values with integers within the type and with integral floats of a size
    within the type come back. *)
Theorem C60_round_trip : forall t pc cf v, cpp_ity t -> by_number t cf -> reads pc cf ->
  enc_ok (out_enc cf) (out_ck cf) = true -> enc_ok (val_enc cf) (val_ck cf) = true ->
  wide_out cf -> (out_enc cf = Ignore -> s_esc cf = true) -> blank_indent cf -> plain_val t cf v ->
  exists w, n_dump_string t cf v = Ret w /\ n_parse_string (num_of t) pc w = Ret v.
Proof. exact n_round_all. Qed.
Print Assumptions C60_round_trip.

Notation dumped t v := (n_dump_string t (ser_cfg C8 C8 fmt_default []) v).
Example C60_round_trip_case :
  dumped t_uint64 (GArr [GInt 18446744073709551615%Z; GStr (text "x")]) = Ret (text "[18446744073709551615,""x""]") /\
  reads_in t_uint64 "[18446744073709551615,""x""]" = Ret (GArr [GInt 18446744073709551615%Z; GStr (text "x")]) /\
  dumped t_int16 (GArr [GInt (-32768)%Z; GFloat (f64_of_Z (-32767))]) = Ret (text "[-32768,-32767.0]") /\
  reads_in t_int16 "[-32768,-32767.0]" = Ret (GArr [GInt (-32768)%Z; GFloat (f64_of_Z (-32767))]).
Proof. repeat split; vm_compute; reflexivity. Qed.

(** The least integer of a signed type as wide as int does not. *)
Theorem C60_least_refuted : ~ forall t cf pc v w, cpp_ity t -> by_number t cf -> reads pc cf -> blank_indent cf ->
  (exists z, v = GInt z /\ (t_min t <= z <= t_max t)%Z) -> n_dump_string t cf v = Ret w -> n_parse_string (num_of t) pc w = Ret v.
Proof. exact least_refuted. Qed.
Print Assumptions C60_least_refuted.

(** Nor do integral floats beyond the integer type, nor, on a stream of char,
    the integers of a type of 8 bits. *)
Theorem C60_integral_refuted : exists w, dumped t_int32 (GFloat (f64_of_Z 3000000000)) = Ret w /\ n_parse_string (num_of t_int32) cfg_json w = UB.
Proof. exact integral_refuted. Qed.
Print Assumptions C60_integral_refuted.
Theorem C60_char_refuted : exists w, dumped t_int8 (GInt 5%Z) = Ret w /\ n_parse_string (num_of t_int8) cfg_json w <> Ret (GInt 5%Z).
Proof. exact char_refuted. Qed.
Print Assumptions C60_char_refuted.

Example C60_char_case : dumped t_uint8 (GArr [GInt 65%Z; GInt 66%Z]) = Ret (text "[A,B]") /\ reads_in t_uint8 "[A,B]" <> Ret (GArr [GInt 65%Z; GInt 66%Z]).
Proof. split; [|intro H]; vm_compute in *; [reflexivity|discriminate]. Qed.

(** float as float_type: integers, strings, the end and its message are those
    with double, for every input, handler and value parsed into. *)
Theorem C60_single : forall t cf h n c c' b, alike eq (fun _ _ => True) c c' ->
  alike eq (fun _ _ => True) (fst (n_parse_ibuf (num_of t) cf h n c b)) (fst (n_parse_ibuf (num_single t) cf h n c' b)) /\
  snd (n_parse_ibuf (num_of t) cf h n c b) = snd (n_parse_ibuf (num_single t) cf h n c' b).
Proof. exact s_alike. Qed.
Print Assumptions C60_single.

Notation as_single s := (n_parse_string (num_single t_int64) cfg_json (text s)).
Example C60_single_case : as_single "[1, 2.5, -0.1e1]" = Ret (GArr [GInt 1%Z; GFloat (S754_finite false 10485760 (-22)); GFloat (S754_finite true 8388608 (-23))]) /\
  as_single "16777217.0" = Ret (GFloat (s_of_Z 16777216)) /\ as_single "1e39" = Ret (GFloat (S754_infinity false)) /\ as_single "[1.5" = as_single "[2.5" /\
  as_single "0.1" = Ret (GFloat (S754_finite false 13421773 (-27))).
Proof. repeat split; vm_compute; reflexivity. Qed.

(** Values with integral floats come back. *)
Theorem C60_single_round_trip : forall t pc cf v, cpp_ity t -> by_number t cf -> reads pc cf ->
  enc_ok (out_enc cf) (out_ck cf) = true -> enc_ok (val_enc cf) (val_ck cf) = true ->
  wide_out cf -> (out_enc cf = Ignore -> s_esc cf = true) -> blank_indent cf -> plain_single t cf v ->
  exists w, s_dump_string t cf v = Ret w /\ n_parse_string (num_single t) pc w = Ret v.
Proof. exact s_round_all. Qed.
Print Assumptions C60_single_round_trip.

Notation dumped_single t v := (s_dump_string t (ser_cfg C8 C8 fmt_default []) v).
Example C60_single_round_trip_case :
  dumped_single t_int64 (GArr [GFloat (s_of_Z 16777217); GFloat (s_of_Z (-3)); GInt 7%Z]) = Ret (text "[16777216.0,-3.0,7]") /\
  as_single "[16777216.0,-3.0,7]" = Ret (GArr [GFloat (s_of_Z 16777217); GFloat (s_of_Z (-3)); GInt 7%Z]) /\
  dumped_single t_int64 (GFloat (SFdiv 24 128 (s_of_Z 1) (s_of_Z 8))) = Ret (text "0.125").
Proof. repeat split; vm_compute; reflexivity. Qed.

(** A float is not the double of the same text, rounded: "3.14" is one unit in
    the last place below. *)
Theorem C60_single_rounds_refuted : ~ forall t pc s f g,
  n_parse_string (num_of t) pc s = Ret (GFloat f) -> n_parse_string (num_single t) pc s = Ret (GFloat g) -> g = to_single f.
Proof. exact single_rounds_refuted. Qed.
Print Assumptions C60_single_rounds_refuted.

(** Nor do all floats with a fraction come back: 0.9f is dumped as 0.9, and that
    is read as the next float. *)
Theorem C60_single_fraction_refuted : ~ forall t pc cf f w, cpp_ity t -> by_number t cf -> reads pc cf -> blank_indent cf -> valid_binary 24 128 f = true ->
  s_dump_string t cf (GFloat f) = Ret w -> n_parse_string (num_single t) pc w = Ret (GFloat f).
Proof. exact single_fraction_refuted. Qed.
Print Assumptions C60_single_fraction_refuted.

Example C60_single_fraction_case : let f := SFdiv 24 128 (s_of_Z 9) (s_of_Z 10) in
  f = S754_finite false 15099494 (-24) /\ dumped_single t_int64 (GFloat f) = Ret (text "0.9") /\ as_single "0.9" = Ret (GFloat (S754_finite false 15099495 (-24))).
Proof. repeat split; vm_compute; reflexivity. Qed.
