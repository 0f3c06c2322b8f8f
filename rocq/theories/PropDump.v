(** C18-C28: what json::dump writes, when it fails, what is read back, error
    policies and what a failing parse leaves behind. *)
From Coq Require Import Lia Floats.SpecFloat.
From Verif Require Import Base Stream Encoding Value Token Message Parser FloatFmt Serializer Feeds
  SpecUnicode SpecGrammar SpecText SpecRfc SpecDump SpecPartial
  DumpFacts RoundTrip DumpFail DumpMore OptionFacts SpecReal RealText Echo PartialProofs.
Open Scope N_scope.

Notation text s := (chars s%string).

(** C18.  Compact output is the rendering [rend] with the layout [compact]. *)
Theorem C18_compact : forall cf v w, enc_ok (out_enc cf) (out_ck cf) = true -> s_pretty cf = false ->
  (dump_string cf v = Ret w <-> rend (unit_string cf) (float_text (s_ff cf) (s_prec cf)) compact 0 v w).
Proof. exact (fun cf v w Hok P => compact_iff cf Hok v w P). Qed.
Print Assumptions C18_compact.

Example C18_case : dump_json [] (VObj [(text "a", VArr [VInt (-5); VNull; VFloat (f64_of_Z 2)]); (text "b""", VBool true)]) =
  Ret (text "{""a"":[-5,null,2.0],""b\"""":true}").
Proof. vm_compute. reflexivity. Qed.

(** C19.  Indented output, for nesting below 65536 and in general. *)
Theorem C19_pretty : forall cf v w, enc_ok (out_enc cf) (out_ck cf) = true -> s_pretty cf = true -> s_ichar cf <> 0 -> height v < 65536 ->
  (dump_string cf v = Ret w <->
   rend (unit_string cf) (float_text (s_ff cf) (s_prec cf)) (indented (s_step cf) (s_ichar cf)) 0 v w).
Proof. exact (fun cf v w Hok P C L => pretty_iff cf Hok v w P C L). Qed.
Print Assumptions C19_pretty.

Theorem C19_any_depth : forall cf v w, enc_ok (out_enc cf) (out_ck cf) = true -> s_pretty cf = true -> s_ichar cf <> 0 ->
  (dump_string cf v = Ret w <->
   rend (unit_string cf) (float_text (s_ff cf) (s_prec cf))
     (mkLay [10] (fun d => repeat (s_ichar cf) (N.to_nat (d mod 65536 * s_step cf))) [s_ichar cf]) 0 v w).
Proof. exact deep_iff. Qed.
Print Assumptions C19_any_depth.

(** The indent character NUL writes no indentation but a NUL after colons. *)
Theorem C19_nul_indent : forall cf v w, enc_ok (out_enc cf) (out_ck cf) = true -> s_pretty cf = true -> s_ichar cf = 0 ->
  (dump_string cf v = Ret w <->
   rend (unit_string cf) (float_text (s_ff cf) (s_prec cf)) (mkLay [10] (fun _ => []) [0]) 0 v w).
Proof. exact nul_indent_iff. Qed.
Print Assumptions C19_nul_indent.

Example C19_case : dump_json [OIndent 2 32] (VObj [(text "a", VArr [VInt 1; VInt 2]); (text "b", VObj [])]) =
  Ret (text "{
  ""a"": [
    1,
    2
  ],
  ""b"": {
  }
}").
Proof. vm_compute. reflexivity. Qed.

(** Which layout, escaping, number format and encodings are in force: the last
    option of its kind decides, else the stream's attributes and the default
    encodings of the character types. *)
Theorem C19_options : forall vck ock f opts, let cf := ser_cfg vck ock f opts in
  chosen says_indent (0 <? f_width f, Z.to_N (f_width f mod 256), f_fill f)%Z opts (s_pretty cf, s_step cf, s_ichar cf) /\
  chosen says_escape false opts (s_esc cf) /\
  (exists ff, chosen says_precision (f_prec f, f_ff f) opts (s_prec cf, ff) /\ s_ff cf = match ff with FHex => FGeneral | _ => ff end) /\
  chosen says_source (auto_enc vck) opts (val_enc cf) /\
  chosen says_target (auto_enc ock) opts (out_enc cf) /\ val_ck cf = vck /\ out_ck cf = ock.
Proof. exact options. Qed.
Print Assumptions C19_options.

Example C19_options_case : dump_json [OIndent 2 32; OEscape true; OIndent 1 9] (VArr [VStr [195; 169]]) = Ret (91 :: 10 :: 9 :: text """\uE9""" ++ [10; 93]).
Proof. vm_compute. reflexivity. Qed.

(** C20.  What is written reads back as the same value. *)
Theorem C20_round_trip : forall pc cf v w, reads pc cf ->
  enc_ok (out_enc cf) (out_ck cf) = true -> enc_ok (val_enc cf) (val_ck cf) = true ->
  (out_enc cf = Ignore -> s_esc cf = true) -> blank_indent cf ->
  ok_value plain cf v -> dump_string cf v = Ret w -> parse_string pc w = Ret v.
Proof. exact round_trip. Qed.
Print Assumptions C20_round_trip.

Theorem C20_round_trip_all : forall pc cf v, reads pc cf ->
  enc_ok (out_enc cf) (out_ck cf) = true -> enc_ok (val_enc cf) (val_ck cf) = true -> wide_out cf ->
  (out_enc cf = Ignore -> s_esc cf = true) -> blank_indent cf ->
  ok_value plain cf v -> exists w, dump_string cf v = Ret w /\ parse_string pc w = Ret v.
Proof. exact round_trip_all. Qed.
Print Assumptions C20_round_trip_all.

Theorem C20_json : forall opts v, Forall plain_opt opts -> ok_value plain (ser_cfg C8 C8 fmt_default opts) v ->
  exists w, dump_json opts v = Ret w /\ parse_string cfg_json w = Ret v.
Proof. exact round_trip_json. Qed.
Print Assumptions C20_json.

Example C20_case :
  let v := VObj [([], VArr [VInt (-9223372036854775807); VFloat (S754_finite true 4503599627370497 1)]);
                 ([228; 184; 173; 10], VStr [240; 159; 152; 128])] in
  exists w, dump_json [OIndent 3 9; OEscape true] v = Ret w /\ parse_string cfg_json w = Ret v.
Proof. cbv zeta. eexists. split; [vm_compute; reflexivity|vm_compute; reflexivity]. Qed.

(** With arbitrary finite numbers: what is read back is the same value, each
    number of floating type replaced by the number its text denotes (the text
    itself is given by C24). *)
Theorem C20_any_float : forall pc cf v, reads pc cf ->
  enc_ok (out_enc cf) (out_ck cf) = true -> enc_ok (val_enc cf) (val_ck cf) = true -> wide_out cf ->
  (out_enc cf = Ignore -> s_esc cf = true) -> blank_indent cf -> ok_value_but finite_float plain cf v ->
  exists w v', dump_string cf v = Ret w /\ echo (number_read plain (s_ff cf) (s_prec cf)) v v' /\ parse_string pc w = Ret v'.
Proof. exact reads_echo_all. Qed.
Print Assumptions C20_any_float.

(** 0.1 comes back as itself, 1/3 as 0.333333 and 123456.5 as the integer 123456 *)
Example C20_any_case :
  let third := S754_finite false 6004799503160661 (-54) in
  let v := VArr [VFloat (S754_finite false 7205759403792794 (-56)); VObj [(text "k", VFloat third)];
                 VFloat (S754_finite false 8483866079657984 (-36))] in
  exists w f, dump_json [] v = Ret w /\ w = text "[0.1,{""k"":0.333333},123456]" /\
    parse_string cfg_json w = Ret (VArr [VFloat (S754_finite false 7205759403792794 (-56)); VObj [(text "k", VFloat f)]; VInt 123456]) /\
    f <> third /\ finite_float third.
Proof.
  cbv zeta. eexists _, _. split; [vm_compute; reflexivity|]. split; [reflexivity|]. split; [vm_compute; reflexivity|].
  split; [discriminate|]. split; [reflexivity|]. split; [discriminate|]. split; [discriminate|]. intros n H. cbn in H. lia.
Qed.

(** C21.  dump succeeds iff no string or float of the value is bad; otherwise
    the first bad one decides: a string throws, a float is undefined. *)
Theorem C21_succeeds_iff : forall cf v, enc_ok (out_enc cf) (out_ck cf) = true ->
  ((exists w, dump_string cf v = Ret w) <-> Forall (fun l => ~ bad_leaf cf l) (leaves v)).
Proof. exact (fun cf v Hok => dump_returns cf Hok v). Qed.
Print Assumptions C21_succeeds_iff.

Theorem C21_first_bad : forall cf v pre l post, enc_ok (out_enc cf) (out_ck cf) = true ->
  leaves v = pre ++ l :: post -> Forall (fun l => ~ bad_leaf cf l) pre -> bad_leaf cf l ->
  match l with
  | LStr _ => exists m, dump_string cf v = Throw (ESer m)
  | LFloat _ => dump_string cf v = UB
  end.
Proof. exact (fun cf v pre l post Hok => dump_first cf Hok v pre l post). Qed.
Print Assumptions C21_first_bad.

Theorem C21_throws_iff : forall cf v, enc_ok (out_enc cf) (out_ck cf) = true ->
  (forall f, In (LFloat f) (leaves v) -> ~ bad_leaf cf (LFloat f)) ->
  ((exists e, dump_string cf v = Throw e) <-> exists s, In (LStr s) (leaves v) /\ bad_leaf cf (LStr s)).
Proof. exact (fun cf v Hok => dump_throws_iff cf Hok v). Qed.
Print Assumptions C21_throws_iff.

Example C21_case :
  dump_json [] (VArr [VStr (text "ok"); VStr [97; 255]; VFloat (S754_infinity false)]) = Throw (ESer "unexpected character '\u4104103F'") /\
  dump_json [] (VArr [VStr (text "ok"); VFloat (S754_infinity false); VStr [97; 255]]) = UB.
Proof. vm_compute. split; reflexivity. Qed.

(** The English claim that only undecodable strings throw is false: a target
    encoding may lack the character, here U+FFFF in 16-bit units. *)
Theorem C21_undecodable_only_refuted :
  utf8_text [65535] [239; 191; 191] /\
  dump_string (ser_cfg C8 C16 fmt_default []) (VStr [239; 191; 191]) = Throw (ESer "encoding failed with codepoint '\uFFFF'").
Proof. exact unencodable_case. Qed.
Print Assumptions C21_undecodable_only_refuted.

(** C22.  Escaped output is printable ASCII, also what was written before a
    failure. *)
Theorem C22_printable : forall cf h v, enc_ok (out_enc cf) (out_ck cf) = true -> s_esc cf = true -> 32 <= s_ichar cf <= 126 ->
  Forall (fun c => 32 <= c <= 126 \/ (s_pretty cf = true /\ c = 10)) (fst (dump_to cf h (mkOs [] false) v)).
Proof. exact dump_printable. Qed.
Print Assumptions C22_printable.

Example C22_case : dump_json [OEscape true] (VStr [240; 159; 152; 128; 10; 228; 184; 173]) = Ret (text """\uD83D\uDE00\n\u4E2D""").
Proof. vm_compute. reflexivity. Qed.

(** C23.  Output is an RFC 8259 text of the value ([any]: without exceptions). *)
Theorem C23_rfc : forall cf v w, enc_ok (out_enc cf) (out_ck cf) = true -> enc_ok (val_enc cf) (val_ck cf) = true ->
  blank_indent cf -> ok_value any cf v -> dump_string cf v = Ret w ->
  exists L, rfc_text any (val_enc cf) (val_ck cf) L v /\ out_text (out_enc cf) (out_ck cf) L = Some w.
Proof. exact dump_is_rfc. Qed.
Print Assumptions C23_rfc.

Theorem C23_any_float : forall cf v w, enc_ok (out_enc cf) (out_ck cf) = true -> enc_ok (val_enc cf) (val_ck cf) = true ->
  blank_indent cf -> ok_value_but finite_float any cf v -> dump_string cf v = Ret w ->
  exists L v', echo (number_read any (s_ff cf) (s_prec cf)) v v' /\ rfc_text any (val_enc cf) (val_ck cf) L v' /\
    out_text (out_enc cf) (out_ck cf) L = Some w.
Proof. exact dump_json_any. Qed.
Print Assumptions C23_any_float.

(** Other control characters get two hexadecimal digits, which is not JSON. *)
Theorem C23_control_refuted :
  dump_json [] (VStr [1]) = Ret (text """\u01""") /\ forall v, ~ rfc_text any Utf8 C8 (text """\u01""") v.
Proof. exact control_not_rfc. Qed.
Print Assumptions C23_control_refuted.

(** ... and can be JSON for another string. *)
Theorem C23_control_changes_refuted :
  dump_json [] (VStr [1; 97; 98]) = Ret (text """\u01ab""") /\
  parse_string cfg_json (text """\u01ab""") = Ret (VStr [198; 171]).
Proof. vm_compute. split; reflexivity. Qed.
Print Assumptions C23_control_changes_refuted.

Example C23_case : ok_value any (ser_cfg C8 C8 fmt_default []) (VArr [VStr (text "a
b"); VInt (-9223372036854775808)]).
Proof. exact ok_case. Qed.

(** C24.  Floats. *)
Theorem C24_integral : forall cf f z, enc_ok (out_enc cf) (out_ck cf) = true -> is_int f z -> int64 z ->
  exists w, int_text z w /\ dump_string cf (VFloat f) = Ret (w ++ [46; 48]).
Proof. exact dump_int_float. Qed.
Print Assumptions C24_integral.

Theorem C24_undefined_iff : forall cf f, enc_ok (out_enc cf) (out_ck cf) = true ->
  (dump_string cf (VFloat f) = UB <-> (exists s, f = S754_infinity s) \/ exists z, is_int f z /\ ~ int64 z).
Proof. exact dump_big_float. Qed.
Print Assumptions C24_undefined_iff.

(** Other finite numbers: the text that the C standard prescribes for %f, %e or
    %g and the precision (SpecReal.v), over the rationals. *)
Theorem C24_fraction : forall cf s m e w, enc_ok (out_enc cf) (out_ck cf) = true -> bounded 53 1024 m e = true ->
  (forall z, ~ is_int (S754_finite s m e) z) ->
  (dump_string cf (VFloat (S754_finite s m e)) = Ret w <->
   exists u, w = (if s then [45] else []) ++ u /\ real_text (s_ff cf) (s_prec cf) (mag m e) u).
Proof. exact dump_real. Qed.
Print Assumptions C24_fraction.

(** The same for every number, as used in [float_text] above. *)
Theorem C24_format : forall ff prec s m e w, bounded 53 1024 m e = true ->
  (fmt_float ff prec (S754_finite s m e) = w <-> exists u, w = (if s then [45] else []) ++ u /\ real_text ff prec (mag m e) u).
Proof. exact float_iff. Qed.
Print Assumptions C24_format.

(** 0.00009999995 rounds up to a shorter exponent; 999999.5 and 1e-5 in %g *)
Example C24_format_case :
  dump_json [] (VFloat (S754_finite false 7378693992572063 (-66))) = Ret (text "0.0001") /\
  dump_json [] (VFloat (S754_finite false (1999999 * 2 ^ 32) (-33))) = Ret (text "1e+06") /\
  dump_json [] (VFloat (S754_finite false (123456 * 2 ^ 36 + 1) (-36))) = Ret (text "123456") /\
  dump_json [OPrecision 2 FSci] (VFloat (S754_finite false 1 (-1074))) = Ret (text "4.94e-324") /\
  dump_json [OPrecision 0 FFixed] (VFloat (S754_finite true 5 (-1))) = Ret (text "-2").
Proof. vm_compute. repeat split; reflexivity. Qed.

Theorem C24_reads_back : forall f, ok_float f -> exists w, dump_json [] (VFloat f) = Ret w /\ parse_string cfg_json w = Ret (VFloat f).
Proof. exact float_back. Qed.
Print Assumptions C24_reads_back.

Example C24_case : dump_json [] (VFloat (S754_finite true 4503599627370499 1)) = Ret (text "-9007199254740998.0") /\
  dump_json [OPrecision 3 FFixed] (VFloat (S754_finite false 5629499534213120 (-52))) = Ret (text "1.250").
Proof. vm_compute. split; reflexivity. Qed.

(** 123456.5 is read back as the integer 123456; NaN is not read back; -0.0 is
    read back as 0.0; -2^63 is not read back. *)
Theorem C24_exact_refuted :
  (exists w, dump_json [] (VFloat (S754_finite false (246913 * 2 ^ 35) (-36))) = Ret w /\ parse_string cfg_json w = Ret (VInt 123456)) /\
  (exists w m, dump_json [] (VFloat S754_nan) = Ret w /\ parse_string cfg_json w = Throw (EDeser m)) /\
  (exists w, dump_json [] (VFloat (S754_zero true)) = Ret w /\ parse_string cfg_json w = Ret (VFloat (S754_zero false))) /\
  (exists w, dump_json [] (VFloat (S754_finite true (2 ^ 52) 11)) = Ret w /\ parse_string cfg_json w = UB).
Proof. repeat split; repeat eexists; vm_compute; reflexivity. Qed.
Print Assumptions C24_exact_refuted.

(** C25.  Different values have different texts. *)
Theorem C25_injective : forall cf v v' w, enc_ok (out_enc cf) (out_ck cf) = true -> enc_ok (val_enc cf) (val_ck cf) = true ->
  (out_enc cf = Ignore -> s_esc cf = true) -> blank_indent cf -> ok_value plain cf v -> ok_value plain cf v' ->
  dump_string cf v = Ret w -> dump_string cf v' = Ret w -> v = v'.
Proof. exact dump_inj. Qed.
Print Assumptions C25_injective.

Example C25_case : dump_json [] (VFloat (f64_of_Z 1)) = Ret (text "1.0") /\ dump_json [] (VInt 1) = Ret (text "1") /\
  dump_json [] (VStr (text "1")) = Ret (text """1""").
Proof. vm_compute. repeat split; reflexivity. Qed.

(** C26.  Undefined behaviour never comes from the indentation. *)
Theorem C26_safe : forall cf v, enc_ok (out_enc cf) (out_ck cf) = true ->
  (exists w, dump_string cf v = Ret w) \/ (exists m, dump_string cf v = Throw (ESer m)) \/
  (dump_string cf v = UB /\ exists f, In (LFloat f) (leaves v) /\ bad_leaf cf (LFloat f)).
Proof. exact (fun cf v Hok => dump_outcomes cf Hok v). Qed.
Print Assumptions C26_safe.

Example C26_case : exists w, dump_json [OIndent 255 32] (VArr [VArr [VArr [VArr [VArr [VArr [VArr [VNull]]]]]]]) = Ret w /\ N.of_nat (length w) = 12527.
Proof. cbv zeta. eexists. split; [vm_compute; reflexivity|vm_compute; reflexivity]. Qed.

(** C27.  Error policies. *)
Theorem C27_parse : forall cf c s,
  let p h := parse_into cf h c s in
  (forall h, fst (p h) = fst (p HNone)) /\
  p HStrict = p HNone /\
  (forall h, h = HIgnore \/ h = HRecord ->
    ((exists e, fst (snd (p h)) = Throw e) <-> (exists x, feeds (src_enc cf) (src_ck cf) (is_open (IStr s)) [] (TBad x)))) /\
  (forall h, h <> HRecord -> snd (snd (p h)) = ""%string) /\
  (forall m, fst (snd (p HNone)) = Throw (EDeser m) -> ~ (exists x, feeds (src_enc cf) (src_ck cf) (is_open (IStr s)) [] (TBad x)) ->
     snd (snd (p HRecord)) = c_str ("value deserialization error: " ++ m)) /\
  (snd (snd (p HRecord)) <> ""%string <->
   (exists e, fst (snd (p HNone)) = Throw e) /\ ~ (exists x, feeds (src_enc cf) (src_ck cf) (is_open (IStr s)) [] (TBad x))).
Proof. exact parse_policies. Qed.
Print Assumptions C27_parse.

Theorem C27_dump : forall cf v, enc_ok (out_enc cf) (out_ck cf) = true ->
  let r h := fst (snd (dump_to cf h (mkOs [] false) v)) in
  let m h := snd (snd (dump_to cf h (mkOs [] false) v)) in
  (forall h, fst (dump_to cf h (mkOs [] false) v) = fst (dump_to cf HNone (mkOs [] false) v)) /\
  r HStrict = r HNone /\
  (forall h e, h = HIgnore \/ h = HRecord -> r h <> Throw e) /\
  (forall h, h <> HRecord -> m h = ""%string) /\
  ((exists e, r HNone = Throw e) <-> m HRecord <> ""%string) /\
  (forall e, r HNone = Throw e -> m HRecord = exn_msg e).
Proof. exact dump_policies. Qed.
Print Assumptions C27_dump.

Example C27_case :
  parse_into cfg_json HIgnore (VInt 7) (text "[1,") = (VArr [VInt 1], (Ret tt, ""%string)) /\
  parse_into cfg_json HIgnore (VInt 7) [255] = (VInt 7, (Throw (EDeser "decoding failed with codepoint '\u4104103F'"), ""%string)).
Proof. vm_compute. split; reflexivity. Qed.

(** C28.  What a throwing parse leaves: a complete value (then the text after
    it is at fault), or what [remains] describes, which is unique. *)
Theorem C28_left : forall cf c s l t v e m, enc_ok (tgt_enc cf) (tgt_ck cf) = true ->
  feeds (src_enc cf) (src_ck cf) (is_open (IStr s)) l t ->
  parse_into cf HNone c s = (v, (Throw e, m)) ->
  (exists l', val cf l v l' /\ on t l') \/ (~ has_value cf t l /\ remains cf t c l v).
Proof. exact parse_left. Qed.
Print Assumptions C28_left.

Theorem C28_unique : forall cf t c l v v', enc_ok (tgt_enc cf) (tgt_ck cf) = true ->
  remains cf t c l v -> remains cf t c l v' -> v = v'.
Proof. exact (fun cf t c l v v' Hok R R' => remains_det cf t Hok c l v R v' R'). Qed.
Print Assumptions C28_unique.

Example C28_case :
  fst (parse_into cfg_json HNone (VInt 7) (text "[1,{""a"":2,""b"":[3,x]},5]")) = VArr [VInt 1; VObj [(text "a", VInt 2)]] /\
  fst (parse_into cfg_json HNone (VInt 7) (text "[1,[2,""ab\x""]]")) = VArr [VInt 1; VArr [VInt 2; VStr (text "ab")]] /\
  fst (parse_into cfg_json HNone (VInt 7) (text "  x")) = VInt 7.
Proof. vm_compute. repeat split; reflexivity. Qed.
