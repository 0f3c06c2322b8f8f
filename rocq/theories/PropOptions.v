(** C59: the options of parse and dump. *)
From Verif Require Import Base Stream Encoding Value Message Parser FloatFmt Serializer SpecUnicode SpecGrammar SpecText SpecRfc SpecDump
  RoundTrip DumpMore Options SpecOptions OptionsProofs.
Open Scope N_scope.

Notation text s := (chars s%string).

(** For every list of options there is one decision about every setting. *)
Theorem C59_decided : forall O A (says : O -> option A) d opts, exists x, forall y, decided says d opts y <-> y = x.
Proof.
  exact (fun O A says d opts => match decided_some says d opts with
    ex_intro _ x H => ex_intro _ x (fun y => conj (fun Y => decided_det says d opts y Y x H) (fun E => eq_ind_r (decided says d opts) H E)) end).
Qed.
Print Assumptions C59_decided.

(** parse(c, s, options): source encoding, target encoding and error handler
    are those of the last option that names them, else the default encoding of
    the character type and no handler.  All that is proved about parse_into
    (C04, C27, C53 and so on) applies to the parser described. *)
Theorem C59_parse : forall dflt sck vck nd opts e1 e2 h c s,
  decided p_source (dflt sck) opts e1 -> decided p_target (dflt vck) opts e2 -> decided p_handler HNone opts h ->
  parse_opts dflt sck vck nd opts c s = parse_into (mkCfg sck e1 vck e2 nd) h c s.
Proof. exact parse_decided. Qed.
Print Assumptions C59_parse.

(** dump(str, v, options) *)
Theorem C59_dump : forall dflt vck ock opts e1 e2 h p st ch esc prec ff v,
  decided d_source (dflt vck) opts e1 -> decided d_target (dflt ock) opts e2 -> decided d_handler HNone opts h ->
  decided d_indent (false, 0, 32) opts (p, st, ch) -> decided d_escape false opts esc -> decided d_float (6%Z, FGeneral) opts (prec, ff) ->
  dump_opts dflt vck ock opts v =
  dump_to (mkSc vck e1 ock e2 p st ch esc prec match ff with FHex => FGeneral | _ => ff end) h (mkOs [] false) v.
Proof. exact dump_decided. Qed.
Print Assumptions C59_dump.

(** The é of the source is decoded as UTF-8, as single (signed) chars after
    with_encoding<ignore>, and as UTF-8 again when a later option says so. *)
Example C59_parse_case :
  let s := 34 :: 195 :: 169 :: [34] in
  let run opts := parse_opts auto_enc C8 C32 true opts VNull s in
  (run [], run [PEnc Ignore], run [PEnc Ignore; PSrcEnc Utf8], run [PSrcEnc Utf8; PEnc Ignore]) =
  ((VStr [233], (Ret tt, ""%string)), (VStr [4294967235; 4294967209], (Ret tt, ""%string)),
   (VStr [233], (Ret tt, ""%string)), (VStr [4294967235; 4294967209], (Ret tt, ""%string))).
Proof. vm_compute. reflexivity. Qed.

Example C59_handler_case :
  let run opts := parse_opts auto_enc C8 C8 true opts VNull (text "[1,}") in
  (run [POnError HRecord; POnError HIgnore], run [POnError HIgnore; PEnc Utf8; POnError HNone]) =
  ((VArr [VInt 1], (Ret tt, ""%string)), (VArr [VInt 1], (Throw (EDeser "unexpected token, expect 'end_array', but got 'end_object'"), ""%string))).
Proof. vm_compute. reflexivity. Qed.

(** The order of options is not without meaning. *)
Theorem C59_order_refuted : ~ (forall o o' c s, parse_opts auto_enc C8 C32 true [o; o'] c s = parse_opts auto_enc C8 C32 true [o'; o] c s).
Proof. exact (fun H => ltac:(discriminate (H (PEnc Ignore) (PSrcEnc Utf8) VNull (34 :: 195 :: 169 :: [34])))). Qed.
Print Assumptions C59_order_refuted.

(** Which handler is set, and how often, changes neither the value that parse
    leaves nor the text that dump leaves. *)
Theorem C59_handler_value : forall dflt sck vck nd opts opts' e1 e2 c s,
  decided p_source (dflt sck) opts e1 -> decided p_target (dflt vck) opts e2 ->
  decided p_source (dflt sck) opts' e1 -> decided p_target (dflt vck) opts' e2 ->
  fst (parse_opts dflt sck vck nd opts c s) = fst (parse_opts dflt sck vck nd opts' c s).
Proof. exact handler_value. Qed.
Print Assumptions C59_handler_value.

Theorem C59_handler_text : forall dflt vck ock opts opts' v,
  let same {A} (says : dopt -> option A) d := forall x, decided says d opts x <-> decided says d opts' x in
  same d_source (dflt vck) -> same d_target (dflt ock) -> same d_indent (false, 0, 32) -> same d_escape false -> same d_float (6%Z, FGeneral) ->
  fst (dump_opts dflt vck ock opts v) = fst (dump_opts dflt vck ock opts' v).
Proof. exact handler_written. Qed.
Print Assumptions C59_handler_text.

(** dump with some options, parse with some options, into any value, with any
    handlers: the value comes back when the last words on the encodings agree
    crosswise.  [sck] is the character type of the text, [vck] that of the
    strings of the value. *)
Theorem C59_round_trip : forall dflt sck vck nd popts dopts e1 e2 c v,
  decided p_source (dflt sck) popts e1 -> decided d_target (dflt sck) dopts e1 ->
  decided p_target (dflt vck) popts e2 -> decided d_source (dflt vck) dopts e2 ->
  enc_ok e1 sck = true -> enc_ok e2 vck = true ->
  let cf := fst (serializer_of dflt vck sck fmt_default dopts) in
  (e1 = Ignore -> s_esc cf = true) -> wide_out cf -> blank_indent cf -> ok_value plain cf v ->
  exists w, dump_opts dflt vck sck dopts v = (w, (Ret tt, ""%string)) /\ parse_opts dflt sck vck nd popts c w = (v, (Ret tt, ""%string)).
Proof. exact options_round. Qed.
Print Assumptions C59_round_trip.

(** a UTF-8 value, written as UTF-16 code units and read back *)
Example C59_round_case :
  let v := VArr [VStr [240; 159; 152; 128; 195; 169]; VInt 7] in
  let '(w, _) := dump_opts auto_enc C8 C16 [DOpt (OEnc Utf8); DOpt (OIndent 1 9); DOnError HIgnore; DOpt (OTgtEnc Utf16)] v in
  w = [91; 10; 9; 34; 55357; 56832; 233; 34; 44; 10; 9; 55; 10; 93] /\
  parse_opts auto_enc C16 C8 true [PTgtEnc Ignore; POnError HRecord; PSrcEnc Utf16; PTgtEnc Utf8] (VInt 0) w = (v, (Ret tt, ""%string)).
Proof. vm_compute. split; reflexivity. Qed.

(** Without the agreement it may not. *)
Theorem C59_default_refuted : ~ (forall popts v, exists w, dump_opts auto_enc C32 C8 [] v = (w, (Ret tt, ""%string)) /\
  parse_opts auto_enc C8 C32 true popts VNull w = (v, (Ret tt, ""%string))).
Proof.
  exact (fun H => match H [PEnc Ignore] (VStr [233]) with ex_intro _ w (conj A B) => ltac:(vm_compute in A; injection A as <-; discriminate B) end).
Qed.
Print Assumptions C59_default_refuted.
