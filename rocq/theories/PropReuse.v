(** C58: parsers, serializers and streams that are used more than once. *)
From Coq Require Import Lia Floats.SpecFloat.
From Verif Require Import Base Stream Encoding Value Token Message Parser FloatFmt Serializer Feeds
  SpecUnicode SpecGrammar SpecText SpecRfc SpecDump Wrapper WrapProofs RoundTrip Reuse SpecReuse ReuseParse ReuseDump ReuseMain.
Open Scope N_scope.

Notation text s := (chars s%string).
Notation no_more := (Throw (EDeser "unexpected token 'end_of_input'")).

(** ** Parsers *)

(** k calls on one parser succeed exactly on k documents separated by NULs. *)
Theorem C58_documents : forall cf t n k b l vs, enc_ok (tgt_enc cf) (tgt_ck cf) = true ->
  feeds (src_enc cf) (src_ck cf) (is_open b) l t -> (2 * length l + 1 <= n)%nat -> (1 <= k)%nat ->
  (exists st', parse_calls cf n k (init_pst b) = (vs, Ret st')) <->
  length vs = k /\ exists rest, docs cf l vs rest /\ (t = TEof \/ rest <> []).
Proof. exact calls_iff. Qed.
Print Assumptions C58_documents.

(** A new parser for every call on the same stream reads the same values; the
    stream is left behind the last NUL. *)
Theorem C58_same_stream : forall cf t l vs rest, enc_ok (tgt_enc cf) (tgt_ck cf) = true -> docs cf l vs rest -> (t = TEof \/ rest <> []) ->
  forall n b, feeds (src_enc cf) (src_ck cf) (is_open b) l t -> (2 * length l + 1 <= n)%nat ->
  exists b', parse_each cf n (length vs) b = (vs, Ret b') /\
    (forall l1, rest = 0 :: l1 -> feeds (src_enc cf) (src_ck cf) (is_open b') l1 t).
Proof. exact each_docs. Qed.
Print Assumptions C58_same_stream.

(** Whatever the members of a parser hold, as long as its stream is good:
    value and outcome, also of a failing call, are those of a new parser. *)
Theorem C58_same_parser : forall cf t n c st l, is_good (p_is st) = true ->
  feeds (src_enc cf) (src_ck cf) (p_is st) l t -> (2 * length l + 1 <= n)%nat ->
  fst (parse_again cf n c st) = fst (parse_again cf n c (init_pst (is_buf (p_is st)))) /\
  unit_of (snd (parse_again cf n c st)) = unit_of (snd (parse_again cf n c (init_pst (is_buf (p_is st))))).
Proof. exact same_parser. Qed.
Print Assumptions C58_same_parser.

(** The first call is json::parse. *)
Theorem C58_first : forall cf n c b,
  parse_ibuf cf HNone n c b = (fst (parse_again cf n c (init_pst b)), (unit_of (snd (parse_again cf n c (init_pst b))), ""%string)).
Proof. exact again_new. Qed.
Print Assumptions C58_first.

(** After a document that ends the stream every further call throws and leaves
    the value alone, whatever its budget. *)
Theorem C58_exhausted : forall cf n c st l v, enc_ok (tgt_enc cf) (tgt_ck cf) = true ->
  is_good (p_is st) = true -> feeds (src_enc cf) (src_ck cf) (p_is st) l TEof -> (2 * length l + 1 <= n)%nat ->
  document cf l v [] ->
  exists st', parse_again cf n c st = (v, Ret st') /\ is_eof (p_is st') = true /\
    forall m c', (1 <= m)%nat -> parse_again cf m c' st' = (c', no_more).
Proof. exact last_document. Qed.
Print Assumptions C58_exhausted.

(** "A parser skips empty documents" is false: blanks before a NUL or the end
    of the stream are an error. *)
Theorem C58_empty_refuted : forall cf t n c st l rest,
  is_good (p_is st) = true -> feeds (src_enc cf) (src_ck cf) (p_is st) l t -> (2 * length l + 1 <= n)%nat ->
  blank l rest -> (rest = [] /\ t = TEof) \/ (exists l1, rest = 0 :: l1) ->
  parse_again cf n c st = (c, no_more).
Proof. exact no_document. Qed.
Print Assumptions C58_empty_refuted.

(** three documents; the minus sign, number and character of one are gone
    when the next is read *)
Example C58_parse_case :
  let b := IStr (text "[-1] " ++ [0] ++ text " 2.5e1" ++ [0] ++ text "/**/{""a"": 3}") in
  let vs := [VArr [VInt (-1)]; VFloat (f64_of_Z 25); VObj [(text "a", VInt 3)]] in
  fst (parse_calls cfg_json 90 3 (init_pst b)) = vs /\ fst (parse_each cfg_json 90 3 b) = vs /\
  parse_calls cfg_json 90 4 (init_pst b) = (vs, no_more) /\ parse_each cfg_json 90 4 b = (vs, no_more).
Proof. vm_compute. repeat split. Qed.

Example C58_empty_case : parse_each cfg_json 30 3 (IStr (text "1" ++ [0] ++ text " " ++ [0] ++ text "2")) = ([VInt 1], no_more).
Proof. vm_compute. reflexivity. Qed.

(** ** Serializers *)

(** Values that can be written: one serializer writes their texts one after
    the other, without anything between them. *)
Theorem C58_written : forall cf, enc_ok (out_enc cf) (out_ck cf) = true -> forall h vs ws o, os_fail o = false ->
  Forall2 (fun v w => dump_string cf v = Ret w) vs ws ->
  exists s, dump_calls cf h vs (init_sst cf o) = (s, map (fun _ => Ret tt) vs) /\ s_os s = mkOs (os_units o ++ concat ws) false.
Proof. exact all_written. Qed.
Print Assumptions C58_written.

Example C58_written_case : let r := dump_calls (ser_cfg C8 C8 fmt_default [OIndent 2 32]) HNone [VArr [VInt 1]; VStr (text "a"); VObj []] (init_sst (ser_cfg C8 C8 fmt_default [OIndent 2 32]) (mkOs [] false)) in
  os_units (s_os (fst r)) = text "[
  1
]""a""{
}" /\ snd r = [Ret tt; Ret tt; Ret tt].
Proof. vm_compute. split; reflexivity. Qed.

(** After any calls, failed ones among them, a call ends as with a new
    serializer.  What it writes is the text of the value at the depth at which
    the failed calls stopped. *)
Theorem C58_later : forall cf, enc_ok (out_enc cf) (out_ck cf) = true -> forall h vs o s rs,
  dump_calls cf h vs (init_sst cf o) = (s, rs) -> ~ In UB rs -> os_fail (s_os s) = false ->
  exists D, left_open cf vs D /\ forall h' v,
    snd (dump_again cf h' v s) = snd (dump_to cf h' (mkOs [] false) v) /\
    exists t, os_units (s_os (fst (dump_again cf h' v s))) = os_units (s_os s) ++ ind (layout_of cf) D ++ t /\
      forall w, (Forall (fun x => ~ bad_leaf cf x) (leaves v) /\ t = w) <->
                rend (unit_string cf) (float_text (s_ff cf) (s_prec cf)) (layout_of cf) D v w.
Proof. exact later. Qed.
Print Assumptions C58_later.

(** Without indentation it is the text of a new serializer. *)
Theorem C58_later_compact : forall cf, enc_ok (out_enc cf) (out_ck cf) = true -> forall h vs o s rs, s_pretty cf = false ->
  dump_calls cf h vs (init_sst cf o) = (s, rs) -> ~ In UB rs -> os_fail (s_os s) = false ->
  forall h' v, (os_units (s_os (fst (dump_again cf h' v s))), snd (dump_again cf h' v s)) =
    (os_units (s_os s) ++ fst (dump_to cf h' (mkOs [] false) v), snd (dump_to cf h' (mkOs [] false) v)).
Proof. exact later_compact. Qed.
Print Assumptions C58_later_compact.

(** "With indentation too" is false: after two failed calls, at depths 2 and
    1, a third value comes out as if three levels deep. *)
Theorem C58_later_refuted :
  let cf := ser_cfg C8 C8 fmt_default [OIndent 2 32] in
  let r := dump_calls cf HIgnore [VArr [VObj [([255], VNull)]]; VArr [VStr [255]]] (init_sst cf (mkOs [] false)) in
  snd r = [Ret tt; Ret tt] /\ s_os (fst r) = mkOs (text "[
  {
    ""    [
      """) false /\
  os_units (s_os (fst (dump_again cf HIgnore (VArr [VInt 1]) (fst r)))) = os_units (s_os (fst r)) ++ text "      [
        1
      ]" /\ dump_string cf (VArr [VInt 1]) = Ret (text "[
  1
]").
Proof. vm_compute. repeat split. Qed.
Print Assumptions C58_later_refuted.

Example C58_left_case : left_open (ser_cfg C8 C8 fmt_default [OIndent 2 32]) [VArr [VObj [([255], VNull)]]; VInt 3; VArr [VStr [255]]] 3.
Proof.
  assert (B : bad_leaf (ser_cfg C8 C8 fmt_default [OIndent 2 32]) (LStr [255])).
  { destruct (DumpFail.leaf_cases (ser_cfg C8 C8 fmt_default [OIndent 2 32]) (LStr [255])) as [[A _]|[A _]]; [vm_compute in A; discriminate|assumption]. }
  apply (lo_bad _ _ _ [] 2 (LStr [255]) [] 1); [reflexivity|constructor|exact B|].
  apply lo_good; [constructor|]. apply (lo_bad _ _ _ [] 1 (LStr [255]) [] 0); [reflexivity|constructor|exact B|]. constructor.
Qed.

(** A stream that failed: nothing is written any more, and a call returns
    normally if and only if the value needs no encoder. *)
Theorem C58_failed_stream : forall cf, enc_ok (out_enc cf) (out_ck cf) = true -> forall h vs o s rs,
  dump_calls cf h vs (init_sst cf o) = (s, rs) -> os_fail (s_os s) = true ->
  forall v, s_os (fst (dump_again cf HNone v s)) = s_os s /\
    (fst (snd (dump_again cf HNone v s)) = Ret tt <-> Forall (quiet cf) (leaves v)).
Proof. exact failed_for_good. Qed.
Print Assumptions C58_failed_stream.

(** "A call that returns has written its value" is false: a value that UTF-8
    cannot encode makes the stream fail; [1,"\n"] is then dropped silently,
    "a" is reported. *)
Theorem C58_dropped_refuted :
  let cf := mkSc C32 Ignore C8 Utf8 false 0 0 false 6 FGeneral in
  let r := dump_calls cf HNone [VStr [1114112]; VArr [VInt 1; VStr [10]]; VStr (text "a")] (init_sst cf (mkOs [] false)) in
  s_os (fst r) = mkOs (text """") true /\
  snd r = [Throw (ESer "encoding failed with codepoint '\u110000'"); Ret tt; Throw (ESer "encoding failed with codepoint '\u0061'")].
Proof. vm_compute. split; reflexivity. Qed.
Print Assumptions C58_dropped_refuted.

(** Every call of any sequence returns, throws a serialization error or, with
    a float that cannot be written, has undefined behaviour: the indentation
    left behind by failed calls never makes later ones go wrong. *)
Theorem C58_safe : forall cf, enc_ok (out_enc cf) (out_ck cf) = true -> forall h vs o,
  Forall (fun r => r = Ret tt \/ (exists m, r = Throw (ESer m)) \/
    (r = UB /\ exists v f, In v vs /\ In (LFloat f) (leaves v) /\ bad_leaf cf (LFloat f))) (snd (dump_calls cf h vs (init_sst cf o))).
Proof. exact calls_safe. Qed.
Print Assumptions C58_safe.

(** ** Both *)

(** Values written one after the other, each followed by a NUL, are read back
    from one stream, by one parser or by new ones; the next call throws. *)
Theorem C58_round_trip : forall pc cf vs ws n, reads pc cf -> enc_ok (out_enc cf) (out_ck cf) = true -> enc_ok (val_enc cf) (val_ck cf) = true ->
  (out_enc cf = Ignore -> s_esc cf = true) -> blank_indent cf ->
  Forall (ok_value plain cf) vs -> Forall2 (fun v w => dump_string cf v = Ret w) vs ws -> vs <> [] -> (2 * length (with_nuls ws) + 1 <= n)%nat ->
  (exists b, parse_each pc n (length vs) (IStr (with_nuls ws)) = (vs, Ret b) /\
     forall m k, (1 <= m)%nat -> parse_each pc m (Datatypes.S k) b = ([], no_more)) /\
  (exists st, parse_calls pc n (length vs) (init_pst (IStr (with_nuls ws))) = (vs, Ret st) /\
     forall m c, (1 <= m)%nat -> parse_again pc m c st = (c, no_more)).
Proof. exact round_nuls. Qed.
Print Assumptions C58_round_trip.

(** "Without the NULs too" is false: 1 and 2 come back as 12. *)
Theorem C58_no_nuls_refuted :
  let cf := ser_cfg C8 C8 fmt_default [] in
  let s := s_os (fst (dump_calls cf HNone [VInt 1; VInt 2] (init_sst cf (mkOs [] false)))) in
  parse_each cfg_json 30 2 (IStr (os_units s)) = ([VInt 12], no_more) /\
  fst (parse_each cfg_json 30 2 (IStr (with_nuls [text "1"; text "2"]))) = [VInt 1; VInt 2].
Proof. vm_compute. split; reflexivity. Qed.
Print Assumptions C58_no_nuls_refuted.
