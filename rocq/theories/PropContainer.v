(** C57: objects kept in another container than std::map. *)
From Coq Require Import Lia.
From Verif Require Import Base Stream Encoding Value ValueOps Token Parser Feeds Serializer
  SpecUnicode SpecGrammar SpecText SpecDump RoundTrip SpecParseHeap SpecContainer Container ContainerProofs ContainerRound.
Open Scope N_scope.

Notation text s := (chars s%string).

(** With a std::map the parser is that of Parser.v. *)
Theorem C57_map : forall cf h n c b, parse_with obj_emplace cf h n c b = parse_ibuf cf h n c b.
Proof. exact parse_with_emplace. Qed.
Print Assumptions C57_map.

(** Whatever the container: the call ends in the same way, with the same
    message, for every handler and every input. *)
Theorem C57_same_end : forall put cf h n c b, snd (parse_with put cf h n c b) = snd (parse_ibuf cf h n c b).
Proof. exact same_end. Qed.
Print Assumptions C57_same_end.

(** What is left in the value, also by a failed call, is one document, whose
    members were put into the container in order. *)
Theorem C57_same_document : forall cf h n c b, exists d, fst (parse_ibuf cf h n c b) = build obj_emplace d /\
  forall put, fst (parse_with put cf h n c b) = build put d.
Proof. exact same_doc. Qed.
Print Assumptions C57_same_document.

Example C57_same_case :
  parse_with put_last cfg_json HRecord 60 VNull (IStr (text "{""b"": 1, ""a"": {""d"": [], ""c"": 2}, ""b"": 3, !")) =
    (VObj [(text "b", VInt 1); (text "a", VObj [(text "d", VArr []); (text "c", VInt 2)])],
     (Ret tt, "value deserialization error: unexpected character '\u0021'"%string)) /\
  parse_with obj_emplace cfg_json HRecord 60 VNull (IStr (text "{""b"": 1, ""a"": {""d"": [], ""c"": 2}, ""b"": 3, !")) =
    (VObj [(text "a", VObj [(text "c", VInt 2); (text "d", VArr [])]); (text "b", VInt 1)],
     (Ret tt, "value deserialization error: unexpected character '\u0021'"%string)).
Proof. split; vm_compute; reflexivity. Qed.

(** Accepted are the texts of the dialect; the result is the document of the
    text put into the container. *)
Theorem C57_accepts : forall put cf s l t v, enc_ok (tgt_enc cf) (tgt_ck cf) = true ->
  feeds (src_enc cf) (src_ck cf) (is_open (IStr s)) l t ->
  (parse_string_with put cf s = Ret v <-> exists d rest, wrote cf l d rest /\ (t = TEof \/ rest <> []) /\ v = build put d).
Proof. exact accepts. Qed.
Print Assumptions C57_accepts.

(** The two grammars agree. *)
Theorem C57_grammar : forall cf l v rest, document cf l v rest <-> exists d, wrote cf l d rest /\ means d v.
Proof. exact document_wrote. Qed.
Print Assumptions C57_grammar.

(** An insertion-ordered container: the members come in the order of the text,
    of members with the same key the first. *)
Theorem C57_fifo : forall cf s l t v, enc_ok (tgt_enc cf) (tgt_ck cf) = true ->
  feeds (src_enc cf) (src_ck cf) (is_open (IStr s)) l t ->
  (parse_string_with put_last cf s = Ret v <-> exists d rest, wrote cf l d rest /\ (t = TEof \/ rest <> []) /\ in_order d v).
Proof. exact last_accepts. Qed.
Print Assumptions C57_fifo.

(** They are the members a std::map would have. *)
Theorem C57_fifo_map : forall cf s v', enc_ok (tgt_enc cf) (tgt_ck cf) = true -> parse_string_with put_last cf s = Ret v' ->
  exists v, parse_string cf s = Ret v /\ arranged v' v.
Proof. exact last_map. Qed.
Print Assumptions C57_fifo_map.

Example C57_fifo_case :
  parse_string_with put_last cfg_json (text "{""z"": 1, ""y"": 2, ""z"": 3, ""x"": 4, ""w""}") =
    Ret (VObj [(text "z", VInt 1); (text "y", VInt 2); (text "x", VInt 4)]) /\
  parse_string_with put_all cfg_json (text "{""z"": 1, ""y"": 2, ""z"": 3, ""x"": 4, ""w""}") =
    Ret (VObj [(text "z", VInt 1); (text "y", VInt 2); (text "z", VInt 3); (text "x", VInt 4)]) /\
  parse_string cfg_json (text "{""z"": 1, ""y"": 2, ""z"": 3, ""x"": 4, ""w""}") =
    Ret (VObj [(text "x", VInt 4); (text "y", VInt 2); (text "z", VInt 1)]).
Proof. repeat split; vm_compute; reflexivity. Qed.

(** Dump, then parse into any container: the members arrive in the order in
    which they were dumped. *)
Theorem C57_round_trip : forall put pc cf v w, reads pc cf -> enc_ok (out_enc cf) (out_ck cf) = true ->
  enc_ok (val_enc cf) (val_ck cf) = true -> (out_enc cf = Ignore -> s_esc cf = true) -> blank_indent cf ->
  ok_any cf v -> dump_string cf v = Ret w -> parse_string_with put pc w = Ret (build put (doc_of v)).
Proof. exact round_any. Qed.
Print Assumptions C57_round_trip.

(** An insertion-ordered value comes back as it was, order included. *)
Theorem C57_round_trip_fifo : forall pc cf v w, reads pc cf -> enc_ok (out_enc cf) (out_ck cf) = true ->
  enc_ok (val_enc cf) (val_ck cf) = true -> (out_enc cf = Ignore -> s_esc cf = true) -> blank_indent cf ->
  ok_any cf v -> distinct v -> dump_string cf v = Ret w -> parse_string_with put_last pc w = Ret v.
Proof. exact round_last. Qed.
Print Assumptions C57_round_trip_fifo.

(** Read into a std::map it comes back sorted. *)
Theorem C57_round_trip_map : forall pc cf v w, reads pc cf -> enc_ok (out_enc cf) (out_ck cf) = true ->
  enc_ok (val_enc cf) (val_ck cf) = true -> (out_enc cf = Ignore -> s_esc cf = true) -> blank_indent cf ->
  ok_any cf v -> distinct v -> dump_string cf v = Ret w -> exists v', parse_string pc w = Ret v' /\ arranged v v'.
Proof. exact round_arranged. Qed.
Print Assumptions C57_round_trip_map.

Example C57_round_trip_case :
  let v := VObj [(text "z", VInt 1); (text "y", VArr [VObj [(text "b", VNull); (text "a", VStr (text "q"))]]); (text "x", VBool true)] in
  exists w, dump_json [] v = Ret w /\ w = text "{""z"":1,""y"":[{""b"":null,""a"":""q""}],""x"":true}" /\
    parse_string_with put_last cfg_json w = Ret v /\
    parse_string cfg_json w =
      Ret (VObj [(text "x", VBool true); (text "y", VArr [VObj [(text "a", VStr (text "q")); (text "b", VNull)]]); (text "z", VInt 1)]).
Proof. eexists. split; [vm_compute; reflexivity|]. repeat split; vm_compute; reflexivity. Qed.
