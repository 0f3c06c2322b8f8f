(** C52: what the error says. *)
From Coq Require Import Ascii Floats.SpecFloat.
From Verif Require Import Base Stream Encoding Value Token Parser Feeds
  SpecUnicode SpecGrammar SpecPos SpecGap SpecText SpecMessage MessageFacts.
Open Scope N_scope.

Notation text s := (chars s%string).

(** C52.  A text is rejected with message m exactly if the grammar objects to
    it with m: [objection] is spelled out in SpecMessage.v. *)
Theorem C52_message : forall cf s l t m, enc_ok (tgt_enc cf) (tgt_ck cf) = true ->
  feeds (src_enc cf) (src_ck cf) (is_open (IStr s)) l t ->
  (parse_string cf s = Throw (EDeser m) <-> objection cf t l m).
Proof. exact message. Qed.
Print Assumptions C52_message.

Theorem C52_message_utf8 : forall cf s cps m, enc_ok (tgt_enc cf) (tgt_ck cf) = true -> src_enc cf = Utf8 ->
  utf8_text cps s -> (parse_string cf s = Throw (EDeser m) <-> objection cf TEof cps m).
Proof. exact message_utf8. Qed.
Print Assumptions C52_message_utf8.

Example C52_message_case :
  parse_string cfg_json (text "{""a"": [1, 2") =
    Throw (EDeser "unexpected token, expect 'end_array', but got 'end_of_input'") /\
  parse_string cfg_json (text "{""a"" 1}") =
    Throw (EDeser "unexpected token, expect 'end_object', but got 'value_integer'") /\
  parse_string cfg_json (text "[fals3]") =
    Throw (EDeser "unexpected character '3' (expected literal 'false')") /\
  parse_string cfg_json (text "[""\ud83d\n""]") =
    Throw (EDeser "lead surrogate must be followed by trail surrogate, but got '\u006E'") /\
  parse_string cfg_json (text "[1.x]") = Throw (EDeser "invalid float number, got '\u0078'") /\
  parse_string cfg_json (text "[1, /* 2]") = Throw (EDeser "unexpected eof while reading comment") /\
  parse_string cfg_json [91; 240; 159; 152; 128; 93] = Throw (EDeser "unexpected character '\u1F600'") /\
  parse_string cfg_json [91; 49; 44; 255] = Throw (EDeser "decoding failed with codepoint '\u4104103F'").
Proof. repeat split; vm_compute; reflexivity. Qed.

(** One text, one complaint; and none about a document. *)
Theorem C52_one_complaint : forall cf t l m m', enc_ok (tgt_enc cf) (tgt_ck cf) = true ->
  objection cf t l m -> objection cf t l m' -> m = m'.
Proof. exact message_unique. Qed.
Print Assumptions C52_one_complaint.

Theorem C52_not_about_documents : forall cf t l m, enc_ok (tgt_enc cf) (tgt_ck cf) = true -> objection cf t l m ->
  forall v rest, document cf l v rest -> t <> TEof /\ rest = [].
Proof. exact message_only. Qed.
Print Assumptions C52_not_about_documents.

Theorem C52_total : forall cf s l t, enc_ok (tgt_enc cf) (tgt_ck cf) = true ->
  feeds (src_enc cf) (src_ck cf) (is_open (IStr s)) l t ->
  (exists v rest, document cf l v rest /\ (t = TEof \/ rest <> [])) \/ (exists m, objection cf t l m) \/
  parse_string cf s = Abort \/ parse_string cf s = UB.
Proof. exact message_total. Qed.
Print Assumptions C52_total.

(** An example derived from the description alone. *)
Example C52_objection_case :
  objection cfg_json TEof (text "[1 2]") "unexpected token, expect 'end_array', but got 'value_integer'" /\
  objection cfg_json TEof (text "[""\q""]") "invalid escaped character '\u0071'".
Proof.
  split.
  - apply (ob_at cfg_json TEof _ KAfterElem [50; 93]).
    + apply st_in, (is_arr cfg_json KAfterElem _ [49; 32; 50; 93]); [apply bl_none; cbn; unfold space; split; [intuition discriminate|discriminate]|].
      apply (es_after cfg_json _ (VInt 1) [32]).
      * apply (v_num cfg_json _ [49; 32; 50; 93]); [apply bl_none; cbn; unfold space; split; [intuition discriminate|discriminate]|].
        apply nu_plain; [discriminate|discriminate|].
        apply (un_int C8 false _ 49 []); [constructor|discriminate|right; split; discriminate|apply Forall_nil| | |discriminate];
          cbn; unfold digit; [intros [H1 H2]; (apply H1; reflexivity) || (apply H2; reflexivity)|repeat split; discriminate].
      * apply gp_space; [unfold space; auto|constructor].
    + apply (cp_token cfg_json TEof KAfterElem [50; 93] [50; 93] "value_integer").
      * apply bl_none; cbn; unfold space; split; [intuition discriminate|discriminate].
      * apply (tn_int cfg_json TEof _ 2%Z [93]); [|left; discriminate].
        apply nu_plain; [discriminate|discriminate|].
        apply (un_int C8 false _ 50 []); [constructor|discriminate|right; split; discriminate|apply Forall_nil| | |discriminate];
          cbn; unfold digit; [intros [H1 H2]; (apply H1; reflexivity) || (apply H2; reflexivity)|repeat split; discriminate].
      * cbn. intuition discriminate.
  - apply (ob_at cfg_json TEof _ KElem [34; 92; 113; 34; 93]).
    + apply st_in, (is_arr cfg_json KElem _ [34; 92; 113; 34; 93]); [apply bl_none; cbn; unfold space; split; [intuition discriminate|discriminate]|].
      apply (es_here cfg_json []). constructor.
    + apply cp_string; [left; cbn; auto 9|]. apply (bst Utf8 C8 TEof [] [] [] [92; 113; 34; 93]); [constructor|reflexivity|].
      apply (bi_escape Utf8 C8 TEof [113; 34; 93] 113); [reflexivity|discriminate|]. intros x H. inversion H.
Qed.

(** A recording error handler gets it behind a prefix, as far as a C string
    goes; unless the very first character cannot be decoded, which is thrown
    past the handler (C27). *)
Theorem C52_recorded : forall cf c s l t m, enc_ok (tgt_enc cf) (tgt_ck cf) = true ->
  feeds (src_enc cf) (src_ck cf) (is_open (IStr s)) l t -> objection cf t l m -> more t l ->
  exists v r, parse_into cf HRecord c s = (v, (Ret tt, r)) /\ seen ("value deserialization error: " ++ m) r.
Proof. exact message_recorded. Qed.
Print Assumptions C52_recorded.

Theorem C52_seen_once : forall s r r', seen s r -> seen s r' -> r = r'.
Proof. exact seen_unique. Qed.
Print Assumptions C52_seen_once.

Theorem C52_seen : forall cf t l m, objection cf t l m -> nul_free m \/ seen m "unexpected character '".
Proof. exact message_seen. Qed.
Print Assumptions C52_seen.

Example C52_recorded_case :
  parse_into cfg_json HRecord VNull (text "[1,}") =
    (VArr [VInt 1], (Ret tt, "value deserialization error: unexpected token, expect 'end_array', but got 'end_object'"%string)).
Proof. vm_compute. reflexivity. Qed.

(** "The error names the character in the way" is false at the end of the
    text: a NUL stands for it, and hides the rest. *)
Theorem C52_named_refuted :
  parse_string cfg_json (text "[tru") =
    Throw (EDeser ("unexpected character '" ++ String Ascii.zero "' (expected literal 'true')")) /\
  parse_into cfg_json HRecord VNull (text "[tru") =
    (VArr [], (Ret tt, "value deserialization error: unexpected character '"%string)).
Proof. split; vm_compute; reflexivity. Qed.
Print Assumptions C52_named_refuted.

(** The decoder is blamed only for texts that cannot be decoded, and the
    error shows what it left behind. *)
Theorem C52_decoding : forall cf t l m, objection cf t l m -> String.get 0 m = Some "d"%char ->
  exists c, t = TBad c /\ m = with_number "decoding failed with codepoint" c.
Proof. exact message_decoding. Qed.
Print Assumptions C52_decoding.

Example C52_decoding_case : String.get 0 (with_number "decoding failed with codepoint" 65) = Some "d"%char /\
  with_number "decoding failed with codepoint" 128512 = "decoding failed with codepoint '\u1F600'"%string.
Proof. split; reflexivity. Qed.

(** Whatever comes after the document, the message names the end of the
    input, which is what is missing and not what is there. *)
Theorem C52_trailing : forall cf t l v l1 r n,
  val cf l v l1 -> blank l1 r -> token_at cf t r n -> n <> "end_of_input"%string ->
  objection cf t l "unexpected token 'end_of_input'".
Proof. exact message_trailing. Qed.
Print Assumptions C52_trailing.

Example C52_trailing_case :
  parse_string cfg_json (text "[1] ]") = Throw (EDeser "unexpected token 'end_of_input'") /\
  parse_string cfg_json (text "") = Throw (EDeser "unexpected token 'end_of_input'").
Proof. split; vm_compute; reflexivity. Qed.
