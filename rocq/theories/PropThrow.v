(** C56: input adapters that throw. *)
From Coq Require Import Lia.
From Verif Require Import Base Stream Encoding Value Token Parser Feeds
  SpecUnicode SpecGrammar SpecText SpecMessage SpecStream ThrowFacts.
Open Scope N_scope.

Notation text s := (chars s%string).
(** an adapter over s that throws when asked for more *)
Notation thrower s := (IThr (fun n => nth n s 0) (length s) 0 0%Z).

(** C56.  The adapter hands out the units of s, then throws.  The result is
    that of the string s, or the error for a character that cannot be
    decoded; the exception itself is lost. *)
Theorem C56_same_or_lost : forall cf s b l t n, enc_ok (src_enc cf) (src_ck cf) = true -> failing s b ->
  Forall (fun u => u < eof_unit (src_ck cf)) s -> (src_enc cf = Utf8 -> ~ In 0 s) ->
  feeds (src_enc cf) (src_ck cf) (is_open (IStr s)) l t -> (fuel_for s <= n)%nat ->
  forall c, parse_ibuf cf HNone n c b = parse_into cf HNone c s \/
    exists k, (t = TEof -> k = broken_code (src_enc cf) (src_ck cf)) /\
      fst (snd (parse_ibuf cf HNone n c b)) = Throw (EDeser (with_number "decoding failed with codepoint" k)).
Proof. exact run_same_or_lost. Qed.
Print Assumptions C56_same_or_lost.

(** Whatever the handler does, no other exception comes out. *)
Theorem C56_contained : forall cf s b l t n, enc_ok (src_enc cf) (src_ck cf) = true -> failing s b ->
  Forall (fun u => u < eof_unit (src_ck cf)) s -> (src_enc cf = Utf8 -> ~ In 0 s) ->
  feeds (src_enc cf) (src_ck cf) (is_open (IStr s)) l t -> (fuel_for s <= n)%nat ->
  forall h c, let r := fst (snd (parse_ibuf cf h n c b)) in
  r = Ret tt \/ (exists m, r = Throw (EDeser m)) \/ r = Abort \/ r = UB.
Proof. exact run_contained. Qed.
Print Assumptions C56_contained.

Example C56_same_or_lost_case :
  read_all cfg_json 40 (thrower (text "[1, 2x")) = Throw (EDeser "unexpected character '\u0078'") /\
  read_all cfg_json 40 (thrower (text "[1, 2x]")) = parse_string cfg_json (text "[1, 2x]") /\
  read_all cfg_json 40 (thrower (text "[1, 2")) = Throw (EDeser "decoding failed with codepoint '\u4104103F'") /\
  parse_string cfg_json (text "[1, 2") = Throw (EDeser "unexpected token, expect 'end_array', but got 'end_of_input'").
Proof. repeat split; vm_compute; reflexivity. Qed.

(** Accepted is only a document that a NUL ended before... *)
Theorem C56_accepts : forall cf s b l t n v,
  enc_ok (src_enc cf) (src_ck cf) = true -> enc_ok (tgt_enc cf) (tgt_ck cf) = true -> failing s b ->
  Forall (fun u => u < eof_unit (src_ck cf)) s -> (src_enc cf = Utf8 -> ~ In 0 s) ->
  feeds (src_enc cf) (src_ck cf) (is_open (IStr s)) l t -> (fuel_for s <= n)%nat ->
  (read_all cf n b = Ret v <-> exists rest, document cf l v rest /\ rest <> []).
Proof. exact thrown_accepts. Qed.
Print Assumptions C56_accepts.

(** ...so a complete document is rejected, with this message... *)
Theorem C56_complete : forall cf s b l v n,
  enc_ok (src_enc cf) (src_ck cf) = true -> enc_ok (tgt_enc cf) (tgt_ck cf) = true -> failing s b ->
  Forall (fun u => u < eof_unit (src_ck cf)) s -> (src_enc cf = Utf8 -> ~ In 0 s) ->
  feeds (src_enc cf) (src_ck cf) (is_open (IStr s)) l TEof -> (fuel_for s <= n)%nat -> document cf l v [] ->
  read_all cf n b = Throw (EDeser (with_number "decoding failed with codepoint" (broken_code (src_enc cf) (src_ck cf)))).
Proof. exact thrown_complete. Qed.
Print Assumptions C56_complete.

Example C56_complete_case :
  read_all cfg_json 40 (thrower (text "[1]")) = Throw (EDeser "decoding failed with codepoint '\u4104103F'") /\
  read_all (mkCfg C32 Utf32 C8 Utf8 false) 40 (thrower (text "[1]")) = Throw (EDeser "decoding failed with codepoint '\uFFFFFFFF'") /\
  read_all (mkCfg C16 Utf16 C8 Utf8 false) 40 (thrower (text "[1]")) = Throw (EDeser "decoding failed with codepoint '\uFFFF'") /\
  read_all (mkCfg C32 Utf32 C8 Utf8 false) 40 (thrower (text "[1]" ++ [0])) = Ret (VArr [VInt 1]).
Proof. repeat split; vm_compute; reflexivity. Qed.

(** ...and every rejection is the grammar's objection to the text with an
    undecodable end. *)
Theorem C56_message : forall cf s b l t n,
  enc_ok (src_enc cf) (src_ck cf) = true -> enc_ok (tgt_enc cf) (tgt_ck cf) = true -> failing s b ->
  Forall (fun u => u < eof_unit (src_ck cf)) s -> (src_enc cf = Utf8 -> ~ In 0 s) ->
  feeds (src_enc cf) (src_ck cf) (is_open (IStr s)) l t -> (fuel_for s <= n)%nat ->
  exists k, (t = TEof -> k = broken_code (src_enc cf) (src_ck cf)) /\
    forall m, read_all cf n b = Throw (EDeser m) <-> objection cf (TBad k) l m.
Proof. exact thrown_message. Qed.
Print Assumptions C56_message.

(** The plausible claim is false: a document followed by a throw is not read
    as the string is. *)
Theorem C56_same_refuted : exists s b, failing s b /\ (exists v, parse_string cfg_json s = Ret v) /\
  forall n v, (fuel_for s <= n)%nat -> read_all cfg_json n b <> Ret v.
Proof.
  exists (text "[1]"), (thrower (text "[1]")). split; [exists (fun n => nth n (text "[1]") 0); split; reflexivity|].
  split; [eexists; vm_compute; reflexivity|]. exact complete_lost.
Qed.
Print Assumptions C56_same_refuted.

(** A handler that ignores errors is not asked about the first character. *)
Example C56_first_character :
  parse_ibuf cfg_json HIgnore 40 (VInt 7) (thrower (@nil N)) =
    (VInt 7, (Throw (EDeser "decoding failed with codepoint '\u4104103F'"), ""%string)) /\
  parse_ibuf cfg_json HIgnore 40 (VInt 7) (thrower (text "[1")) = (VArr [], (Ret tt, ""%string)).
Proof. split; vm_compute; reflexivity. Qed.
