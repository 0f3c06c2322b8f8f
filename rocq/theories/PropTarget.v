(** C49: dumping to any target, which may refuse characters. *)
From Verif Require Import Base Stream Encoding Value FloatFmt Parser Serializer Target Feeds SpecText SpecGrammar SpecDump SpecTarget TargetMain.
Open Scope N_scope.
Notation text s := (chars s%string).

(** C49.  For every stream buffer [take], formatting, options and value: the
    calls the buffer gets, up to the first it refuses, carry the text of the
    dump in order, nothing else; all of it if nothing is refused, and then the
    outcome is that of dumping to a string.  After a refusal the only other
    outcome is the exception for an unencodable character.  The stream's own
    state bits are never touched. *)
Theorem C49_delivered : forall (T : Type) (take : T -> call -> T * bool) vck ock opts o v o' r, t_dump take vck ock opts o v = (o', r) ->
  u_good o' = u_good o /\ f_width (u_fmt o') = 0%Z /\ f_fill (u_fmt o') = f_fill (u_fmt o) /\ f_prec (u_fmt o') = f_prec (u_fmt o) /\ f_ff (u_fmt o') = f_ff (u_fmt o) /\
  exists cs b w rw m, dump_to (ser_cfg vck ock (u_fmt o) opts) HNone (mkOs [] false) v = (w, (rw, m)) /\
    gets take (u_buf o) cs (u_buf o') b /\
    (b = true -> calls_text ock cs = w /\ r = rw) /\
    (b = false -> (exists rest, w = calls_text ock cs ++ rest) /\ (r = rw \/ cannot_encode r)).
Proof. exact dump_stream. Qed.
Print Assumptions C49_delivered.

(** The same with an error handler. *)
Theorem C49_handled : forall (T : Type) (take : T -> call -> T * bool) cf t0 h v, exists t cs b r m,
  t_dump_to take cf h t0 v = (t, (r, m)) /\ gets take t0 cs t b /\
  let '(out, rm) := dump_to cf h (mkOs [] false) v in
  if b then calls_text (out_ck cf) cs = out /\ (r, m) = rm
  else (exists rest, out = calls_text (out_ck cf) cs ++ rest) /\ ((r, m) = rm \/ exists x, cannot_encode x /\ (r, m) = handle h x).
Proof. exact @dump_any. Qed.
Print Assumptions C49_handled.

(** An adapter is given exactly the text of the string dump, however far that
    got. *)
Theorem C49_adapter : forall cf h t0 v, out_ck cf <> C16 ->
  t_dump_to (adapter_take (out_ck cf)) cf h t0 v = let '(w, r) := dump_to cf h (mkOs [] false) v in (t0 ++ w, r).
Proof. exact dump_adapter. Qed.
Print Assumptions C49_adapter.

(** A target with room for n characters ends up with the first n. *)
Theorem C49_limited : forall cf v n, out_ck cf = C8 ->
  let '(t, r) := t_dump_to limited_take cf HNone ([], n) v in
  let '(out, rm) := dump_to cf HNone (mkOs [] false) v in
  fst t = firstn n out /\ (if (length out <=? n)%nat then r = rm else r = rm \/ exists x, cannot_encode x /\ r = handle HNone x).
Proof. exact dump_limited. Qed.
Print Assumptions C49_limited.

(** Does the caller learn of a refusal?  If every string and key of the value
    consists of characters with a two-character escape, no target makes a
    difference to the outcome. *)
Theorem C49_quiet : forall (T : Type) (take : T -> call -> T * bool) cf t0 h v, (forall x, In (LStr x) (leaves v) -> quiet cf x) ->
  snd (t_dump_to take cf h t0 v) = snd (dump_to cf h (mkOs [] false) v).
Proof. exact @dump_quiet. Qed.
Print Assumptions C49_quiet.

(** If some string or key has another character, a target that refuses the
    first character does: the dump throws. *)
Theorem C49_loud : forall (T : Type) (take : T -> call -> T * bool) cf t0 v w, (forall u, snd (take t0 (Put u)) = false) ->
  dump_string cf v = Ret w -> (exists x, In (LStr x) (leaves v) /\ loud cf x) -> cannot_encode (fst (snd (t_dump_to take cf HNone t0 v))).
Proof. exact @refused_loud. Qed.
Print Assumptions C49_loud.

(** "A dump that returns has been delivered" is false: [1,2] to a target that
    takes nothing, and to one with room for three characters.  The stream is
    still good. *)
Theorem C49_told_refuted :
  t_dump limited_take C8 C8 [] (mkU ([], 0%nat) true fmt_default) (VArr [VInt 1; VInt 2]) = (mkU ([], 0%nat) true fmt_default, Ret tt) /\
  t_dump limited_take C8 C8 [] (mkU ([], 3%nat) true fmt_default) (VArr [VInt 1; VInt 2]) = (mkU (text "[1,", 0%nat) true fmt_default, Ret tt).
Proof. split; vm_compute; reflexivity. Qed.
Print Assumptions C49_told_refuted.

(** A key makes the difference: {"a":1} with no room, and with room for the
    key only. *)
Example C49_loud_case : cannot_encode (snd (t_dump limited_take C8 C8 [] (mkU ([], 0%nat) true fmt_default) (VObj [(text "a", VInt 1)]))) /\
  t_dump limited_take C8 C8 [] (mkU ([], 4%nat) true fmt_default) (VObj [(text "a", VInt 1)]) = (mkU (text "{""a""", 0%nat) true fmt_default, Ret tt).
Proof. split; [exists 97|]; vm_compute; reflexivity. Qed.
Example C49_is_loud : loud (ser_cfg C8 C8 fmt_default []) (text "a").
Proof.
  exists [97], TEof, 97. split; [|split; [left; reflexivity|right]].
  - eapply F_cons; [intro; reflexivity|reflexivity|]. eapply F_eof. intro. eexists. reflexivity.
  - intros e H. inversion H.
Qed.
Example C49_is_quiet : quiet (ser_cfg C8 C8 fmt_default []) [10].
Proof.
  exists [10], TEof. split.
  - eapply F_cons; [intro; reflexivity|reflexivity|]. eapply F_eof. intro. eexists. reflexivity.
  - constructor; [|constructor]. split; [discriminate|]. exists 110. constructor.
Qed.

(** indented, with a float, to an adapter *)
Example C49_adapter_case : t_dump (adapter_take C8) C8 C8 [] (mkU [] true (mkFmt 2 32 6 FGeneral)) (VArr [VInt 1; VStr (text "a/b")]) =
  (mkU (chars ("[" ++ String (Ascii.ascii_of_nat 10) "  1," ++ String (Ascii.ascii_of_nat 10) "  ""a/b""" ++ String (Ascii.ascii_of_nat 10) "]")%string) true fmt_default, Ret tt).
Proof. vm_compute. reflexivity. Qed.
