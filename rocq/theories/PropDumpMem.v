(** C63: dumping when memory runs out. *)
From Verif Require Import Base Stream Encoding Value FloatFmt Message Parser Serializer Options Target Feeds SpecText SpecGrammar SpecDump SpecTarget DumpMem SpecDumpMem DumpMemProofs DumpMemEnds DumpMemMain.
Open Scope N_scope.
Notation text s := (chars s%string).

(** C63.  For every stream buffer [take], every choice [deny] of requests that
    are refused, all options, streams and values.  With all requests granted the
    call is the one of C49. *)
Theorem C63_enough : forall T (take : T -> call -> T * bool) deny dflt vck ock opts o v, (forall k, deny k = false) ->
  d_dump take deny dflt vck ock opts o v =
  let '(cf, h) := serializer_of dflt vck ock (u_fmt o) opts in
  let '(t, r) := t_dump_to take cf h (u_buf o) v in
  (mkU t (u_good o) (mkFmt 0 (f_fill (u_fmt o)) (f_prec (u_fmt o)) (f_ff (u_fmt o))), r).
Proof. exact stream_enough. Qed.
Print Assumptions C63_enough.

(** Whatever is refused: the buffer has been given a prefix of the text, in
    order, all of it unless it refused something or the call ends with
    std::bad_alloc; the call ends as with enough memory, with std::bad_alloc,
    with the error for a buffer that refused, or with part of the message it
    should have.  The stream's width is the only formatting that can change. *)
Theorem C63_ends : forall T (take : T -> call -> T * bool) deny dflt vck ock opts o v o' rm, d_dump take deny dflt vck ock opts o v = (o', rm) ->
  u_good o' = u_good o /\ f_fill (u_fmt o') = f_fill (u_fmt o) /\ f_prec (u_fmt o') = f_prec (u_fmt o) /\ f_ff (u_fmt o') = f_ff (u_fmt o) /\
  ((f_width (u_fmt o') = f_width (u_fmt o) /\ u_buf o' = u_buf o /\ rm = (Throw EAlloc, ""%string) /\ exists k, deny k = true) \/
   f_width (u_fmt o') = 0%Z /\
   ((u_buf o' = u_buf o /\ rm = (Throw EAlloc, ""%string) /\ exists k, deny k = true) \/
    let '(cf, h) := serializer_of dflt vck ock (u_fmt o) opts in
    let '(out, (r0, _)) := dump_to cf HNone (mkOs [] false) v in
    exists cs b rest, gets take (u_buf o) cs (u_buf o') b /\ out = calls_text ock cs ++ rest /\ may_say h b rest r0 rm)).
Proof. exact stream_ends. Qed.
Print Assumptions C63_ends.

(** The width is cleared, unless the serializer itself could not be made. *)
Theorem C63_width : forall T (take : T -> call -> T * bool) deny dflt vck ock opts o v,
  f_width (u_fmt (fst (d_dump take deny dflt vck ock opts o v))) <> 0%Z <->
  f_width (u_fmt o) <> 0%Z /\ (deny 0%nat = true \/ (f_fill (u_fmt o) <> 0 /\ (f_width (u_fmt o) mod 256 <> 0)%Z /\ deny 1%nat = true)).
Proof. exact width_kept. Qed.
Print Assumptions C63_width.

(** Once the serializer is made, a value that can be written needs memory only
    for indentation more than four levels deep: that is when a refusal makes a
    difference. *)
Theorem C63_when : forall T (take : T -> call -> T * bool) cf, (s_pretty cf = true -> 0 < s_step cf) -> forall t n v t',
  t_dump_to take cf HNone t v = (t', (Ret tt, ""%string)) ->
  ((exists deny, d_dump_to take deny cf HNone t n v <> (t', n, (Ret tt, ""%string))) <-> s_ichar cf <> 0 /\ 0 < s_step cf /\ (4 < height v)%nat).
Proof. exact @dump_when. Qed.
Print Assumptions C63_when.

(** It then ends with std::bad_alloc if nothing is granted. *)
Theorem C63_deep : forall T (take : T -> call -> T * bool) cf, (s_pretty cf = true -> 0 < s_step cf) -> forall t n v t',
  s_ichar cf <> 0 -> 0 < s_step cf -> (4 < height v)%nat ->
  t_dump_to take cf HNone t v = (t', (Ret tt, ""%string)) -> fst (snd (d_dump_to take (fun _ => true) cf HNone t n v)) = Throw EAlloc.
Proof. exact @dump_deep. Qed.
Print Assumptions C63_deep.

(** If the dump throws, without memory it throws std::bad_alloc or an exception
    of the same type with the message cut off between two of its pieces, and
    each of these can happen. *)
Theorem C63_message : forall T (take : T -> call -> T * bool) cf, (s_pretty cf = true -> 0 < s_step cf) -> forall t n v t' e s,
  s_ichar cf = 0 \/ s_step cf = 0 \/ (height v <= 4)%nat ->
  t_dump_to take cf HNone t v = (t', (Throw e, s)) ->
  exists msg c, In msg ["unexpected character"; "encoding failed with codepoint"]%string /\ e = ESer (with_code msg c) /\
    forall r, (exists deny, fst (snd (d_dump_to take deny cf HNone t n v)) = r) <-> r = Throw EAlloc \/ exists m, clip m msg c /\ r = Throw (ESer m).
Proof. exact @dump_message. Qed.
Print Assumptions C63_message.

(** json::dump(v) that returns a string returns a prefix of the text; without an
    error handler the value could be written, and if the string could always
    grow, it is the whole text. *)
Theorem C63_string : forall full deny dflt vck ock opts v s m, dump_new full deny dflt vck ock opts v = (Ret s, m) ->
  let '(cf, h) := serializer_of dflt vck ock fmt_default opts in
  let '(out, (r0, _)) := dump_to cf HNone (mkOs [] false) v in
  exists rest, out = s ++ rest /\ (h = HNone -> r0 = Ret tt) /\ (h = HNone -> (forall k, full k = false) -> rest = []).
Proof. exact new_string. Qed.
Print Assumptions C63_string.

(** "json::dump(v) returns the text or throws" is false: when the string cannot
    grow, the rest is lost without a word.  [1,2], with the growth for the second
    character refused, is "[". *)
Theorem C63_string_refuted : ~ (forall full deny opts v s m, dump_new full deny auto_enc C8 C8 opts v = (Ret s, m) -> dump_opts auto_enc C8 C8 opts v = (s, (Ret tt, m))).
Proof.
  intros H. specialize (H (Nat.eqb 1) (fun _ => false) [] (VArr [VInt 1; VInt 2]) (text "[") ""%string eq_refl). vm_compute in H. discriminate H.
Qed.
Print Assumptions C63_string_refuted.

(** [[[[[]]]]], indented by one *)
Definition five := VArr [VArr [VArr [VArr [VArr []]]]].
Definition one_space := [DOpt (OIndent 1 32)].
(** requests: locale, indentation of with_indent, and one for the fifth level *)
Example C63_deep_case :
  fst (dump_new (fun _ => false) (Nat.eqb 2) auto_enc C8 C8 one_space five) = Throw EAlloc /\
  fst (dump_new (fun _ => false) (fun k => (2 <? k)%nat) auto_enc C8 C8 one_space five) = Ret (fst (dump_opts auto_enc C8 C8 one_space five)) /\
  fst (dump_new (fun _ => false) (fun k => (1 <? k)%nat) auto_enc C8 C8 one_space (VArr [VArr [VArr [VArr [VInt 7]]]])) = Ret (fst (dump_opts auto_enc C8 C8 one_space (VArr [VArr [VArr [VArr [VInt 7]]]]))) /\
  height five = 5%nat.
Proof. vm_compute. repeat split. Qed.
(** Ignoring errors, the same call returns the text written before the
    exception. *)
Example C63_ignored_case :
  fst (dump_new (fun _ => false) (Nat.eqb 2) auto_enc C8 C8 (DOnError HIgnore :: one_space) five) = Ret (chars ("[" ++ String (Ascii.ascii_of_nat 10) " [" ++ String (Ascii.ascii_of_nat 10) "  [" ++ String (Ascii.ascii_of_nat 10) "   [" ++ String (Ascii.ascii_of_nat 10) "    [")%string).
Proof. vm_compute. reflexivity. Qed.
(** but not a failure to make the serializer *)
Example C63_made_case :
  fst (dump_new (fun _ => false) (Nat.eqb 0) auto_enc C8 C8 (DOnError HIgnore :: one_space) five) = Throw EAlloc /\
  fst (dump_new (fun _ => false) (Nat.eqb 1) auto_enc C8 C8 (DOnError HIgnore :: one_space) five) = Throw EAlloc.
Proof. vm_compute. split; reflexivity. Qed.
(** a character that cannot be written: the message, and what is left of it *)
Example C63_message_case :
  let d k := fst (dump_new (fun _ => false) (Nat.eqb k) auto_enc C8 C8 [] (VStr [255])) in
  d 99%nat = Throw (ESer "unexpected character '\u4104103F'") /\ d 1%nat = Throw EAlloc /\ d 2%nat = Throw (ESer "") /\ d 3%nat = Throw (ESer "unexpected character") /\
  d 5%nat = Throw (ESer "unexpected character '\") /\ d 7%nat = Throw (ESer "unexpected character '\u4104103F") /\ d 8%nat = Throw EAlloc.
Proof. vm_compute. repeat split. Qed.
(** the stream's width stays when the serializer cannot be made *)
Example C63_width_case :
  u_fmt (fst (d_dump (room_take C8 (fun _ => false)) (Nat.eqb 1) auto_enc C8 C8 [] (mkU ([], 0%nat) true (mkFmt 2 32 6 FGeneral)) VNull)) = mkFmt 2 32 6 FGeneral /\
  u_fmt (fst (d_dump (room_take C8 (fun _ => false)) (Nat.eqb 2) auto_enc C8 C8 [DOpt (OIndent 4 32)] (mkU ([], 0%nat) true (mkFmt 2 32 6 FGeneral)) VNull)) = mkFmt 0 32 6 FGeneral.
Proof. vm_compute. split; reflexivity. Qed.
