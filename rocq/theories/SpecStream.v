(** Texts behind an adapter or a C file. *)
From Verif Require Import Base Stream Encoding SpecGrammar Value Parser.

(** the unit that signals the end: (char)EOF, (char16_t)-1, WEOF *)
Definition eof_unit (ck : ckind) : N :=
  match ck with C8 => 255 | C16 => 65535 | C32 => 4294967295 end.
Definition a_unit (ck : ckind) (u : N) : Prop := u <= eof_unit ck.

(** [behind ck s b]: b is a fresh buffer over the text s, either an adapter that
    answers EOF from then on or a file. *)
Inductive behind (ck : ckind) (s : list N) : ibuf -> Prop :=
| bh_adapter src : (forall n, src n = nth n s (eof_unit ck)) ->
    (ck = C8 -> ~ In 255 s) -> behind ck s (IAdp src 0 0)
| bh_file : behind ck s (IFile s 0).

(** An adapter that answers NUL after its text. *)
Definition nul_ended (s : list N) (b : ibuf) : Prop :=
  exists src, (forall n, src n = nth n s 0) /\ b = IAdp src 0 0%Z.

(** What the UTF-8 decoder makes of NULs behind an adapter or a file: it sees
    the character after the NUL; a final NUL reads as the first byte 194 of a
    character of two bytes without the second one. *)
Fixpoint after_nuls (s : list N) : list N :=
  match s with
  | [] => []
  | u :: r =>
      if u =? 0 then match r with [] => [194] | v :: r' => v :: after_nuls r' end
      else u :: after_nuls r
  end.

(** Code points of a comment that does not end: the body of a line comment
    without a newline, or of a block comment ([comment_body] ends in an
    unfinished star or not). *)
Inductive open_comment : list N -> Prop :=
| oc_line b : Forall (fun c => ~ newline c) b -> open_comment (47 :: 47 :: b)
| oc_block b : comment_body b -> open_comment (47 :: 42 :: b)
| oc_star b : comment_body b -> open_comment (47 :: 42 :: b ++ [42]).

(** Blanks leading to such a comment. *)
Inductive blank_open : list N -> Prop :=
| bo_here w l : Forall space w -> open_comment l -> blank_open (w ++ l)
| bo_line w b n l : Forall space w -> Forall (fun c => ~ newline c) b -> newline n -> blank_open (n :: l) ->
    blank_open (w ++ 47 :: 47 :: b ++ n :: l)
| bo_block w b l : Forall space w -> comment_body b -> blank_open l -> blank_open (w ++ 47 :: 42 :: b ++ 42 :: 47 :: l).

(** Where the text ends inside a string literal, the one parse meets the end
    of the input and the other a NUL. *)
Definition reworded (m m' : string) : Prop :=
  m' = m \/ (m = "unexpected end of string"%string /\ m' = "invalid control character '\u0000'"%string).
(** Two parses that leave the same value and end in the same way, but for that wording. *)
Definition agree (h : handler) (p q : value * (outcome unit * string)) : Prop :=
  fst p = fst q /\
  exists r r', snd p = handle h r /\ snd q = handle h r' /\
    (r' = r \/ exists m m', r = Throw (EDeser m) /\ r' = Throw (EDeser m') /\ reworded m m').

(** An adapter that throws after its text. *)
Definition failing (s : list N) (b : ibuf) : Prop :=
  exists src, (forall n, (n < length s)%nat -> src n = nth n s 0) /\ b = IThr src (length s) 0 0%Z.
(** What the decoders make of the -1 they get then. *)
Definition broken_code (e : enc) (ck : ckind) : N :=
  match e, ck with
  | Utf8, _ => 1090785343
  | Utf16, _ => 65535
  | _, C16 => 65535
  | _, _ => 4294967295
  end.

(** parse(adapter): the value, or what is thrown *)
Definition read_all (cf : pcfg) (n : nat) (b : ibuf) : outcome value :=
  let '(v, (r, _)) := parse_ibuf cf HNone n VNull b in let* _ := r in Ret v.
