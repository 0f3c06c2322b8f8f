(** What a target stream buffer sees of a dump. *)
From Verif Require Import Base Stream Encoding Value Message Serializer Target Feeds SpecGrammar SpecDump.
Open Scope N_scope.

Section Gets.
Context {T : Type}.
Variable take : T -> call -> T * bool.
(** [gets t cs t' b]: the buffer, at t, is asked for the calls cs, in this
    order, and is then at t'.  b: it took them all; otherwise the last one is
    the first it refused. *)
Inductive gets : T -> list call -> T -> bool -> Prop :=
| gets_nil t : gets t [] t true
| gets_no t c t' : take t c = (t', false) -> gets t [c] t' false
| gets_yes t c t1 cs t' b : take t c = (t1, true) -> gets t1 cs t' b -> gets t (c :: cs) t' b.
End Gets.

(** the text of the calls; the unit that is eof() is no character *)
Definition call_text (ck : ckind) (c : call) : list N :=
  match c with
  | Put u => if Z.eqb (Z.of_N u) (eof_int ck) then [] else [u]
  | Write l => l
  end.
Definition calls_text (ck : ckind) (cs : list call) : list N := concat (map (call_text ck) cs).

(** a string of nothing but characters with a two-character escape *)
Definition quiet (cf : scfg) (s : str) : Prop :=
  exists cps t, feeds (val_enc cf) (val_ck cf) (is_open (IStr s)) cps t /\ Forall (fun c => c <> 47 /\ exists e, short e c) cps.
(** a string with some other character *)
Definition loud (cf : scfg) (s : str) : Prop :=
  exists cps t c, feeds (val_enc cf) (val_ck cf) (is_open (IStr s)) cps t /\ In c cps /\ (c = 47 \/ forall e, ~ short e c).
(** the error put_string reports when its stream has failed *)
Definition cannot_encode (r : outcome unit) : Prop := exists c, r = Throw (ESer (with_code "encoding failed with codepoint" c)).
