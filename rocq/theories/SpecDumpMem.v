(** How a dump may end when memory runs out. *)
From Verif Require Import Base Stream Value FloatFmt Message Parser Serializer Target SpecTarget.
Open Scope N_scope.

(** m is the message with the code c, or what is left of it when the stream that
    collects it fails before one of its pieces *)
Definition clip (m msg : string) (c : N) : Prop :=
  exists k, m = String.concat "" (firstn k [msg; " '"; "\"; "u"; bytes (pad_left 4 48 (hex_digits c)); "'"]%string).

(** [may_end b rest r0 r]: the dump may end with r when the dump to a string with
    enough memory ends with r0.  b: the target took all it was given; rest: the
    text it was not given. *)
Inductive may_end : bool -> list N -> outcome unit -> outcome unit -> Prop :=
| me_same b rest r0 : (b = true -> rest = []) -> may_end b rest r0 r0
| me_alloc b rest r0 : may_end b rest r0 (Throw EAlloc)
| me_refused rest r0 m c : clip m "encoding failed with codepoint" c -> may_end false rest r0 (Throw (ESer m))
| me_clip b rest msg m c : (b = true -> rest = []) -> In msg ["unexpected character"; "encoding failed with codepoint"]%string -> clip m msg c ->
    may_end b rest (Throw (ESer (with_code msg c))) (Throw (ESer m)).

(** the same with an error handler, which may lack the memory to keep the message *)
Definition may_say (h : handler) (b : bool) (rest : list N) (r0 : outcome unit) (rm : outcome unit * string) : Prop :=
  exists x, may_end b rest r0 x /\ (rm = handle h x \/ (h = HRecord /\ rm = (Throw EAlloc, ""%string) /\ exists e, x = Throw e)).

(** containers inside each other *)
Fixpoint height (v : value) : nat :=
  match v with
  | VArr l => S (fold_right Nat.max 0 (map height l))%nat
  | VObj m => S (fold_right Nat.max 0 (map (fun p => height (snd p)) m))%nat
  | _ => 0%nat
  end.
