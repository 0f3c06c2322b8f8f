(** The document a text is read as, for texts that are read to the end and for
    others. *)
From Verif Require Import Base Stream Value ValueOps Parser Container SpecParseHeap SpecContainer.
Open Scope N_scope.

(** [read_as cf w d]: whatever container its objects are kept in, a value that
    is read from w gets the members and elements of d, in the order of d and
    those with a known key too.  If w is rejected, d is what was read before. *)
Definition read_as (cf : pcfg) (w : str) (d : doc) : Prop :=
  (exists v, means d v) /\ forall put, fst (parse_with put cf HNone (fuel_for w) VNull (IStr w)) = build put d.

(** v' is what d gives, with clipped strings and keys; or what a beginning of
    d does *)
Definition short_to (v' : value) (d : doc) : Prop := exists d', means d' v' /\ short d' d.
Definition cut_to (v' : value) (d : doc) : Prop := exists d', means d' v' /\ cut d' d.
