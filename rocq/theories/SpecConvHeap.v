(** What making a value from a C++ object may cost. *)
From Verif Require Import Base Value Cpp.

(** how many strings, arrays and objects a value consists of: one block each *)
Fixpoint needs (v : value) : nat :=
  match v with
  | VStr _ => 1
  | VArr l => S (list_sum (map needs l))
  | VObj m => S (list_sum (map (fun kv => needs (snd kv)) m))
  | _ => 0
  end.

(** arrays, sequences, sets and maps *)
Definition container (t : cty) : Prop :=
  match t with TyArray _ _ | TySeq _ _ | TyMap _ _ => True | _ => False end.
