(** What iterating over a value should visit. *)
From Verif Require Import Base Value ValueOps Iterator SpecValue.

(** The elements of a value in order, with the key for members of an object. *)
Inductive elements : value -> list (option str * value) -> Prop :=
| es_null : elements VNull []
| es_int z : elements (VInt z) [(None, VInt z)]
| es_float f : elements (VFloat f) [(None, VFloat f)]
| es_str s : elements (VStr s) [(None, VStr s)]
| es_bool b : elements (VBool b) [(None, VBool b)]
| es_arr l : elements (VArr l) (map (fun x => (None, x)) l)
| es_obj m : elements (VObj m) (map (fun p => (Some (fst p), snd p)) m).

Definition container (v : value) : Prop := type_of v = TArray \/ type_of v = TObject.
Definition scalar (v : value) : Prop := ~ container v /\ type_of v <> TNull.

(** what misused iterators throw *)
Definition no_value : exn := EIter "iterator is empty".
Definition no_key : exn := EIter "cannot use key() with non-object type".
Definition no_offset : exn := EIter "cannot compute offsets with object type".
Definition no_distance : exn := EIter "cannot compute iterator offsets with non-array type".
Definition no_distance_across : exn := EIter "cannot compute iterator offsets of different value objects".
Definition no_order : exn := EIter "cannot compare iterators with object type".
Definition no_order_across : exn := EIter "cannot compare iterators of different value objects".
Definition no_erase : exn := EIter "cannot use erase() with non-object & non-array value".
(** access at or past the end *)
Inductive out_of_range : value -> exn -> Prop :=
| or_object m : out_of_range (VObj m) (EOutOfRange "object iterator out of range")
| or_array l : out_of_range (VArr l) (EOutOfRange "array iterator out of range")
| or_null : out_of_range VNull (EOutOfRange "null iterator out of range")
| or_scalar v : scalar v -> out_of_range v (EOutOfRange "primitive iterator out of range").

(** [it] is the iterator at position n of the value at address a. *)
Definition at_pos (mem : addr -> value) (a : addr) (n : nat) (it : iter) : Prop :=
  it_val it = Some a /\
  match mem a with
  | VObj _ => it_obj it = Some n
  | VArr _ => it_arr it = Some n
  | VNull => it_prim it = 0%Z
  | _ => it_prim it = Z.of_nat n
  end.
