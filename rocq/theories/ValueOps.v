(** Operations of basic_value (details/value.hpp) on value trees.

    A member function is modelled as a function from the value to the value
    afterwards together with what the caller sees.  The value afterwards is
    given even when an exception is thrown.  A function returning a reference
    is modelled by running the caller's use of the reference on the referenced
    sub-value in place ([via_idx], [via_key], ...).

    Simplifications: allocation never fails (std::bad_alloc and
    std::length_error are not modelled); the operator[](_CharTy* key) overloads
    (value.hpp:765-785, 804-816) build the same string key and are covered by
    the key overloads. *)
From Verif Require Import Base Value.

(** declare.hpp:56-68 *)
Inductive vtype := TNull | TInteger | TFloating | TString | TArray | TObject | TBoolean.

(** value.hpp:178-186 *)
Definition type_of (v : value) : vtype :=
  match v with
  | VNull => TNull | VInt _ => TInteger | VFloat _ => TFloating | VStr _ => TString
  | VArr _ => TArray | VObj _ => TObject | VBool _ => TBoolean
  end.

(** basic_value(value_constant::type), value.hpp:87-115 *)
Definition of_type (t : vtype) : value :=
  match t with
  | TObject => VObj []
  | TArray => VArr []
  | TString => VStr []
  | TInteger => VInt 0
  | TFloating => VFloat f64_zero
  | TBoolean => VBool false
  | TNull => VNull
  end.

(** make_object / make_array, value.hpp:1122-1181.  std::initializer_list
    elements are emplaced in order. *)
Definition make_object (l : list (str * value)) : value :=
  VObj (fold_left (fun m p => obj_emplace (fst p) (snd p) m) l []).
Definition make_array (l : list value) : value := VArr l.

Definition len {A} (l : list A) : N := N.of_nat (length l).

(** size(), value.hpp:292-305 *)
Definition v_size (v : value) : N :=
  match v with
  | VNull => 0
  | VArr l => len l
  | VObj m => len m
  | _ => 1
  end.

(** empty(), value.hpp:307-319 *)
Definition v_empty (v : value) : bool :=
  match v with
  | VNull => true
  | VObj m => match m with [] => true | _ => false end
  | VArr l => match l with [] => true | _ => false end
  | _ => false
  end.

(** count(key), value.hpp:343-346; std::map::count *)
Definition v_count (k : str) (v : value) : N :=
  match v with
  | VObj m => match obj_find k m with Some _ => 1 | None => 0 end
  | _ => 0
  end.

(** What a member function leaves behind and what its caller sees. *)
Definition res (R : Type) := (value * outcome R)%type.

(** erase(key), value.hpp:348-355 *)
Definition v_erase_key (k : str) (v : value) : res N :=
  match v with
  | VObj m => (VObj (obj_erase k m), Ret (match obj_find k m with Some _ => 1 | None => 0 end))
  | _ => (v, Throw (EKey "cannot use erase() with non-object value"))
  end.

Fixpoint remove_nth {A} (n : nat) (l : list A) : list A :=
  match l, n with
  | [], _ => []
  | _ :: l', O => l'
  | x :: l', S n' => x :: remove_nth n' l'
  end.

(** erase(index), value.hpp:357-364.  std::vector::erase requires an iterator
    that can be dereferenced; index is not checked. *)
Definition v_erase_idx (i : N) (v : value) : res unit :=
  match v with
  | VArr l => if i <? len l then (VArr (remove_nth (N.to_nat i) l), Ret tt) else (v, UB)
  | _ => (v, Throw (EKey "cannot use erase() with non-array value"))
  end.

(** push_back / emplace_back, value.hpp:418-440, with an argument that is not
    part of the value itself (see Heap.v for aliasing). *)
Definition v_push (x : value) (v : value) : res unit :=
  match v with
  | VNull => (VArr [x], Ret tt)
  | VArr l => (VArr (l ++ [x]), Ret tt)
  | _ => (v, Throw (EType "use push_back() or emplace_back() with non-array value"))
  end.

(** clear(), value.hpp:442-467 *)
Definition v_clear (v : value) : value :=
  match v with
  | VInt _ => VInt 0
  | VFloat _ => VFloat f64_zero
  | VBool _ => VBool false
  | VStr _ => VStr []
  | VArr _ => VArr []
  | VObj _ => VObj []
  | VNull => VNull
  end.

Fixpoint set_nth {A} (n : nat) (x : A) (l : list A) : list A :=
  match l, n with
  | [], _ => []
  | _ :: l', O => x :: l'
  | y :: l', S n' => y :: set_nth n' x l'
  end.

(** Use of a reference to element i of an array, f being the use. *)
Definition in_elem {R} (i : N) (f : value -> res R) (l : list value) : res R :=
  match nth_error l (N.to_nat i) with
  | Some x => let '(x', o) := f x in (VArr (set_nth (N.to_nat i) x' l), o)
  | None => (VArr l, UB)
  end.

(** Use of a reference to the mapped value of a key. *)
Definition in_member {R} (k : str) (f : value -> res R) (m : list (str * value)) : res R :=
  match obj_find k m with
  | Some x => let '(x', o) := f x in (VObj (obj_set k x' m), o)
  | None => (VObj m, UB)
  end.

(** size_type arithmetic *)
Definition u64 (n : N) : N := n mod 18446744073709551616.

(** operator[](size_type), value.hpp:711-728: null becomes an array; an index
    past the end appends  index - size + 1  nulls (unsigned arithmetic). *)
Definition via_idx {R} (i : N) (f : value -> res R) (v : value) : res R :=
  let v := match v with VNull => of_type TArray | _ => v end in
  match v with
  | VArr l =>
      let l := if len l <=? i
               then l ++ repeat VNull (N.to_nat (u64 (i + 18446744073709551616 - len l + 1)))
               else l in
      in_elem i f l
  | _ => (v, Throw (EKey "operator[] called on a non-array object"))
  end.

(** operator[](key), value.hpp:735-746: null becomes an object; std::map's
    operator[] inserts a null for a missing key. *)
Definition via_key {R} (k : str) (f : value -> res R) (v : value) : res R :=
  let v := match v with VNull => of_type TObject | _ => v end in
  match v with
  | VObj m => in_member k f (obj_emplace k VNull m)
  | _ => (v, Throw (EKey "operator[] called on a non-object type"))
  end.

(** at(index) and the const operator[], value.hpp:730-733, 753-764.  Even on a
    const value these return a modifiable reference. *)
Definition via_at_idx {R} (i : N) (f : value -> res R) (v : value) : res R :=
  match v with
  | VArr l =>
      if len l <=? i then (v, Throw (EOutOfRange "operator[] index out of range"))
      else in_elem i f l
  | _ => (v, Throw (EKey "operator[] called on a non-array type"))
  end.

(** at(key), value.hpp:748-751, 787-801 *)
Definition via_at_key {R} (k : str) (f : value -> res R) (v : value) : res R :=
  match v with
  | VObj m =>
      match obj_find k m with
      | None => (v, Throw (EOutOfRange "operator[] key out of range"))
      | Some _ => in_member k f m
      end
  | _ => (v, Throw (EKey "operator[] called on a non-object object"))
  end.

(** ** Programs: an operation applied to a sub-value reached by a chain of
    subscripts, such as  v["a"][3].push_back(x)  *)
Inductive acc := AtIdx (i : N) | AtKey (k : str) | RefIdx (i : N) | RefKey (k : str).

Definition via1 {R} (a : acc) (f : value -> res R) : value -> res R :=
  match a with
  | AtIdx i => via_at_idx i f
  | AtKey k => via_at_key k f
  | RefIdx i => via_idx i f
  | RefKey k => via_key k f
  end.

Fixpoint via {R} (p : list acc) (f : value -> res R) : value -> res R :=
  match p with
  | [] => f
  | a :: p' => via1 a (via p' f)
  end.

Inductive op :=
| Assign (x : value)        (* v = x, x elsewhere; value.hpp:689-707 *)
| Get                       (* a copy of v *)
| PushBack (x : value)
| EraseKey (k : str)
| EraseIdx (i : N)
| Clear
| Size
| Empty
| Count (k : str).

Inductive result := RUnit | RVal (v : value) | RNum (n : N) | RBool (b : bool).

Definition rmap {A} (g : A -> result) (r : res A) : res result :=
  (fst r, bind (snd r) (fun a => Ret (g a))).

Definition run_op (o : op) (v : value) : res result :=
  match o with
  | Assign x => (x, Ret RUnit)
  | Get => (v, Ret (RVal v))
  | PushBack x => rmap (fun _ => RUnit) (v_push x v)
  | EraseKey k => rmap RNum (v_erase_key k v)
  | EraseIdx i => rmap (fun _ => RUnit) (v_erase_idx i v)
  | Clear => (v_clear v, Ret RUnit)
  | Size => (v, Ret (RNum (v_size v)))
  | Empty => (v, Ret (RBool (v_empty v)))
  | Count k => (v, Ret (RNum (v_count k v)))
  end.

Definition run (p : list acc) (o : op) (v : value) : res result := via p (run_op o) v.
