(** Iterators over a basic_value (details/iterator.hpp) and the member
    functions of basic_value that return or take them (details/value.hpp).

    An iterator remembers the address of the value it walks over; [mem] gives
    the value stored at an address.  The container iterators inside it are
    positions.  A container iterator that was never set is singular ([None]):
    any use of it is undefined behaviour, as is moving one out of
    [begin, end]. *)
From Verif Require Import Base Value ValueOps.

Definition addr := N.

(** iterator.hpp:133-515, the data members at 508-513 *)
Record iter := mkIt {
  it_val : option addr;    (* value_, None for a null pointer *)
  it_arr : option nat;     (* array_it_ *)
  it_obj : option nat;     (* object_it_ *)
  it_prim : Z              (* primitive_it_, iterator.hpp:34-130 *)
}.

(** the constructor from a pointer, iterator.hpp:146-149 *)
Definition it_new (a : addr) : iter := mkIt (Some a) None None 0.

Definition set_arr (it : iter) (n : nat) : iter := mkIt (it_val it) (Some n) (it_obj it) (it_prim it).
Definition set_obj (it : iter) (n : nat) : iter := mkIt (it_val it) (it_arr it) (Some n) (it_prim it).
Definition set_prim (it : iter) (z : Z) : iter := mkIt (it_val it) (it_arr it) (it_obj it) z.

Section Mem.
Variable mem : addr -> value.

(** check_data, iterator.hpp:472-478 *)
Definition check_data (it : iter) : outcome addr :=
  match it_val it with
  | Some a => Ret a
  | None => Throw (EIter "iterator is empty")
  end.

(** set_begin, iterator.hpp:414-441 *)
Definition set_begin (it : iter) : outcome iter :=
  let* a := check_data it in
  match mem a with
  | VObj _ => Ret (set_obj it 0)
  | VArr _ => Ret (set_arr it 0)
  | VNull => Ret it
  | _ => Ret (set_prim it 0)
  end.

(** set_end, iterator.hpp:443-470 *)
Definition set_end (it : iter) : outcome iter :=
  let* a := check_data it in
  match mem a with
  | VObj m => Ret (set_obj it (length m))
  | VArr l => Ret (set_arr it (length l))
  | VNull => Ret it
  | _ => Ret (set_prim it 1)
  end.

(** begin(), end(): value.hpp:234-264 *)
Definition v_begin (a : addr) : outcome iter := set_begin (it_new a).
Definition v_end (a : addr) : outcome iter := set_end (it_new a).

(** position of a key, std::map::find *)
Fixpoint find_pos {A} (k : str) (m : list (str * A)) : nat :=
  match m with
  | [] => 0
  | (k', _) :: m' => if str_eqb k k' then 0 else S (find_pos k m')
  end.

(** find(key), value.hpp:321-341 *)
Definition v_find (a : addr) (k : str) : outcome iter :=
  match mem a with
  | VObj m => Ret (set_obj (it_new a) (find_pos k m))
  | _ => v_end a
  end.

(** comparing a container iterator *)
Definition pos_eq (p q : option nat) : outcome bool :=
  match p, q with
  | Some i, Some j => Ret (Nat.eqb i j)
  | _, _ => UB
  end.

(** check_iterator, iterator.hpp:480-506 *)
Definition check_iterator (a : addr) (it : iter) : outcome unit :=
  match mem a with
  | VObj m =>
      let* b := pos_eq (it_obj it) (Some (length m)) in
      if b : bool then Throw (EOutOfRange "object iterator out of range") else Ret tt
  | VArr l =>
      let* b := pos_eq (it_arr it) (Some (length l)) in
      if b : bool then Throw (EOutOfRange "array iterator out of range") else Ret tt
  | VNull => Throw (EOutOfRange "null iterator out of range")
  | _ => if (it_prim it =? 0)%Z then Ret tt else Throw (EOutOfRange "primitive iterator out of range")
  end.

(** key(), iterator.hpp:184-192 *)
Definition it_key (it : iter) : outcome str :=
  let* a := check_data it in
  let* _ := check_iterator a it in
  match mem a with
  | VObj m =>
      match it_obj it with
      | Some i => match nth_error m i with Some (k, _) => Ret k | None => UB end
      | None => UB
      end
  | _ => Throw (EIter "cannot use key() with non-object type")
  end.

(** value() and operator*, iterator.hpp:194-216.  The reference is given as
    the subscripts leading to the element. *)
Definition it_value (it : iter) : outcome (list acc) :=
  let* a := check_data it in
  let* _ := check_iterator a it in
  match mem a with
  | VObj m =>
      match it_obj it with
      | Some i => match nth_error m i with Some (k, _) => Ret [AtKey k] | None => UB end
      | None => UB
      end
  | VArr l =>
      match it_arr it with
      | Some i => match nth_error l i with Some _ => Ret [AtIdx (N.of_nat i)] | None => UB end
      | None => UB
      end
  | _ => Ret []
  end.

(** what reading through the reference gives *)
Definition it_read (it : iter) : outcome value :=
  let* p := it_value it in
  match it_val it with
  | Some a => snd (via p (fun x => (x, Ret x)) (mem a))
  | None => UB
  end.

(** std::advance on a container iterator of a container with n elements *)
Definition advance (n : nat) (p : option nat) (off : Z) : outcome nat :=
  match p with
  | Some i =>
      let j := (Z.of_nat i + off)%Z in
      if ((0 <=? j) && (j <=? Z.of_nat n))%Z then Ret (Z.to_nat j) else UB
  | None => UB
  end.

(** operator++ (prefix), iterator.hpp:228-256; operator--, 265-293 *)
Definition it_step (off : Z) (it : iter) : outcome iter :=
  let* a := check_data it in
  match mem a with
  | VObj m => let* j := advance (length m) (it_obj it) off in Ret (set_obj it j)
  | VArr l => let* j := advance (length l) (it_arr it) off in Ret (set_arr it j)
  | VNull => Ret it
  | _ => let* z := chk64 (it_prim it + off) in Ret (set_prim it z)
  end.
Definition it_incr : iter -> outcome iter := it_step 1.
Definition it_decr : iter -> outcome iter := it_step (-1).

(** operator+= , iterator.hpp:310-338; operator+ at 299-304 *)
Definition it_add (off : Z) (it : iter) : outcome iter :=
  let* a := check_data it in
  match mem a with
  | VObj _ => Throw (EIter "cannot compute offsets with object type")
  | VArr l => let* j := advance (length l) (it_arr it) off in Ret (set_arr it j)
  | VNull => Ret it
  | _ => let* z := chk64 (it_prim it + off) in Ret (set_prim it z)
  end.
(** operator-= and operator-(difference_type), iterator.hpp:295-309 *)
Definition it_sub (off : Z) (it : iter) : outcome iter :=
  let* off := chk64 (- off) in it_add off it.

(** operator-(iterator), iterator.hpp:340-351 *)
Definition it_diff (it rhs : iter) : outcome Z :=
  let* a := check_data it in
  let* b := check_data rhs in
  if negb (a =? b) then Throw (EIter "cannot compute iterator offsets of different value objects")
  else
    match mem a with
    | VArr _ =>
        match it_arr it, it_arr rhs with
        | Some i, Some j => Ret (Z.of_nat i - Z.of_nat j)%Z
        | _, _ => UB
        end
    | _ => Throw (EIter "cannot compute iterator offsets with non-array type")
    end.

(** operator==, iterator.hpp:357-380 *)
Definition it_eq (it other : iter) : outcome bool :=
  match it_val it with
  | None => Ret false
  | Some a =>
      match it_val other with
      | Some b =>
          if a =? b then
            match mem a with
            | VObj _ => pos_eq (it_obj it) (it_obj other)
            | VArr _ => pos_eq (it_arr it) (it_arr other)
            | _ => Ret (it_prim it =? it_prim other)%Z
            end
          else Ret false
      | None => Ret false
      end
  end.

(** operator<, iterator.hpp:394-411 *)
Definition it_lt (it other : iter) : outcome bool :=
  let* a := check_data it in
  let* b := check_data other in
  if negb (a =? b) then Throw (EIter "cannot compare iterators of different value objects")
  else
    match mem a with
    | VObj _ => Throw (EIter "cannot compare iterators with object type")
    | VArr _ =>
        match it_arr it, it_arr other with
        | Some i, Some j => Ret (Nat.ltb i j)
        | _, _ => UB
        end
    | _ => Ret (it_prim it <? it_prim other)%Z
    end.

(** operator!=, >, >=, <=: iterator.hpp:352-355 and 382-393 *)
Definition it_ne (it other : iter) : outcome bool := let* b := it_eq it other in Ret (negb b).
Definition it_gt (it other : iter) : outcome bool := it_lt other it.
Definition it_ge (it other : iter) : outcome bool := let* b := it_lt it other in Ret (negb b).
Definition it_le (it other : iter) : outcome bool := let* b := it_lt other it in Ret (negb b).

(** ** reverse_iterator, iterator.hpp:518-543, over std::reverse_iterator *)
Definition v_rbegin (a : addr) : outcome iter := v_end a.      (* value.hpp:265-276 *)
Definition v_rend (a : addr) : outcome iter := v_begin a.      (* value.hpp:277-288 *)
Definition rit_incr (r : iter) : outcome iter := it_decr r.
Definition rit_decr (r : iter) : outcome iter := it_incr r.
(** std::prev is --  *)
Definition rit_key (r : iter) : outcome str := let* p := it_decr r in it_key p.
Definition rit_value (r : iter) : outcome (list acc) := let* p := it_decr r in it_value p.
Definition rit_read (r : iter) : outcome value := let* p := it_decr r in it_read p.

(** ** Erasing through iterators: the value at address a afterwards and the
    returned iterator *)

Definition own (a : addr) (it : iter) : bool :=
  match it_val it with Some b => a =? b | None => false end.

(** erase(pos), value.hpp:366-391.  The standard container requires an
    iterator into itself that can be dereferenced; nothing is checked. *)
Definition v_erase_it (a : addr) (pos : iter) : value * outcome iter :=
  match v_end a with
  | Ret r =>
      match mem a with
      | VObj m =>
          match own a pos, it_obj pos with
          | true, Some i =>
              if Nat.ltb i (length m) then (VObj (remove_nth i m), Ret (set_obj r i)) else (mem a, UB)
          | _, _ => (mem a, UB)
          end
      | VArr l =>
          match own a pos, it_arr pos with
          | true, Some i =>
              if Nat.ltb i (length l) then (VArr (remove_nth i l), Ret (set_arr r i)) else (mem a, UB)
          | _, _ => (mem a, UB)
          end
      | _ => (mem a, Throw (EIter "cannot use erase() with non-object & non-array value"))
      end
  | o => (mem a, o)
  end.

(** erase(first, last), value.hpp:393-416 *)
Definition v_erase_range (a : addr) (first last : iter) : value * outcome iter :=
  match v_end a with
  | Ret r =>
      match mem a with
      | VObj m =>
          match own a first && own a last, it_obj first, it_obj last with
          | true, Some i, Some j =>
              if Nat.leb i j && Nat.leb j (length m)
              then (VObj (firstn i m ++ skipn j m), Ret (set_obj r i)) else (mem a, UB)
          | _, _, _ => (mem a, UB)
          end
      | VArr l =>
          match own a first && own a last, it_arr first, it_arr last with
          | true, Some i, Some j =>
              if Nat.leb i j && Nat.leb j (length l)
              then (VArr (firstn i l ++ skipn j l), Ret (set_arr r i)) else (mem a, UB)
          | _, _, _ => (mem a, UB)
          end
      | _ => (mem a, Throw (EIter "cannot use erase() with non-object & non-array value"))
      end
  | o => (mem a, o)
  end.

(** ** Loops over a value, as in  for (auto it = v.begin(); it != v.end(); ++it) *)
Fixpoint walk (n : nat) (step : iter -> outcome iter) (it : iter) : outcome iter :=
  match n with
  | O => Ret it
  | S n' => let* it' := step it in walk n' step it'
  end.

Fixpoint loop (fuel : nat) (step : iter -> outcome iter) (read : iter -> outcome value) (it stop : iter) : outcome (list value) :=
  match fuel with
  | O => OutOfFuel
  | S fuel' =>
      let* e := it_eq it stop in
      if e : bool then Ret []
      else
        let* x := read it in
        let* it' := step it in
        let* xs := loop fuel' step read it' stop in
        Ret (x :: xs)
  end.

(** std::distance for a bidirectional iterator *)
Fixpoint distance (fuel : nat) (it stop : iter) : outcome N :=
  match fuel with
  | O => OutOfFuel
  | S fuel' =>
      let* e := it_eq it stop in
      if e : bool then Ret 0
      else let* it' := it_incr it in let* n := distance fuel' it' stop in Ret (n + 1)
  end.
End Mem.
