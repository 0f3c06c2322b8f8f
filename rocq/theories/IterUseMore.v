(** More of iterators kept while their value changes: erase of a range, offsets
    and order, reverse iterators. *)
From Coq Require Import ZArith.
From Verif Require Import Base Value ValueOps IterUse.

(** ** v.erase(first, last): value.hpp:394-416 *)

(** the entries from a node on *)
Fixpoint from_key (k : str) (m : list (str * (nat * value))) : option (list (str * (nat * value))) :=
  match m with
  | [] => None
  | e :: m' => if str_eqb k (fst e) then Some m else from_key k m'
  end.
Definition from_node (o : option node) (m : list (str * (nat * value))) : option (list (str * (nat * value))) :=
  match o with None => Some [] | Some d => from_key (fst d) m end.

(** std::map::erase(first, last); [None] if last cannot be reached from first *)
Fixpoint erase_from (k : str) (o : option node) (m : list (str * (nat * value))) : option (list (str * (nat * value))) :=
  match m with
  | [] => None
  | e :: m' =>
      if str_eqb k (fst e) then from_node o m
      else match erase_from k o m' with Some r => Some (e :: r) | None => None end
  end.
Definition erase_nodes (o1 o2 : option node) (m : list (str * (nat * value))) : option (list (str * (nat * value))) :=
  match o1, o2 with
  | None, None => Some m
  | None, Some _ => None
  | Some d, _ => erase_from (fst d) o2 m
  end.

Definition node_at (x : option (node * value)) : option node := match x with Some (d, _) => Some d | None => None end.

(** std::vector::erase counts as a change of the buffer even if the range is empty. *)
Definition u_erase_range (u w : uit) (st : ist) : ist * outcome uit :=
  let n := i_next st in
  match i_body st with
  | BObj c m =>
      match use_obj u c m, use_obj w c m with
      | Ret x, Ret y =>
          match erase_nodes (node_at x) (node_at y) m with
          | Some m' => (mkI (BObj c m') n, Ret (with_obj (u_end (i_body st)) (c, node_at y)))
          | None => (st, UB)
          end
      | _, _ => (st, UB)
      end
  | BArr g l =>
      match use_arr u g (length l), use_arr w g (length l) with
      | Ret i, Ret j =>
          if Nat.leb i j then (mkI (BArr n (firstn i l ++ skipn j l)) (S n), Ret (with_arr (u_end (i_body st)) (n, i)))
          else (st, UB)
      | _, _ => (st, UB)
      end
  | BVal _ => (st, Throw (EIter "cannot use erase() with non-object & non-array value"))
  end.

(** ** += and -=, iterator.hpp:295-339; difference 341-352; < 394-412 *)
Definition u_add (off : Z) (u : uit) (b : body) : outcome uit :=
  match b with
  | BObj _ _ => Throw (EIter "cannot compute offsets with object type")
  | BArr g l =>
      let* i := use_arr u g (length l) in
      let j := (Z.of_nat i + off)%Z in
      if (Z.leb 0 j && Z.leb j (Z.of_nat (length l)))%bool then Ret (with_arr u (g, Z.to_nat j)) else UB
  | BVal VNull => Ret u
  | BVal _ => Ret (with_prim u (u_prim u + off))
  end.
Definition u_diff (u w : uit) (b : body) : outcome Z :=
  match b with
  | BArr g l =>
      let* i := use_arr u g (length l) in
      let* j := use_arr w g (length l) in
      Ret (Z.of_nat i - Z.of_nat j)%Z
  | _ => Throw (EIter "cannot compute iterator offsets with non-array type")
  end.
Definition u_lt (u w : uit) (b : body) : outcome bool :=
  match b with
  | BObj _ _ => Throw (EIter "cannot compare iterators with object type")
  | BArr g l =>
      let* i := use_arr u g (length l) in
      let* j := use_arr w g (length l) in
      Ret (Nat.ltb i j)
  | BVal _ => Ret (Z.ltb (u_prim u) (u_prim w))
  end.

(** ** Reverse iterators, iterator.hpp:517-543: they keep the iterator after the
    element they give (rbegin() keeps end(), value.hpp:265-288) *)
Definition r_entry (r : uit) (b : body) : outcome (option str * value) := let* p := u_decr r b in u_entry p b.
Definition r_incr (r : uit) (b : body) : outcome uit := u_decr r b.
