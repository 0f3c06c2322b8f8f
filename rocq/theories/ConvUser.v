(** Conversions of classes that come with their own to_value and from_value
    (README "non-intrusive" conversions; details/declare.hpp:160-238,
    details/conversion.hpp:484-545, details/value.hpp:137-141, 565-673), and of
    the containers, pointers and bound structs of details/conversion.hpp whose
    elements are of such classes.

    A C++ type is given by what the library can do with its objects: a record
    [conv].  The conversions of a class are arbitrary functions; they may throw
    anything at any point, may leave a half-written object or value behind and
    may call the library themselves.  The library never looks at an exception
    that passes through a conversion: it is caught by catch (...) in get(x) or
    not at all, so [exn] stands for any exception.
    Simplifications: the functions of a class have no other effect than on
    their arguments and terminate, and its constructors, assignments and
    comparisons do not throw; objects are the [cval] of Cpp.v; sets of such
    classes are left out. *)
From Verif Require Import Base Value Compare ValueOps Iterator Cpp Message Convert.

Record conv := mkConv {
  to_ : cval -> value -> res unit;                   (* to_value(c, x) *)
  get_ : value -> outcome cval;                      (* c.get<T>() *)
  into_ : value -> cval -> cval * outcome unit;      (* do_get<T>(x) *)
  zero : cval;                                       (* T{} *)
  differs : cval -> bool                             (* x != T{} *)
}.

(** basic_value(x), value.hpp:137-141 *)
Definition make (c : conv) (x : cval) : outcome value :=
  let '(v, o) := to_ c x VNull in let* _ := o in Ret v.

(** get(x), value.hpp:653-673 *)
Definition try_get (c : conv) (v : value) (x : cval) : cval * outcome bool :=
  match into_ c v x with
  | (x', Ret _) => (x', Ret true)
  | (x', Throw _) => (x', Ret false)
  | (x', Abort) => (x', Abort)
  | (x', UB) => (x', UB)
  | (x', OutOfFuel) => (x', OutOfFuel)
  end.

(** A class: its to_value(c, x), its from_value(c, x) and its value_binder's
    T from_value(c), of which it has one or both. *)
Inductive froms :=
| Fills (f : value -> cval -> cval * outcome unit)
| Makes (g : value -> outcome cval)
| Both (f : value -> cval -> cval * outcome unit) (g : value -> outcome cval).
Record class := mkClass {
  u_to : cval -> value -> res unit;
  u_from : froms;
  u_zero : cval;                 (* used for [Fills] only, and by the containers that need T{} *)
  u_differs : cval -> bool
}.

(** the overloads of do_get by priority: value.hpp:577-594 without and
    value.hpp:610-624 with an object to write to *)
Definition user (u : class) : conv :=
  {| to_ := u_to u;
     get_ := fun v => match u_from u with
                      | Fills f => fresh (f v (u_zero u))
                      | Makes g | Both _ g => g v
                      end;
     into_ := fun v x => match u_from u with
                         | Fills f | Both f _ => f v x
                         | Makes g => assign x (g v) (fun y => y)
                         end;
     zero := u_zero u;
     differs := u_differs u |}.

(** The types of Convert.v. *)
Definition built_in (e : env) (t : cty) : conv :=
  {| to_ := to_val e t; get_ := get e t; into_ := from_val e t; zero := dflt t;
     differs := fun x => negb (ceqb x (dflt t)) |}.

Section Of.
Variable e : env.
(** C++11 leaves open whether the reference c[...] or the right-hand side is
    evaluated first in c[...] = y and c[...].operator=(y) *)
Variable ref_first : bool.

Definition store (a : acc) (tmp : res unit) (c : value) : res unit :=
  match tmp with
  | (_, Ret _) => put [a] tmp c
  | (_, o) =>
      if ref_first
      then match run [a] Get c with
           | (c', Ret _) => (c', o)
           | (c', o') => (c', void o')
           end
      else (c, o)
  end.

(** the loops of conversion.hpp:190-200, 275-374 *)
Fixpoint store_seq (tmp : cval -> res unit) (i : N) (l : list cval) (c : value) : res unit :=
  match l with
  | [] => (c, Ret tt)
  | y :: l' => seq_ (store (RefIdx i) (tmp y) c) (store_seq tmp (i + 1) l')
  end.
(** conversion.hpp:433-443, 458-469 *)
Fixpoint store_map (tmp : cval -> res unit) (m : list (str * cval)) (c : value) : res unit :=
  match m with
  | [] => (c, Ret tt)
  | (k, y) :: m' => seq_ (store (RefKey k) (tmp y) c) (store_map tmp m')
  end.
(** CONFIGOR_BIND, conversion.hpp:786-794, 822-826 *)
Fixpoint store_fields (fs : list (str * bool * conv)) (l : list cval) (c : value) : res unit :=
  match fs, l with
  | (n, req, t) :: fs', y :: l' =>
      seq_ (if req || differs t y then store (RefKey n) (to_ t y VNull) c else (c, Ret tt))
           (store_fields fs' l')
  | _, _ => (c, Ret tt)
  end.

Definition of_into (to : cval -> value -> res unit) (into : value -> cval -> cval * outcome unit) (z : cval) (d : cval -> bool) : conv :=
  {| to_ := to; get_ := fun v => fresh (into v z); into_ := into; zero := z; differs := d |}.

(** std::unique_ptr, std::shared_ptr: conversion.hpp:217-271 *)
Definition ptr_conv (t : conv) : conv :=
  of_into
    (fun x c => match x with
                | CPtr None => (VNull, Ret tt)
                | CPtr (Some y) => put [] (to_ t y VNull) c
                | _ => (c, UB)
                end)
    (fun v x => match v with
                | VNull => (CPtr None, Ret tt)
                | _ => assign x (get_ t v) (fun y => CPtr (Some y))
                end)
    (CPtr None)
    (fun x => match x with CPtr None => false | _ => true end).

(** std::array and C arrays: conversion.hpp:188-215, 273-294 *)
Definition array_conv (n : nat) (t : conv) (d : cval -> bool) : conv :=
  of_into
    (fun x c => match x with
                | CSeq l => store_seq (fun y => to_ t y VNull) 0 l (of_type TArray)
                | _ => (c, UB)
                end)
    (fun v x => match x with
                | CSeq l =>
                    let '(l', o) :=
                      for_loop (S n) (fun i => (i <? v_size v) && (i <? N.of_nat n))
                        (fun i l => assign l (let* w := at_idx i v in get_ t w) (fun y => set_nth (N.to_nat i) y l)) 0 l in
                    (CSeq l', o)
                | _ => (x, UB)
                end)
    (CSeq (repeat (zero t) n)) d.

(** std::vector, deque, list and forward_list: conversion.hpp:296-385 *)
Definition seq_conv (k : seqk) (t : conv) (d : cval -> bool) : conv :=
  of_into
    (fun x c => match x with
                | CSeq l => store_seq (fun y => to_ t y VNull) 0 l (of_type TArray)
                | _ => (c, UB)
                end)
    (fun v x => match x with
                | CSeq l =>
                    let get_at i := let* w := at_idx i v in get_ t w in
                    let run_loop := for_loop (S (N.to_nat (v_size v))) (fun i => i <? v_size v) in
                    let '(l', o) :=
                      match k with
                      | KVector | KDeque =>
                          run_loop (fun i l => assign l (get_at i) (fun y => set_nth (N.to_nat i) y l)) 0
                                   (resize (zero t) (N.to_nat (v_size v)) l)
                      | KList => run_loop (fun i l => assign l (get_at i) (fun y => l ++ [y])) 0 []
                      | KForward => run_loop (fun i l => assign l (get_at (v_size v - i - 1)) (fun y => y :: l)) 0 []
                      | KSet | KUSet => (l, UB)     (* left out *)
                      end in
                    (CSeq l', o)
                | _ => (x, UB)
                end)
    (CSeq []) d.

(** std::map and unordered_map: conversion.hpp:433-481 *)
Definition map_conv (hashed : bool) (t : conv) (d : cval -> bool) : conv :=
  of_into
    (fun x c => match x with
                | CMap m => store_map (fun y => to_ t y VNull) (if hashed then e_map e m else m) (of_type TObject)
                | _ => (c, UB)
                end)
    (fun v x => match x with
                | CMap m =>
                    let value_of it := let* w := it_read (fun _ => v) it in get_ t w in
                    let pair_of it :=
                      if e_key1 e
                      then let* k := it_key (fun _ => v) it in let* y := value_of it in Ret (k, y)
                      else let* y := value_of it in let* k := it_key (fun _ => v) it in Ret (k, y) in
                    let '(m', o) :=
                      match v_begin (fun _ => v) 0 with
                      | Ret it =>
                          each (S (N.to_nat (v_size v))) v
                            (fun it m => assign m (pair_of it) (fun p => obj_emplace (fst p) (snd p) m)) it m
                      | o => (m, void o)
                      end in
                    (CMap m', o)
                | _ => (x, UB)
                end)
    (CMap []) d.

(** CONFIGOR_BIND, conversion.hpp:787-800, 827-831 *)
Fixpoint get_fields (fs : list (str * bool * conv)) (v : value) (l : list cval) : list cval * outcome unit :=
  match fs, l with
  | (n, req, t) :: fs', y :: l' =>
      if req || (0 <? v_count n v) then
        match at_key n v with
        | Ret w =>
            match try_get t w y with
            | (y', Ret _) => let '(r, o) := get_fields fs' v l' in (y' :: r, o)
            | (y', o) => (y' :: l', void o)
            end
        | o => (l, void o)
        end
      else let '(r, o) := get_fields fs' v l' in (y :: r, o)
  | _, _ => (l, Ret tt)
  end.

Definition struct_conv (fs : list (str * bool * conv)) (d : cval -> bool) : conv :=
  of_into
    (fun x c => match x with CRec l => store_fields fs l c | _ => (c, UB) end)
    (fun v x => match x with CRec l => let '(l', o) := get_fields fs v l in (CRec l', o) | _ => (x, UB) end)
    (CRec (map (fun f => zero (snd f)) fs)) d.
End Of.
