(** Conversions between basic_value and C++ types (details/conversion.hpp) and
    get (details/value.hpp:521-676).

    [to_val] is to_value(c, x): the value afterwards and the outcome.
    [from_val] is do_get<T>(x): from_value(c, x), or a copy for basic_value
    itself; it gives the target object afterwards even when an exception is
    thrown.  Which overload the compiler selects is fixed by the type.
    array_type and object_type, std::vector and std::map of basic_values, are
    [TyRaw]: the from_value of the containers and pointers asks for elements
    that satisfy is_value_getable (declare.hpp:224-238), which basic_value itself
    does not, so that conversion.hpp:158-186 remain; std::list<basic_value> and
    the like can be written but not read.  Both kinds of to_value (98-110, and
    296-306, 433-443 for constant or temporary objects) give the same value.
    Conversions of user types written by hand, without CONFIGOR_BIND, are in
    ConvUser.v. *)
From Verif Require Import Base Value Compare ValueOps Iterator Cpp Message.

(** What C++ leaves open: the iteration order of unordered containers and the
    order in which the two arguments of emplace are evaluated. *)
Record env := mkEnv {
  e_set : list cval -> list cval;
  e_map : list (str * cval) -> list (str * cval);
  e_key1 : bool
}.

Definition void {A} (o : outcome A) : outcome unit := let* _ := o in Ret tt.

(** s1; s2 *)
Definition seq_ {X} (r : X * outcome unit) (k : X -> X * outcome unit) : X * outcome unit :=
  match r with
  | (c, Ret _) => k c
  | (c, o) => (c, o)
  end.

(** c[...] = y : y converts to a temporary basic_value, which is assigned *)
Definition put (p : list acc) (tmp : res unit) (c : value) : res unit :=
  match tmp with
  | (v, Ret _) => let '(c', o) := run p (Assign v) c in (c', void o)
  | (_, o) => (c, o)
  end.

(** the loops over a container, conversion.hpp:196-200, 280-284, 301-305, ... *)
Fixpoint put_seq (conv : cval -> res unit) (i : N) (l : list cval) (c : value) : res unit :=
  match l with
  | [] => (c, Ret tt)
  | y :: l' => seq_ (put [RefIdx i] (conv y) c) (put_seq conv (i + 1) l')
  end.

(** conversion.hpp:440-443, 466-469 *)
Fixpoint put_map (conv : cval -> res unit) (m : list (str * cval)) (c : value) : res unit :=
  match m with
  | [] => (c, Ret tt)
  | (k, y) :: m' => seq_ (put [RefKey k] (conv y) c) (put_map conv m')
  end.

(** for (i = 0; cond(i); i++) body(i) *)
Fixpoint for_loop {X} (fuel : nat) (cond : N -> bool) (body : N -> X -> X * outcome unit) (i : N) (s : X) : X * outcome unit :=
  match fuel with
  | O => (s, OutOfFuel)
  | S fuel' => if cond i then seq_ (body i s) (for_loop fuel' cond body (i + 1)) else (s, Ret tt)
  end.

(** for (iter = c.cbegin(); iter != c.cend(); iter++) body(iter), c at address 0 *)
Fixpoint each {X} (fuel : nat) (c : value) (body : iter -> X -> X * outcome unit) (it : iter) (s : X) : X * outcome unit :=
  match fuel with
  | O => (s, OutOfFuel)
  | S fuel' =>
      match (let* e := v_end (fun _ => c) 0 in it_eq (fun _ => c) it e) with
      | Ret true => (s, Ret tt)
      | Ret false =>
          seq_ (body it s) (fun s =>
            match it_incr (fun _ => c) it with
            | Ret it' => each fuel' c body it' s
            | o => (s, void o)
            end)
      | o => (s, void o)
      end
  end.

(** reading through the reference a const subscript gives, value.hpp:730-733 *)
Definition at_idx (i : N) (c : value) : outcome value := snd (via_at_idx i (fun x => (x, Ret x)) c).
Definition at_key (k : str) (c : value) : outcome value := snd (via_at_key k (fun x => (x, Ret x)) c).

(** make_conversion_error, conversion.hpp:45-50 *)
Definition conv_error (c : value) (want : vtype) : exn :=
  EType ("cannot convert type '" ++ type_name (type_of c) ++ "' to type '" ++ type_name want ++ "' (implicitly)").

(** x = <expression>: nothing is assigned if the expression throws *)
Definition assign {X A} (s : X) (o : outcome A) (upd : A -> X) : X * outcome unit :=
  match o with
  | Ret a => (upd a, Ret tt)
  | _ => (s, void o)
  end.

(** v.insert(<expression>) on a set *)
Definition insert (s : list cval) (o : outcome cval) : list cval * outcome unit :=
  match o with
  | Ret y => if ceqb y y then (set_insert y s, Ret tt) else (s, UB)
  | _ => (s, void o)
  end.

Section Conv.
Variable e : env.

(** to_value.  scalars: conversion.hpp:55-96; array_type and object_type
    98-110; arrays 190-200, 275-285; pointers
    219-230, 246-257; sequences 296-306, 318-328, 340-351, 363-374; sets
    387-398, 410-421; maps 433-443, 458-469; CONFIGOR_BIND 786-794, 822-826 *)
Fixpoint to_val (t : cty) (x : cval) (c : value) {struct t} : res unit :=
  match t, x with
  | TyBool, CBool b => (VBool b, Ret tt)
  | TyInt _ _, CInt z => (VInt (wrap 64 true z), Ret tt)
  | TyDouble, CDbl f => (VFloat f, Ret tt)
  | TyFloat, CFlt f => (VFloat (to_double f), Ret tt)
  | TyString, CStr s => (VStr s, Ret tt)
  | TyJson, CJson v => (v, Ret tt)
  | TyRaw _, CJson v => (v, Ret tt)
  | TyPtr _, CPtr None => (VNull, Ret tt)
  | TyPtr t', CPtr (Some y) => put [] (to_val t' y VNull) c
  | TyArray _ t', CSeq l => put_seq (fun y => to_val t' y VNull) 0 l (of_type TArray)
  | TySeq KUSet t', CSeq l => put_seq (fun y => to_val t' y VNull) 0 (e_set e l) (of_type TArray)
  | TySeq _ t', CSeq l => put_seq (fun y => to_val t' y VNull) 0 l (of_type TArray)
  | TyMap true t', CMap m => put_map (fun y => to_val t' y VNull) (e_map e m) (of_type TObject)
  | TyMap false t', CMap m => put_map (fun y => to_val t' y VNull) m (of_type TObject)
  | TyStruct fs, CRec l =>
      (fix fields (fs : list (str * bool * cty)) (l : list cval) (c : value) : res unit :=
         match fs, l with
         | (n, req, t') :: fs', y :: l' =>
             seq_ (if req || negb (ceqb y (dflt t'))
                   then put [RefKey n] (to_val t' y VNull) c else (c, Ret tt))
                  (fields fs' l')
         | _, _ => (c, Ret tt)
         end) fs l c
  | _, _ => (c, UB)    (* not a value of the type; cannot be written in C++ *)
  end.

(** basic_value(x), value.hpp:137-141 *)
Definition of_cpp (t : cty) (x : cval) : outcome value :=
  let '(v, o) := to_val t x VNull in let* _ := o in Ret v.

(** do_get<T>(), value.hpp:586-594: a value-initialised T is handed to from_value *)
Definition fresh (r : cval * outcome unit) : outcome cval :=
  let '(x, o) := r in let* _ := o in Ret x.

(** from_value.  scalars: conversion.hpp:114-146; array_type and object_type
    158-186; arrays 202-215, 287-294;
    pointers 232-244, 259-271; sequences 308-316, 330-338, 353-361, 376-385;
    sets 400-408, 423-431; maps 445-456, 471-481; CONFIGOR_BIND 787-800,
    827-831.  basic_value: value.hpp:599-603. *)
Fixpoint from_val (t : cty) (c : value) (x : cval) {struct t} : cval * outcome unit :=
  match t with
  | TyBool => match c with VBool b => (CBool b, Ret tt) | _ => (x, Throw (conv_error c TBoolean)) end
  | TyInt w sg => match c with VInt z => (CInt (wrap w sg z), Ret tt) | _ => (x, Throw (conv_error c TInteger)) end
  | TyDouble => match c with VFloat f => (CDbl f, Ret tt) | _ => (x, Throw (conv_error c TFloating)) end
  | TyFloat => match c with VFloat f => (CFlt (to_single f), Ret tt) | _ => (x, Throw (conv_error c TFloating)) end
  | TyString => match c with VStr s => (CStr s, Ret tt) | _ => (x, Throw (conv_error c TString)) end
  | TyJson => (CJson c, Ret tt)
  | TyRaw raw =>
      match raw, c with
      | _, VNull => (dflt (TyRaw raw), Ret tt)
      | false, VArr _ | true, VObj _ => (CJson c, Ret tt)
      | _, _ => (x, Throw (conv_error c (if raw then TObject else TArray)))
      end
  | TyPtr t' =>
      match c with
      | VNull => (CPtr None, Ret tt)
      | _ => assign x (fresh (from_val t' c (dflt t'))) (fun y => CPtr (Some y))
      end
  | TyArray n t' =>
      match x with
      | CSeq l =>
          let '(l', o) :=
            for_loop (S n) (fun i => (i <? v_size c) && (i <? N.of_nat n))
              (fun i l => assign l (let* v := at_idx i c in fresh (from_val t' v (dflt t')))
                                 (fun y => set_nth (N.to_nat i) y l)) 0 l in
          (CSeq l', o)
      | _ => (x, UB)
      end
  | TySeq k t' =>
      match x with
      | CSeq l =>
          let get_at i := let* v := at_idx i c in fresh (from_val t' v (dflt t')) in
          let run_loop := for_loop (S (N.to_nat (v_size c))) (fun i => i <? v_size c) in
          let '(l', o) :=
            match k with
            | KVector | KDeque =>
                run_loop (fun i l => assign l (get_at i) (fun y => set_nth (N.to_nat i) y l)) 0
                         (resize (dflt t') (N.to_nat (v_size c)) l)
            | KList => run_loop (fun i l => assign l (get_at i) (fun y => l ++ [y])) 0 []
            | KForward => run_loop (fun i l => assign l (get_at (v_size c - i - 1)) (fun y => y :: l)) 0 []
            | KSet | KUSet => run_loop (fun i l => insert l (get_at i)) 0 []
            end in
          (CSeq l', o)
      | _ => (x, UB)
      end
  | TyMap _ t' =>
      match x with
      | CMap m =>
          let value_of it := let* v := it_read (fun _ => c) it in fresh (from_val t' v (dflt t')) in
          let pair_of it :=
            if e_key1 e
            then let* k := it_key (fun _ => c) it in let* y := value_of it in Ret (k, y)
            else let* y := value_of it in let* k := it_key (fun _ => c) it in Ret (k, y) in
          let '(m', o) :=
            match v_begin (fun _ => c) 0 with
            | Ret it =>
                each (S (N.to_nat (v_size c))) c
                  (fun it m => assign m (pair_of it) (fun p => obj_emplace (fst p) (snd p) m)) it m
            | o => (m, void o)
            end in
          (CMap m', o)
      | _ => (x, UB)
      end
  | TyStruct fs =>
      match x with
      | CRec l =>
          let '(l', o) :=
            (fix fields (fs : list (str * bool * cty)) (l : list cval) : list cval * outcome unit :=
               match fs, l with
               | (n, req, t') :: fs', y :: l' =>
                   if req || (0 <? v_count n c) then
                     match at_key n c with
                     | Ret v =>
                         (* get(v.field): exceptions are swallowed, value.hpp:657-672 *)
                         match from_val t' v y with
                         | (y', Ret _) | (y', Throw _) =>
                             let '(r, o) := fields fs' l' in (y' :: r, o)
                         | (y', o) => (y' :: l', o)
                         end
                     | o => (l, void o)
                     end
                   else let '(r, o) := fields fs' l' in (y :: r, o)
               | _, _ => (l, Ret tt)
               end) fs l in
          (CRec l', o)
      | _ => (x, UB)
      end
  end.

(** get<T>(), value.hpp:625-631 *)
Definition get (t : cty) (c : value) : outcome cval := fresh (from_val t c (dflt t)).

(** get(x), value.hpp:653-673 *)
Definition get_into (t : cty) (c : value) (x : cval) : cval * outcome bool :=
  match from_val t c x with
  | (x', Ret _) => (x', Ret true)
  | (x', Throw _) => (x', Ret false)
  | (x', Abort) => (x', Abort)
  | (x', UB) => (x', UB)
  | (x', OutOfFuel) => (x', OutOfFuel)
  end.
End Conv.

(** get_ptr and get<T&>() for the seven stored types, value.hpp:473-566:
    the pointer is null unless the stored type is the one asked for *)
Definition get_ptr (want : vtype) (c : value) : option value :=
  match want, c with
  | TBoolean, VBool _ | TInteger, VInt _ | TFloating, VFloat _
  | TString, VStr _ | TArray, VArr _ | TObject, VObj _ => Some c
  | _, _ => None
  end.
Definition get_ref (want : vtype) (c : value) : outcome value :=
  match get_ptr want c with
  | Some v => Ret v
  | None => Throw (EType ("incompatible reference type for get, actual type is " ++ type_name (type_of c)))
  end.
