(** Pointers to the content of a value, kept while values change: what
    get_ptr<T*>() and get<T&>() return (value.hpp:472-562).

    A boolean, integer or float is in the union of the basic_value itself, so its
    pointer is one into the variable; a string, array or object is in a block
    that the basic_value points to, so its pointer is that of the block.

    The values are those of variables that all exist, the rest of them null; what
    is inside a block is a plain value (the elements have no identity here, see
    Refs for them).  Allocation does not fail. *)
From Coq Require Import ZArith.
From Verif Require Import Base Value ValueOps.

(** data_type, value.hpp:71-79 *)
Inductive cell := CWord (v : value) (* null, boolean, integer, float *) | CBlk (i : nat).

Definition boxed (v : value) : bool := match v with VStr _ | VArr _ | VObj _ => true | _ => false end.

Record kst := mkK { k_var : nat -> cell; k_heap : nat -> option value; k_next : nat }.
Definition k_empty : kst := mkK (fun _ => CWord VNull) (fun _ => None) 0.

Definition upd {A} (f : nat -> A) (x : nat) (a : A) : nat -> A := fun y => if Nat.eqb y x then a else f y.

(** the value of a variable *)
Definition val (st : kst) (x : nat) : outcome value :=
  match k_var st x with
  | CWord v => Ret v
  | CBlk i => match k_heap st i with Some v => Ret v | None => UB end
  end.

(** the destructor of what is in x, value.hpp:165-168, 1036-1053; x itself is written next *)
Definition drop (x : nat) (st : kst) : kst :=
  match k_var st x with
  | CWord _ => st
  | CBlk i => mkK (k_var st) (upd (k_heap st) i None) (k_next st)
  end.

(** new content for x *)
Definition place (x : nat) (v : value) (st : kst) : kst :=
  if boxed v then mkK (upd (k_var st) x (CBlk (k_next st))) (upd (k_heap st) (k_next st) (Some v)) (S (k_next st))
  else mkK (upd (k_var st) x (CWord v)) (k_heap st) (k_next st).

(** a pointer: to the word of variable x as a boolean, integer or float, or to a block *)
Inductive kptr := PWord (x : nat) (t : vtype) | PBlk (i : nat) (t : vtype).

Definition has (t : vtype) (v : value) : bool :=
  match t, v with
  | TBoolean, VBool _ | TInteger, VInt _ | TFloating, VFloat _ | TString, VStr _ | TArray, VArr _ | TObject, VObj _ => true
  | _, _ => false
  end.

(** do_get_ptr, value.hpp:472-530; [None] is the null pointer *)
Definition k_get (t : vtype) (x : nat) (st : kst) : outcome (option kptr) :=
  let* v := val st x in
  Ret (if has t v then Some (match k_var st x with CWord _ => PWord x t | CBlk i => PBlk i t end) else None).

(** what a pointer points to: [UB] for a member of the union that is not in use,
    and for a block that was released *)
Definition k_read (p : kptr) (st : kst) : outcome value :=
  match p with
  | PWord x t => match k_var st x with CWord v => if has t v then Ret v else UB | CBlk _ => UB end
  | PBlk i t => match k_heap st i with Some v => if has t v then Ret v else UB | None => UB end
  end.

Inductive kcmd :=
| KSet (x : nat) (v : value)                (* x = basic_value(v) *)
| KCopy (x y : nat)                         (* x = y *)
| KMove (x y : nat)                         (* x = std::move(y) *)
| KSwap (x y : nat)                         (* x.swap(y) *)
| KDo (x : nat) (o : op)                    (* x.push_back(v), x.erase(k), x.clear(), ... *)
| KSub (x : nat) (a : acc) (p : list acc) (o : op) (* x[k]...push_back(v), x[k] = v, ... *)
| KStore (p : kptr) (v : value).            (* *p = v, v of the type of p *)

(** what a member function leaves: in the block of x, or in a new one if x was null *)
Definition change (x : nat) (f : value -> res result) (st : kst) : kst * outcome unit :=
  match val st x with
  | Ret v =>
      let '(v', o) := f v in
      (match k_var st x with
       | CBlk i => mkK (k_var st) (upd (k_heap st) i (Some v')) (k_next st)
       | CWord _ => place x v' st
       end, let* _ := o in Ret tt)
  | _ => (st, UB)
  end.

Definition k_step (c : kcmd) (st : kst) : kst * outcome unit :=
  match c with
  | KSet x v => (place x v (drop x st), Ret tt)                    (* value.hpp:699-707 *)
  | KCopy x y =>                                                   (* 689-697 *)
      if Nat.eqb x y then (st, Ret tt)
      else match val st y with Ret v => (place x v (drop x st), Ret tt) | _ => (st, UB) end
  | KMove x y =>                                                   (* 699-707 *)
      if Nat.eqb x y then (st, Ret tt)
      else
        let st' := drop x st in
        (mkK (upd (upd (k_var st') x (k_var st' y)) y (CWord VNull)) (k_heap st') (k_next st'), Ret tt)
  | KSwap x y =>                                                   (* 681-685 *)
      (mkK (upd (upd (k_var st) x (k_var st y)) y (k_var st x)) (k_heap st) (k_next st), Ret tt)
  | KDo x (Assign v) => (place x v (drop x st), Ret tt)
  | KDo x o => change x (run_op o) st
  | KSub x a p o => change x (run (a :: p) o) st
  | KStore (PWord x t) v =>
      match k_var st x with
      | CWord w => if has t w && has t v then (mkK (upd (k_var st) x (CWord v)) (k_heap st) (k_next st), Ret tt) else (st, UB)
      | CBlk _ => (st, UB)
      end
  | KStore (PBlk i t) v =>
      match k_heap st i with
      | Some w => if has t w && has t v then (mkK (k_var st) (upd (k_heap st) i (Some v)) (k_next st), Ret tt) else (st, UB)
      | None => (st, UB)
      end
  end.

Fixpoint k_run (cs : list kcmd) (st : kst) : kst * list (outcome unit) :=
  match cs with
  | [] => (st, [])
  | c :: cs' =>
      match k_step c st with
      | (st', (Ret _ | Throw _) as r) => let (st2, rs) := k_run cs' st' in (st2, r :: rs)
      | (st', r) => (st', [r])
      end
  end.
