(** Where content goes, and what variables hold, without pointers. *)
From Coq Require Import ZArith.
From Verif Require Import Base Value ValueOps Content.

(** Blocks in use belong to one variable each; only boxed values are in blocks, and
    the others are in words. *)
Definition kok (st : kst) : Prop :=
  (forall x i, k_var st x = CBlk i -> (i < k_next st)%nat /\ exists v, k_heap st i = Some v /\ boxed v = true) /\
  (forall x v, k_var st x = CWord v -> boxed v = false) /\
  (forall x y i, k_var st x = CBlk i -> k_var st y = CBlk i -> x = y) /\
  (forall i v, k_heap st i = Some v -> exists x, k_var st x = CBlk i).

(** the types whose content is in a block of its own, and those whose content is in the variable *)
Definition in_block (t : vtype) : Prop := t = TString \/ t = TArray \/ t = TObject.
Definition in_word (t : vtype) : Prop := t = TBoolean \/ t = TInteger \/ t = TFloating.

(** p was obtained before now *)
Definition kknown (st : kst) (p : kptr) : Prop := match p with PWord _ _ => True | PBlk i _ => (i < k_next st)%nat end.

(** p points to the content of x, of type t *)
Definition points (st : kst) (p : kptr) (x : nat) (t : vtype) : Prop :=
  match p with
  | PWord y u => y = x /\ u = t /\ t <> TNull /\ exists v, val st x = Ret v /\ boxed v = false /\ type_of v = t
  | PBlk i u => u = t /\ k_var st x = CBlk i /\ exists v, val st x = Ret v /\ type_of v = t
  end.

(** the variable that has the string, array or object of x after a command; [None]
    if it is destroyed *)
Definition goes (c : kcmd) (x : nat) : option nat :=
  match c with
  | KSet y _ | KDo y (Assign _) => if Nat.eqb x y then None else Some x
  | KCopy y z => if Nat.eqb y z then Some x else if Nat.eqb x y then None else Some x
  | KMove y z => if Nat.eqb y z then Some x else if Nat.eqb x y then None else if Nat.eqb x z then Some y else Some x
  | KSwap y z => if Nat.eqb x y then Some z else if Nat.eqb x z then Some y else Some x
  | _ => Some x
  end.
Fixpoint goes_all (cs : list kcmd) (x : nat) : option nat :=
  match cs with [] => Some x | c :: cs' => match goes c x with Some y => goes_all cs' y | None => None end end.

(** The commands on values, a store through a pointer to the content of [at_] as an
    assignment to that variable. *)
Definition values := nat -> value.
Definition set (vs : values) (x : nat) (v : value) : values := fun y => if Nat.eqb y x then v else vs y.
Definition effect (at_ : nat) (c : kcmd) (vs : values) : values :=
  match c with
  | KSet x v => set vs x v
  | KCopy x y => set vs x (vs y)
  | KMove x y => if Nat.eqb x y then vs else set (set vs x (vs y)) y VNull
  | KSwap x y => set (set vs x (vs y)) y (vs x)
  | KDo x o => set vs x (fst (run_op o (vs x)))
  | KSub x a p o => set vs x (fst (run (a :: p) o (vs x)))
  | KStore _ v => set vs at_ v
  end.
(** what a command other than a store returns *)
Definition answer (c : kcmd) (vs : values) : outcome unit :=
  match c with
  | KDo x o => let* _ := snd (run_op o (vs x)) in Ret tt
  | KSub x a p o => let* _ := snd (run (a :: p) o (vs x)) in Ret tt
  | _ => Ret tt
  end.
Definition fine (r : outcome unit) : Prop := r = Ret tt \/ exists e, r = Throw e.
Definition holds (st : kst) (vs : values) : Prop := forall x, val st x = Ret (vs x).

(** the same for a program without stores: what is held at the end and what each command returned *)
Definition storeless (c : kcmd) : Prop := match c with KStore _ _ => False | _ => True end.
Fixpoint effect_all (cs : list kcmd) (vs : values) : values := match cs with [] => vs | c :: cs' => effect_all cs' (effect 0 c vs) end.
Fixpoint answers (cs : list kcmd) (vs : values) : list (outcome unit) := match cs with [] => [] | c :: cs' => answer c vs :: answers cs' (effect 0 c vs) end.
