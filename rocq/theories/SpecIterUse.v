(** Where iterators stand in a value that changes. *)
From Coq Require Import ZArith.
From Verif Require Import Base Value ValueOps SpecGrammar SpecIter IterUse.

(** at an element of an array, or past the last; at a member of an object; past
    the last member *)
Inductive spot := Pos (i : nat) | At (k : str) | End.

Definition stands (u : uit) (b : body) (p : spot) : Prop :=
  match p, b with
  | Pos i, BArr g l => u_arr u = Some (g, i) /\ (i <= length l)%nat
  | At k, BObj c m => exists n x, obj_find k m = Some (n, x) /\ u_obj u = Some (c, Some (k, n))
  | End, BObj c m => u_obj u = Some (c, None)
  | _, _ => False
  end.

(** it stands nowhere *)
Definition astray (u : uit) (b : body) : Prop := forall p, ~ stands u b p.

(** Numbers in use are below the next one; keys are in order. *)
Definition ok (st : ist) : Prop :=
  match i_body st with
  | BVal v => ~ container v
  | BArr g _ => (g < i_next st)%nat
  | BObj c m => (c < i_next st)%nat /\ sorted m /\ Forall (fun p => (fst (snd p) < i_next st)%nat) m
  end.
(** u was obtained before now *)
Definition known (st : ist) (u : uit) : Prop :=
  (forall g i, u_arr u = Some (g, i) -> (g < i_next st)%nat) /\
  (forall c o, u_obj u = Some (c, o) -> (c < i_next st)%nat /\ forall k n, o = Some (k, n) -> (n < i_next st)%nat).

(** the elements of an object that is assigned have their keys in order *)
Definition tidy (c : ucmd) : Prop :=
  match c with UAssign (VObj m) | UStore _ (VObj m) => sorted m | _ => True end.

(** The spots whose iterators outlive a command. *)
Definition stays (c : ucmd) (b : body) (p : spot) : Prop :=
  match c with
  | UAssign _ | UMoveOut => False
  | UPush _ | UDelIdx _ => forall i, p <> Pos i
  | USetKey _ _ | UStore _ _ => True
  | USetIdx i _ => forall j, p = Pos j -> i < v_size (view b)
  | UDelKey k => p <> At k
  | UClear => p = End
  | UErase u => (forall i, p <> Pos i) /\ forall k, stands u b (At k) -> p <> At k
  end.

(** What the commands are called in ValueOps. *)
Definition plain (c : ucmd) : option (value -> res result) :=
  match c with
  | UAssign x => Some (run_op (Assign x))
  | UPush x => Some (run_op (PushBack x))
  | USetKey k x => Some (run [RefKey k] (Assign x))
  | USetIdx i x => Some (run [RefIdx i] (Assign x))
  | UDelKey k => Some (run_op (EraseKey k))
  | UDelIdx i => Some (run_op (EraseIdx i))
  | UClear => Some (run_op Clear)
  | _ => None
  end.
(** the same outcome, results left out *)
Definition alike {A B} (x : outcome A) (y : outcome B) : Prop :=
  match x, y with
  | Ret _, Ret _ | Abort, Abort | UB, UB | OutOfFuel, OutOfFuel => True
  | Throw e, Throw e' => e = e'
  | _, _ => False
  end.

Definition members (b : body) : list str := match b with BObj _ m => map fst m | _ => [] end.

(** the spot after another, in the order of the keys *)
Inductive next_spot (b : body) : spot -> spot -> Prop :=
| ns_pos i : (i < N.to_nat (v_size (view b)))%nat -> next_spot b (Pos i) (Pos (S i))
| ns_key k k' : In k (members b) -> In k' (members b) -> key_lt k k' -> (forall j, In j (members b) -> ~ (key_lt k j /\ key_lt j k')) -> next_spot b (At k) (At k')
| ns_end k : In k (members b) -> (forall j, In j (members b) -> ~ key_lt k j) -> next_spot b (At k) End.

Inductive first_spot : body -> spot -> Prop :=
| fs_pos g l : first_spot (BArr g l) (Pos 0)
| fs_key c m k : In k (map fst m) -> (forall j, In j (map fst m) -> ~ key_lt j k) -> first_spot (BObj c m) (At k)
| fs_end c : first_spot (BObj c []) End.

Definition end_spot (b : body) : spot := match b with BArr _ l => Pos (length l) | _ => End end.

(** what is found there *)
Inductive found : value -> spot -> option str * value -> Prop :=
| fo_pos l1 x l2 : found (VArr (l1 ++ x :: l2)) (Pos (length l1)) (None, x)
| fo_key m k x : In (k, x) m -> found (VObj m) (At k) (Some k, x).

(** p outlives all of a program *)
Fixpoint stays_all (cs : list ucmd) (st : ist) (p : spot) : Prop :=
  match cs with
  | [] => True
  | c :: cs' => stays c (i_body st) p /\ forall st' o, u_step c st = (st', o) -> stays_all cs' st' p
  end.

(** A program of such commands without iterators: it goes on after an exception. *)
Definition defined {A} (r : outcome A) : Prop := (exists q, r = Ret q) \/ exists e, r = Throw e.
Inductive runs : list ucmd -> value -> value -> Prop :=
| r_nil v : runs [] v v
| r_step c f cs v v' r w : plain c = Some f -> f v = (v', r) -> defined r -> runs cs v' w -> runs (c :: cs) v w
| r_stop c f cs v v' r : plain c = Some f -> f v = (v', r) -> ~ defined r -> runs (c :: cs) v v'.
