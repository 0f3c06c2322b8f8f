(** What a command that runs out of memory may leave behind. *)
From Verif Require Import Base Value ValueOps Heap SpecHeap.
Open Scope nat_scope.

(** The memory holds the store, and besides it the blocks qs, which nothing
    points to any more. *)
Definition holds_but (s : hstate) (S : store) (qs : list nat) : Prop :=
  exists ps cs vs, owns_env (heap s) (env s) S ps /\ owns_all (heap s) cs vs qs /\ NoDup (ps ++ qs) /\
    forall p, live s p <-> In p (ps ++ qs).

(** [pushes c a]: c appends to the array at a *)
Definition pushes (c : cmd) (a : place) : Prop :=
  match c with PushCopy a' _ | PushMove a' _ | PushNew a' _ => a' = a | _ => False end.

(** the store after a command that threw std::bad_alloc: as before, but a null
    may have become the empty container asked for *)
Inductive half : cmd -> store -> store -> Prop :=
| hf_same c S : half c S S
| hf_push c a S S' : pushes c a -> sget S a VNull -> sset S a (VArr []) S' -> half c S S'
| hf_idx a i S S' : sget S a VNull -> sset S a (VArr []) S' -> half (Sub a (Idx i)) S S'
| hf_key a k S S' : sget S a VNull -> sset S a (VObj []) S' -> half (Sub a (Key k)) S S'.

(** how many blocks lie on the longest way down *)
Fixpoint height (v : value) : nat :=
  match v with
  | VStr _ => 1
  | VArr l => S (list_max (map height l))
  | VObj m => S (list_max (map (fun kv => height (snd kv)) m))
  | _ => 0
  end.

(** c may lose n blocks when it runs out of memory *)
Definition loses (c : cmd) (S : store) (n : nat) : Prop :=
  match c with
  | NewCopy b | CopyTo _ b => exists x, sget S b x /\ n <= height x
  | PushCopy _ b => exists x, sget S b x /\ n <= Datatypes.S (height x)
  | New (IStr _) | SetTo _ (IStr _) | PushNew _ (IStr _) => n <= 1
  | _ => n = 0
  end.

(** storage with no string, array or object constructed in it (in the model,
    with an empty text) *)
Definition bare (s : hstate) (p : nat) : Prop := nth_error (heap s) p = Some (Some (BStr [])).

(** values kept in a block of their own *)
Definition in_block (i : init) : Prop := match i with IStr _ | IArr | IObj => True | _ => False end.

(** commands that do not ask value_constructor::reset for a block *)
Definition no_reset (c : cmd) : Prop := match c with ReplaceBy _ i => ~ in_block i | _ => True end.

(** commands with the strong guarantee *)
Definition keeps (c : cmd) : Prop := match c with PushCopy _ _ | PushMove _ _ | PushNew _ _ | Sub _ _ => False | _ => True end.

(** commands that only move, swap, erase or destroy *)
Definition no_memory (c : cmd) : Prop :=
  match c with NewMove _ | MoveTo _ _ | Swap _ _ | DelKey _ _ | DelIdx _ _ | Wipe _ | End _ => True | _ => False end.

(** how the plan was used: everything granted; or the last request refused *)
Definition granted (pl pl' : list bool) : Prop := exists u, pl = u ++ pl' /\ Forall (eq false) u.
Definition refused (pl pl' : list bool) : Prop := exists u, pl = u ++ true :: pl' /\ Forall (eq false) u.

(** a whole program; [n] blocks are lost *)
Inductive arun : list cmd -> store -> store -> list (outcome result) -> nat -> Prop :=
| ar_nil S : arun [] S S [] 0
| ar_done c cs S S1 S' r rs n : tstep c S S1 r -> arun cs S1 S' rs n -> arun (c :: cs) S S' (r :: rs) n
| ar_out c cs S S1 S' rs k n : half c S S1 -> loses c S k -> arun cs S1 S' rs n -> arun (c :: cs) S S' (Throw EAlloc :: rs) (k + n).

Fixpoint sane_always (cs : list cmd) (S : store) : Prop :=
  match cs with
  | [] => True
  | c :: cs' => sane c S /\ no_reset c /\ forall S' , (exists r, tstep c S S' r) \/ half c S S' -> sane_always cs' S'
  end.
