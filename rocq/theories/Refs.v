(** References to values kept from one statement to the next:
      auto& r = v["a"][0];  ...  r = 1;
    (value.hpp: operator[] at 711-746, at at 753-801 return references to
    elements).  The commands are those of Heap; a place may start at a variable
    or at a reference.

    A reference is the location it was bound to.  As in Heap, a location of an
    array element is lost whenever the array changes its number of elements
    (the standard lets references in front of an erased element live on; nothing
    is said about them here).  An element of a vector moves with its buffer by
    its move constructor, which is noexcept (value.hpp:147), so what the element
    owns stays where it is; nodes of std::map never move. *)
From Verif Require Import Base Value ValueOps Heap.

Inductive root := Var (n : nat) | Ref (k : nat).
Definition rplace := (root * list sel)%type.

Inductive rcmd :=
| RBind (a : rplace)                   (* auto& r = a; *)
| RBindSub (a : rplace) (s : sel)      (* auto& r = a[s]; *)
| RNew (i : init)
| RNewCopy (b : rplace)
| RNewMove (b : rplace)
| RCopyTo (a b : rplace)
| RMoveTo (a b : rplace)
| RSwap (a b : rplace)
| RSetTo (a : rplace) (i : init)
| RReplaceBy (a : rplace) (i : init)
| RPushCopy (a b : rplace)
| RPushMove (a b : rplace)
| RPushNew (a : rplace) (i : init)
| RSub (a : rplace) (s : sel)
| RDelKey (a : rplace) (k : str)
| RDelIdx (a : rplace) (i : N)
| RWipe (a : rplace)
| REnd (n : nat).

Section Refs.
Variable refs : list loc.

Definition rlocate (pl : rplace) : M loc :=
  match fst pl with
  | Var n => do _ <- read_loc (LSlot n); walk_at (LSlot n) (snd pl)
  | Ref k => match nth_error refs k with Some l => walk_at l (snd pl) | None => fail UB end
  end.

(** the reference a command makes, if any, and its result *)
Definition rexec1 (c : rcmd) : M (option loc * result) :=
  let plain (m : M unit) := do _ <- m; ret (None, RUnit) in
  match c with
  | RBind a => do l <- rlocate a; ret (Some l, RUnit)
  | RBindSub a s => do la <- rlocate a; do l <- sub_loc la s; ret (Some l, RUnit)
  | RNew i => do x <- construct i; do _ <- push_slot x; ret (None, RUnit)
  | RNewCopy b => do l <- rlocate b; do x <- read_loc l; do y <- copy_cell x; do _ <- push_slot y; ret (None, RUnit)
  | RNewMove b => do l <- rlocate b; do x <- move_from l; do _ <- push_slot x; ret (None, RUnit)
  | RCopyTo a b => do la <- rlocate a; do lb <- rlocate b; plain (assign_copy la lb)
  | RMoveTo a b => do la <- rlocate a; do lb <- rlocate b; plain (assign_move la lb)
  | RSwap a b => do la <- rlocate a; do lb <- rlocate b; plain (swap la lb)
  | RSetTo a i => do la <- rlocate a; plain (assign_new la i)
  | RReplaceBy a i => do la <- rlocate a; plain (replace_with la i)
  | RPushCopy a b =>
      do la <- rlocate a; do lb <- rlocate b;
      plain (push_back la (do x <- read_loc lb; copy_cell x))
  | RPushMove a b => do la <- rlocate a; do lb <- rlocate b; plain (push_back la (move_from lb))
  | RPushNew a i =>
      do la <- rlocate a;
      do x <- construct i;
      plain (with_temp x (fun t => push_back la (move_from t)))
  | RSub a s => do la <- rlocate a; do _ <- sub_loc la s; ret (None, RUnit)
  | RDelKey a k => do la <- rlocate a; do n <- erase_key la k; ret (None, RNum n)
  | RDelIdx a i => do la <- rlocate a; plain (erase_idx la i)
  | RWipe a => do la <- rlocate a; plain (clear la)
  | REnd n => plain (end_slot n)
  end.
End Refs.

(** Memory and the references bound so far *)
Definition rstate := (hstate * list loc)%type.

Definition rexec (c : rcmd) (st : rstate) : rstate * outcome result :=
  match rexec1 (snd st) c (fst st) with
  | (s, Ret (Some l, r)) => ((s, snd st ++ [l]), Ret r)
  | (s, Ret (None, r)) => ((s, snd st), Ret r)
  | (s, Throw e) => ((s, snd st), Throw e)
  | (s, Abort) => ((s, snd st), Abort)
  | (s, UB) => ((s, snd st), UB)
  | (s, OutOfFuel) => ((s, snd st), OutOfFuel)
  end.

(** as exec_all: exceptions are caught around each command *)
Fixpoint rexec_all (cs : list rcmd) (st : rstate) : rstate * list (outcome result) :=
  match cs with
  | [] => (st, [])
  | c :: cs' =>
      match rexec c st with
      | (st', (Ret _ | Throw _) as r) => let (st2, rs) := rexec_all cs' st' in (st2, r :: rs)
      | (st', r) => (st', [r])
      end
  end.
Definition rstart : rstate := (start, []).
