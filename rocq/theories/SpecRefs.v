(** Where references lead, on the store of trees of SpecHeap: after a command
    the element a reference was bound to is at the place given by [follows], or
    it is gone. *)
From Verif Require Import Base Value ValueOps Heap SpecGrammar SpecText SpecHeap Refs.

Definition under (a : place) (t : list sel) : place := (fst a, snd a ++ t).

(** r is strictly inside a; r is an element of the array a *)
Definition inside (a r : place) : Prop := exists s t, r = under a (s :: t).
Definition element (a r : place) : Prop := exists i, r = under a [Idx i].

(** [follows c S o r r']: c runs on S with result o; what was at r is at r' *)
Inductive follows : cmd -> store -> outcome result -> place -> place -> Prop :=
| f_throw c S e r : follows c S (Throw e) r r
| f_new i S u r : follows (New i) S (Ret u) r r
| f_new_copy b S u r : follows (NewCopy b) S (Ret u) r r
(* moving takes the inside along; the moved-from value itself stays *)
| f_new_move b S u r : ~ inside b r -> follows (NewMove b) S (Ret u) r r
| f_new_moved b S u s t : follows (NewMove b) S (Ret u) (under b (s :: t)) (length S, s :: t)
| f_self c a S u r : c = CopyTo a a \/ c = MoveTo a a \/ c = Swap a a -> follows c S (Ret u) r r
(* the old inside of an overwritten value is lost, the value itself stays *)
| f_over c a S u r : (exists b, c = CopyTo a b) \/ (exists i, c = SetTo a i \/ c = ReplaceBy a i) \/ c = Wipe a ->
    ~ inside a r -> follows c S (Ret u) r r
| f_move a b S u r : ~ inside a r -> ~ inside b r -> follows (MoveTo a b) S (Ret u) r r
| f_moved a b S u s t : a <> b -> follows (MoveTo a b) S (Ret u) (under b (s :: t)) (under a (s :: t))
| f_swap a b S u r : ~ inside a r -> ~ inside b r -> follows (Swap a b) S (Ret u) r r
| f_swap1 a b S u s t : follows (Swap a b) S (Ret u) (under a (s :: t)) (under b (s :: t))
| f_swap2 a b S u s t : follows (Swap a b) S (Ret u) (under b (s :: t)) (under a (s :: t))
(* growing arrays move their elements, but not the inside of the elements *)
| f_push c a S u r : (exists b, c = PushCopy a b) \/ (exists i, c = PushNew a i) -> ~ element a r -> follows c S (Ret u) r r
| f_push_move a b S u r : ~ element a r -> ~ inside b r -> follows (PushMove a b) S (Ret u) r r
| f_push_moved a b S u s t y l : sget S a y -> as_array y l ->
    follows (PushMove a b) S (Ret u) (under b (s :: t)) (under a (Idx (len l) :: s :: t))
| f_sub_in a i S u r l : sget S a (VArr l) -> i < len l -> follows (Sub a (Idx i)) S (Ret u) r r
| f_sub_grow a i S u r : ~ element a r -> follows (Sub a (Idx i)) S (Ret u) r r
(* members of objects stay where they are *)
| f_sub_key a k S u r : follows (Sub a (Key k)) S (Ret u) r r
| f_del_key a k S u r : ~ below (under a [Key k]) r -> follows (DelKey a k) S (Ret u) r r
| f_del_out a i S u r : ~ inside a r -> follows (DelIdx a i) S (Ret u) r r
| f_del_low a i j S u s t : j < i -> follows (DelIdx a i) S (Ret u) (under a (Idx j :: s :: t)) (under a (Idx j :: s :: t))
| f_del_high a i j S u s t : i < j -> follows (DelIdx a i) S (Ret u) (under a (Idx j :: s :: t)) (under a (Idx (j - 1) :: s :: t))
| f_end n S u r : fst r <> n -> follows (End n) S (Ret u) r r.

(** Where each reference leads; [None]: not to be used any more. *)
Definition trail := list (option place).

Definition tracked (c : cmd) (S : store) (o : outcome result) (R R' : trail) : Prop :=
  Forall2 (fun r r' => forall a', r' = Some a' -> exists a, r = Some a /\ follows c S o a a') R R'.

(** The references of the memory lead where R says: to the object that at()
    finds there. *)
Definition refers (s : hstate) (S : store) (R : trail) (ls : list loc) : Prop :=
  Forall2 (fun r l => forall a, r = Some a -> (exists x, sget S a x) /\ locate a s = (s, Ret l)) R ls.

(** ** Commands with references, given where the references lead *)
Definition resolve_place (R : trail) (a : rplace) : option place :=
  match fst a with
  | Var n => Some (n, snd a)
  | Ref k => match nth_error R k with Some (Some b) => Some (under b (snd a)) | _ => None end
  end.

Inductive resolves (R : trail) : rcmd -> cmd -> Prop :=
| rv_new i : resolves R (RNew i) (New i)
| rv_new_copy b b' : resolve_place R b = Some b' -> resolves R (RNewCopy b) (NewCopy b')
| rv_new_move b b' : resolve_place R b = Some b' -> resolves R (RNewMove b) (NewMove b')
| rv_copy a b a' b' : resolve_place R a = Some a' -> resolve_place R b = Some b' -> resolves R (RCopyTo a b) (CopyTo a' b')
| rv_move a b a' b' : resolve_place R a = Some a' -> resolve_place R b = Some b' -> resolves R (RMoveTo a b) (MoveTo a' b')
| rv_swap a b a' b' : resolve_place R a = Some a' -> resolve_place R b = Some b' -> resolves R (RSwap a b) (Swap a' b')
| rv_set a a' i : resolve_place R a = Some a' -> resolves R (RSetTo a i) (SetTo a' i)
| rv_replace a a' i : resolve_place R a = Some a' -> resolves R (RReplaceBy a i) (ReplaceBy a' i)
| rv_push_copy a b a' b' : resolve_place R a = Some a' -> resolve_place R b = Some b' -> resolves R (RPushCopy a b) (PushCopy a' b')
| rv_push_move a b a' b' : resolve_place R a = Some a' -> resolve_place R b = Some b' -> resolves R (RPushMove a b) (PushMove a' b')
| rv_push_new a a' i : resolve_place R a = Some a' -> resolves R (RPushNew a i) (PushNew a' i)
| rv_sub a a' s : resolve_place R a = Some a' -> resolves R (RSub a s) (Sub a' s)
| rv_del_key a a' k : resolve_place R a = Some a' -> resolves R (RDelKey a k) (DelKey a' k)
| rv_del_idx a a' i : resolve_place R a = Some a' -> resolves R (RDelIdx a i) (DelIdx a' i)
| rv_wipe a a' : resolve_place R a = Some a' -> resolves R (RWipe a) (Wipe a')
| rv_end n : resolves R (REnd n) (End n).

Inductive rstep : rcmd -> store * trail -> store * trail -> outcome result -> Prop :=
| rs_plain rc c S R S' R' o : resolves R rc c -> tstep c S S' o -> tracked c S o R R' -> rstep rc (S, R) (S', R') o
| rs_bind a a' S R x : resolve_place R a = Some a' -> sget S a' x -> rstep (RBind a) (S, R) (S, R ++ [Some a']) (Ret RUnit)
| rs_bind_bad a a' S R e : resolve_place R a = Some a' -> sfail S a' e -> rstep (RBind a) (S, R) (S, R) (Throw e)
| rs_bind_sub a a' s S R S' R' u : resolve_place R a = Some a' -> tstep (Sub a' s) S S' (Ret u) -> tracked (Sub a' s) S (Ret u) R R' ->
    rstep (RBindSub a s) (S, R) (S', R' ++ [Some (under a' [s])]) (Ret RUnit)
| rs_bind_sub_bad a a' s S R S' e : resolve_place R a = Some a' -> tstep (Sub a' s) S S' (Throw e) ->
    rstep (RBindSub a s) (S, R) (S', R) (Throw e).

Inductive rrun : list rcmd -> store * trail -> store * trail -> list (outcome result) -> Prop :=
| rr_nil st : rrun [] st st []
| rr_cons c cs st st1 st2 o os : rstep c st st1 o -> rrun cs st1 st2 os -> rrun (c :: cs) st st2 (o :: os).

(** Objects have their keys in order, as every std::map does. *)
Definition in_order (S : store) : Prop := forall n v, nth_error S n = Some (Some v) -> ordered v.
