(** What programs over basic_value variables should do, on trees: a store
    holds one tree per variable, nothing is shared.  And what it means for the
    memory to hold a store. *)
From Verif Require Import Base Value ValueOps Heap.

Definition store := list (option value).   (* None: destroyed *)

Definition init_value (i : init) : value :=
  match i with
  | INull => VNull | IBool b => VBool b | IInt z => VInt z | IFloat f => VFloat f
  | IStr s => VStr s | IArr => VArr [] | IObj => VObj []
  end.

(** ** Sub-trees *)

(** [tget p v x]: following p in v leads to x *)
Inductive tget : list sel -> value -> value -> Prop :=
| tg_here v : tget [] v v
| tg_idx p l1 c l2 i x : N.to_nat i = length l1 -> tget p c x -> tget (Idx i :: p) (VArr (l1 ++ c :: l2)) x
| tg_key p m1 k c m2 x : ~ In k (map fst m1) -> tget p c x -> tget (Key k :: p) (VObj (m1 ++ (k, c) :: m2)) x.

(** [tset p y v v']: v with the sub-tree at p replaced by y is v' *)
Inductive tset : list sel -> value -> value -> value -> Prop :=
| ts_here y v : tset [] y v y
| ts_idx p y l1 c c' l2 i : N.to_nat i = length l1 -> tset p y c c' ->
    tset (Idx i :: p) y (VArr (l1 ++ c :: l2)) (VArr (l1 ++ c' :: l2))
| ts_key p y m1 k c c' m2 : ~ In k (map fst m1) -> tset p y c c' ->
    tset (Key k :: p) y (VObj (m1 ++ (k, c) :: m2)) (VObj (m1 ++ (k, c') :: m2)).

Definition sget (S : store) (a : place) (x : value) : Prop :=
  exists v, nth_error S (fst a) = Some (Some v) /\ tget (snd a) v x.

Definition sset (S : store) (a : place) (y : value) (S' : store) : Prop :=
  exists S1 v v' S2, S = S1 ++ Some v :: S2 /\ length S1 = fst a /\ tset (snd a) y v v' /\ S' = S1 ++ Some v' :: S2.

(** the exception for a place that does not exist, as at() throws it *)
Definition at_acc (s : sel) : acc := match s with Idx i => AtIdx i | Key k => AtKey k end.
Definition sfail (S : store) (a : place) (e : exn) : Prop :=
  exists v, nth_error S (fst a) = Some (Some v) /\ snd (via (map at_acc (snd a)) (fun x => (x, Ret x)) v) = Throw e.

(** b is a or lies inside a *)
Definition below (a b : place) : Prop := fst a = fst b /\ exists r, snd b = snd a ++ r.

Inductive as_array : value -> list value -> Prop :=
| aa_null : as_array VNull []
| aa_arr l : as_array (VArr l) l.

(** ** One command.  Not covered, on purpose: using a destroyed variable,
    moving a value into its own inside, and undefined behaviour that ValueOps
    already reports (erasing past the end, the largest index). *)
Definition two (c : cmd) : option (place * place) :=
  match c with
  | CopyTo a b | MoveTo a b | Swap a b | PushCopy a b | PushMove a b => Some (a, b)
  | _ => None
  end.

Definition one (c : cmd) : option place :=
  match c with
  | NewCopy a | NewMove a | SetTo a _ | ReplaceBy a _ | PushNew a _ | Sub a _ | DelKey a _ | DelIdx a _ | Wipe a => Some a
  | _ => None
  end.

(** v[k] with the reference unused *)
Definition touch (k : str) (v : value) : res result :=
  match v with
  | VNull => (VObj [(k, VNull)], Ret RUnit)
  | VObj m => (VObj (obj_emplace k VNull m), Ret RUnit)
  | _ => (v, Throw (EKey "operator[] called on a non-object type"))
  end.

(** commands that change one place as ValueOps says *)
Definition local (c : cmd) : option (place * (value -> res result)) :=
  match c with
  | Sub a (Idx i) => Some (a, via1 (RefIdx i) (fun x => (x, Ret RUnit)))
  | Sub a (Key k) => Some (a, touch k)
  | DelKey a k => Some (a, run_op (EraseKey k))
  | DelIdx a i => Some (a, run_op (EraseIdx i))
  | Wipe a => Some (a, run_op Clear)
  | _ => None
  end.

Definition push_error : exn := EType "use push_back() or emplace_back() with non-array value".

Inductive tstep : cmd -> store -> store -> outcome result -> Prop :=
| t_new i S : tstep (New i) S (S ++ [Some (init_value i)]) (Ret RUnit)
| t_new_copy b S x : sget S b x -> tstep (NewCopy b) S (S ++ [Some x]) (Ret RUnit)
| t_new_move b S x S1 : sget S b x -> sset S b VNull S1 -> tstep (NewMove b) S (S1 ++ [Some x]) (Ret RUnit)
| t_copy a b S x y S' : sget S a y -> sget S b x -> sset S a x S' -> tstep (CopyTo a b) S S' (Ret RUnit)
| t_move_self a S x : sget S a x -> tstep (MoveTo a a) S S (Ret RUnit)
| t_move a b S x y S1 S' : a <> b -> ~ below b a -> sget S a y -> sget S b x ->
    sset S b VNull S1 -> sset S1 a x S' -> tstep (MoveTo a b) S S' (Ret RUnit)
| t_swap_self a S x : sget S a x -> tstep (Swap a a) S S (Ret RUnit)
| t_swap a b S x y S1 S' : ~ below a b -> ~ below b a -> sget S a x -> sget S b y ->
    sset S a y S1 -> sset S1 b x S' -> tstep (Swap a b) S S' (Ret RUnit)
| t_set a i S y S' : sget S a y -> sset S a (init_value i) S' -> tstep (SetTo a i) S S' (Ret RUnit)
| t_replace a i S y S' : sget S a y -> sset S a (init_value i) S' -> tstep (ReplaceBy a i) S S' (Ret RUnit)
| t_push_copy a b S y l x0 S1 x S' : sget S a y -> as_array y l -> sget S b x0 ->
    sset S a (VArr l) S1 -> sget S1 b x -> sset S1 a (VArr (l ++ [x])) S' -> tstep (PushCopy a b) S S' (Ret RUnit)
| t_push_move a b S y l x S1 y1 l1 S' : sget S a y -> as_array y l -> sget S b x -> ~ below b a ->
    sset S b VNull S1 -> sget S1 a y1 -> as_array y1 l1 -> sset S1 a (VArr (l1 ++ [x])) S' ->
    tstep (PushMove a b) S S' (Ret RUnit)
| t_push_new a i S y l S' : sget S a y -> as_array y l -> sset S a (VArr (l ++ [init_value i])) S' ->
    tstep (PushNew a i) S S' (Ret RUnit)
| t_push_bad c a S y : sget S a y -> (forall l, ~ as_array y l) ->
    (exists b x, (c = PushCopy a b \/ c = PushMove a b) /\ sget S b x) \/ (exists i, c = PushNew a i) ->
    tstep c S S (Throw push_error)
| t_local c a f S y y' r S' : local c = Some (a, f) -> sget S a y -> f y = (y', r) -> r <> UB -> sset S a y' S' -> tstep c S S' r
| t_end S1 v S2 : tstep (End (length S1)) (S1 ++ Some v :: S2) (S1 ++ None :: S2) (Ret RUnit)
| t_bad_first c a b S e : (two c = Some (a, b) \/ one c = Some a) -> sfail S a e -> tstep c S S (Throw e)
| t_bad_second c a b S y e : two c = Some (a, b) -> sget S a y -> sfail S b e -> tstep c S S (Throw e).

Inductive trun : list cmd -> store -> store -> list (outcome result) -> Prop :=
| tr_nil S : trun [] S S []
| tr_cons c cs S S1 S' r rs : tstep c S S1 r -> trun cs S1 S' rs -> trun (c :: cs) S S' (r :: rs).

(** ** Memory holding a store *)

(** [owns h c v ps]: the cell c holds the tree v, whose blocks are ps *)
Inductive owns (h : list (option block)) : cell -> value -> list nat -> Prop :=
| ow_null : owns h (mkCell TNull WZero) VNull []
| ow_bool b : owns h (mkCell TBoolean (WBool b)) (VBool b) []
| ow_int z : owns h (mkCell TInteger (WInt z)) (VInt z) []
| ow_float f : owns h (mkCell TFloating (WFloat f)) (VFloat f) []
| ow_str p s : nth_error h p = Some (Some (BStr s)) -> owns h (mkCell TString (WPtr p)) (VStr s) [p]
| ow_arr p g cs vs ps : nth_error h p = Some (Some (BArr g cs)) -> owns_all h cs vs ps ->
    owns h (mkCell TArray (WPtr p)) (VArr vs) (p :: ps)
| ow_obj p m cs vs ps : nth_error h p = Some (Some (BObj m)) -> map snd m = cs -> owns_all h cs vs ps ->
    owns h (mkCell TObject (WPtr p)) (VObj (combine (map fst m) vs)) (p :: ps)
with owns_all (h : list (option block)) : list cell -> list value -> list nat -> Prop :=
| oa_nil : owns_all h [] [] []
| oa_cons c cs v vs ps qs : owns h c v ps -> owns_all h cs vs qs -> owns_all h (c :: cs) (v :: vs) (ps ++ qs).

Inductive owns_env (h : list (option block)) : list (option cell) -> store -> list nat -> Prop :=
| oe_nil : owns_env h [] [] []
| oe_dead e S ps : owns_env h e S ps -> owns_env h (None :: e) (None :: S) ps
| oe_live c v e S ps qs : owns h c v ps -> owns_env h e S qs -> owns_env h (Some c :: e) (Some v :: S) (ps ++ qs).

Definition live (s : hstate) (p : nat) : Prop := exists b, nth_error (heap s) p = Some (Some b).

(** The memory holds the store; no block has two owners and every live block
    has one. *)
Definition holds (s : hstate) (S : store) : Prop :=
  exists ps, owns_env (heap s) (env s) S ps /\ NoDup ps /\ forall p, live s p <-> In p ps.

(** ** Programs that stay within the rules above *)
Definition alive (S : store) (n : nat) : Prop := exists v, nth_error S n = Some (Some v).

(** neither is inside the other *)
Definition separate (a b : place) : Prop := ~ below a b /\ ~ below b a.

Definition sane (c : cmd) (S : store) : Prop :=
  match c with
  | New _ => True
  | NewCopy a | NewMove a | SetTo a _ | ReplaceBy a _ | PushNew a _ | DelKey a _ | Wipe a | Sub a (Key _) => alive S (fst a)
  | Sub a (Idx i) => alive S (fst a) /\ i < 18446744073709551615
  | DelIdx a i => alive S (fst a) /\ forall l, sget S a (VArr l) -> i < len l
  | CopyTo a b | PushCopy a b => alive S (fst a) /\ alive S (fst b)
  | MoveTo a b => alive S (fst a) /\ alive S (fst b) /\ (a = b \/ ~ below b a)
  | PushMove a b => alive S (fst a) /\ alive S (fst b) /\ ~ below b a
  | Swap a b => alive S (fst a) /\ alive S (fst b) /\ (a = b \/ separate a b)
  | End n => alive S n
  end.

Fixpoint sane_prog (cs : list cmd) (S : store) : Prop :=
  match cs with
  | [] => True
  | c :: cs' => sane c S /\ forall S' r, tstep c S S' r -> sane_prog cs' S'
  end.

(** the variables a command may change *)
Definition changes (c : cmd) : list nat :=
  match c with
  | New _ | NewCopy _ => []
  | NewMove a | SetTo a _ | ReplaceBy a _ | PushNew a _ | DelKey a _ | DelIdx a _ | Wipe a | Sub a _ | CopyTo a _ | PushCopy a _ => [fst a]
  | MoveTo a b | PushMove a b | Swap a b => [fst a; fst b]
  | End n => [n]
  end.

(** every variable has been destroyed *)
Definition all_ended (S : store) : Prop := forall n v, nth_error S n <> Some (Some v).
