(** Ownership: basic_value as it is laid out in memory (details/value.hpp).

    A basic_value object is a type tag and a word; strings, arrays and objects
    live in blocks obtained from an allocator and released by the destructor.
    basic_value objects themselves live in slots (variables and temporaries,
    created and destroyed in stack order for temporaries), as elements of an
    array block, or as mapped values of an object block.

    Simplifications: std::vector's buffer and std::map's nodes are part of the
    block of the vector or map.  Whenever a vector changes its number of
    elements its buffer counts as moved ([gen] changes), so every earlier
    reference to an element dangles; the standard allows this and for growth
    it is the rule.  std::vector::erase and clear, and std::map::erase and
    clear, destroy the removed elements.  Allocation never fails here;
    Alloc.v runs the same commands with allocations that may. *)
From Verif Require Import Base Value ValueOps.

(** data_type, value.hpp:72-80.  [WZero] is the value-initialised union, and
    what a null pointer in it leaves. *)
Inductive word := WZero | WBool (b : bool) | WInt (z : Z) | WFloat (f : f64) | WPtr (p : nat).

(** basic_value's data members, value.hpp:1004-1006 *)
Record cell := mkCell { c_ty : vtype; c_data : word }.
Definition null_cell : cell := mkCell TNull WZero.

Inductive block :=
| BStr (s : str)
| BArr (gen : nat) (l : list cell)
| BObj (m : list (str * cell)).

(** Slots and blocks; [None] is a destroyed variable or a released block. *)
Record hstate := mkSt { env : list (option cell); heap : list (option block) }.

(** Where a basic_value object is. *)
Inductive loc := LSlot (n : nat) | LElem (p gen i : nat) | LMember (p : nat) (k : str).

Definition loc_eqb (a b : loc) : bool :=
  match a, b with
  | LSlot n, LSlot m => Nat.eqb n m
  | LElem p g i, LElem q h j => Nat.eqb p q && Nat.eqb g h && Nat.eqb i j
  | LMember p k, LMember q l => Nat.eqb p q && str_eqb k l
  | _, _ => false
  end.

(** ** A state monad with outcomes *)
Definition M (A : Type) := hstate -> hstate * outcome A.
Definition ret {A} (a : A) : M A := fun s => (s, Ret a).
Definition fail {A} (o : outcome A) : M A := fun s => (s, o).
Definition seqm {A B} (m : M A) (k : A -> M B) : M B := fun s =>
  match m s with
  | (s', Ret a) => k a s'
  | (s', Throw e) => (s', Throw e)
  | (s', Abort) => (s', Abort)
  | (s', UB) => (s', UB)
  | (s', OutOfFuel) => (s', OutOfFuel)
  end.
Notation "'do' x '<-' m ';' k" := (seqm m (fun x => k)) (at level 200, x pattern, m at level 100, k at level 200, right associativity).

(** m, then also when m throws: k (unwinding) *)
Definition finally {A} (m : M A) (k : M unit) : M A := fun s =>
  match m s with
  | (s', Ret a) => (do _ <- k; ret a) s'
  | (s', Throw e) => (do _ <- k; fail (Throw e)) s'
  | r => r
  end.

Fixpoint iterm {A} (f : A -> M unit) (l : list A) : M unit :=
  match l with
  | [] => ret tt
  | x :: l' => do _ <- f x; iterm f l'
  end.

Fixpoint mapm {A B} (f : A -> M B) (l : list A) : M (list B) :=
  match l with
  | [] => ret []
  | x :: l' => do y <- f x; do ys <- mapm f l'; ret (y :: ys)
  end.

(** ** Memory *)
Definition set_env (e : list (option cell)) (s : hstate) : hstate := mkSt e (heap s).
Definition set_heap (h : list (option block)) (s : hstate) : hstate := mkSt (env s) h.

Definition get_block (p : nat) : M block := fun s =>
  match nth_error (heap s) p with
  | Some (Some b) => (s, Ret b)
  | _ => (s, UB)
  end.

Definition set_block (p : nat) (b : block) : M unit := fun s =>
  match nth_error (heap s) p with
  | Some (Some _) => (set_heap (set_nth p (Some b) (heap s)) s, Ret tt)
  | _ => (s, UB)
  end.

(** create_data, value.hpp:1095-1106 *)
Definition create (b : block) : M nat := fun s =>
  (set_heap (heap s ++ [Some b]) s, Ret (length (heap s))).

(** deallocate; releasing a block that is not live is undefined behaviour *)
Definition release (p : nat) : M unit := fun s =>
  match nth_error (heap s) p with
  | Some (Some _) => (set_heap (set_nth p None (heap s)) s, Ret tt)
  | _ => (s, UB)
  end.

Definition read_loc (a : loc) : M cell :=
  match a with
  | LSlot n => fun s => match nth_error (env s) n with Some (Some c) => (s, Ret c) | _ => (s, UB) end
  | LElem p g i =>
      do b <- get_block p;
      match b with
      | BArr g' l => if Nat.eqb g g' then match nth_error l i with Some c => ret c | None => fail UB end else fail UB
      | _ => fail UB
      end
  | LMember p k =>
      do b <- get_block p;
      match b with
      | BObj m => match obj_find k m with Some c => ret c | None => fail UB end
      | _ => fail UB
      end
  end.

(** storing into the mapped value of a key that is present *)
Fixpoint obj_upd {A} (k : str) (x : A) (m : list (str * A)) : list (str * A) :=
  match m with
  | [] => []
  | (k', x') :: m' => if str_eqb k k' then (k', x) :: m' else (k', x') :: obj_upd k x m'
  end.

Definition write_loc (a : loc) (c : cell) : M unit :=
  match a with
  | LSlot n => fun s =>
      match nth_error (env s) n with
      | Some (Some _) => (set_env (set_nth n (Some c) (env s)) s, Ret tt)
      | _ => (s, UB)
      end
  | LElem p g i =>
      do b <- get_block p;
      match b with
      | BArr g' l => if Nat.eqb g g' && Nat.ltb i (length l) then set_block p (BArr g' (set_nth i c l)) else fail UB
      | _ => fail UB
      end
  | LMember p k =>
      do b <- get_block p;
      match b with
      | BObj m => match obj_find k m with Some _ => set_block p (BObj (obj_upd k c m)) | None => fail UB end
      | _ => fail UB
      end
  end.

(** the pointer in a cell *)
Definition ptr_of (c : cell) : M nat := match c_data c with WPtr p => ret p | _ => fail UB end.

(** ** Destruction: value_constructor::destroy, value.hpp:1042-1058, 1108-1116 *)
Fixpoint destroy (fuel : nat) (c : cell) : M unit :=
  match fuel with
  | O => fail OutOfFuel
  | S fuel' =>
      match c_ty c with
      | TString =>
          do p <- ptr_of c;
          do b <- get_block p;
          match b with BStr _ => release p | _ => fail UB end
      | TArray =>
          do p <- ptr_of c;
          do b <- get_block p;
          match b with
          | BArr _ l => do _ <- iterm (destroy fuel') l; release p
          | _ => fail UB
          end
      | TObject =>
          do p <- ptr_of c;
          do b <- get_block p;
          match b with
          | BObj m => do _ <- iterm (fun kc => destroy fuel' (snd kc)) m; release p
          | _ => fail UB
          end
      | _ => ret tt
      end
  end.

(** ** Copy construction, value.hpp:117-145.  The copy is returned; copying a
    vector or map copies the elements in order. *)
Fixpoint copy (fuel : nat) (c : cell) : M cell :=
  match fuel with
  | O => fail OutOfFuel
  | S fuel' =>
      match c_ty c with
      | TString =>
          do p <- ptr_of c;
          do b <- get_block p;
          match b with BStr s => do q <- create (BStr s); ret (mkCell TString (WPtr q)) | _ => fail UB end
      | TArray =>
          do p <- ptr_of c;
          do b <- get_block p;
          match b with
          | BArr _ l => do l' <- mapm (copy fuel') l; do q <- create (BArr 0 l'); ret (mkCell TArray (WPtr q))
          | _ => fail UB
          end
      | TObject =>
          do p <- ptr_of c;
          do b <- get_block p;
          match b with
          | BObj m =>
              do m' <- mapm (fun kc => do c' <- copy fuel' (snd kc); ret (fst kc, c')) m;
              do q <- create (BObj m'); ret (mkCell TObject (WPtr q))
          | _ => fail UB
          end
      | TNull => ret null_cell
      | t => ret (mkCell t (c_data c))
      end
  end.

(** Recursion is bounded by the number of blocks. *)
Definition budget (s : hstate) : nat := S (length (heap s)).
Definition destroy_cell (c : cell) : M unit := fun s => destroy (budget s) c s.
Definition copy_cell (c : cell) : M cell := fun s => copy (budget s) c s.

(** ** Move construction, value.hpp:147-153: the new object's content; the
    source becomes null *)
Definition move_from (a : loc) : M cell :=
  do c <- read_loc a;
  do _ <- write_loc a (mkCell TNull WZero);
  ret (mkCell (c_ty c) (c_data c)).

(** ** Variables and temporaries *)
Definition push_slot (c : cell) : M nat := fun s =>
  (set_env (env s ++ [Some c]) s, Ret (length (env s))).

(** the destructor of a variable, value.hpp:166-170 *)
Definition end_slot (n : nat) : M unit :=
  do c <- read_loc (LSlot n);
  do _ <- destroy_cell c;
  fun s => (set_env (set_nth n None (env s)) s, Ret tt).

(** the destructor of the newest temporary *)
Definition pop_slot : M unit := fun s =>
  match env s with
  | [] => (s, UB)
  | _ =>
      (do c <- read_loc (LSlot (pred (length (env s))));
       do _ <- destroy_cell c;
       fun s => (set_env (removelast (env s)) s, Ret tt)) s
  end.

(** a temporary with content c, alive during m *)
Definition with_temp {A} (c : cell) (m : loc -> M A) : M A :=
  do t <- push_slot c; finally (m (LSlot t)) pop_slot.

(** ** swap, value.hpp:681-685 *)
Definition swap (a b : loc) : M unit :=
  do x <- read_loc a;
  do y <- read_loc b;
  do _ <- write_loc a y;
  write_loc b x.

(** operator=(const basic_value&), value.hpp:689-697 *)
Definition assign_copy (a b : loc) : M unit :=
  if loc_eqb a b then ret tt
  else
    do x <- read_loc b;
    do tmp <- copy_cell x;
    with_temp tmp (fun t => swap a t).

(** operator=(basic_value&&), value.hpp:699-707 *)
Definition assign_move (a b : loc) : M unit :=
  if loc_eqb a b then ret tt
  else
    do old <- move_from a;
    with_temp old (fun _ => swap a b).

(** ** Construction of values without elements: basic_value(type), 87-115,
    and the conversions from scalars and strings *)
Inductive init := INull | IBool (b : bool) | IInt (z : Z) | IFloat (f : f64) | IStr (s : str) | IArr | IObj.

Definition construct (i : init) : M cell :=
  match i with
  | INull => ret null_cell
  | IBool b => ret (mkCell TBoolean (WBool b))
  | IInt z => ret (mkCell TInteger (WInt z))
  | IFloat f => ret (mkCell TFloating (WFloat f))
  | IStr s => do p <- create (BStr s); ret (mkCell TString (WPtr p))
  | IArr => do p <- create (BArr 0 []); ret (mkCell TArray (WPtr p))
  | IObj => do p <- create (BObj []); ret (mkCell TObject (WPtr p))
  end.

(** *this = value_constant::array  and the like: a temporary is built and
    moved *)
Definition assign_new (a : loc) (i : init) : M unit :=
  do c <- construct i;
  with_temp c (fun t => assign_move a t).

(** value_constructor::reset, value.hpp:1025-1031, with fresh arguments *)
Definition replace_with (a : loc) (i : init) : M unit :=
  do c <- read_loc a;
  do _ <- destroy_cell c;
  do c' <- construct i;
  write_loc a c'.

(** ** Access: at(index) and at(key), value.hpp:753-764, 787-801 *)
Inductive sel := Idx (i : N) | Key (k : str).

Definition at_loc (a : loc) (s : sel) : M loc :=
  do c <- read_loc a;
  match s with
  | Idx i =>
      match c_ty c with
      | TArray =>
          do p <- ptr_of c;
          do b <- get_block p;
          match b with
          | BArr g l => if len l <=? i then fail (Throw (EOutOfRange "operator[] index out of range")) else ret (LElem p g (N.to_nat i))
          | _ => fail UB
          end
      | _ => fail (Throw (EKey "operator[] called on a non-array type"))
      end
  | Key k =>
      match c_ty c with
      | TObject =>
          do p <- ptr_of c;
          do b <- get_block p;
          match b with
          | BObj m => match obj_find k m with Some _ => ret (LMember p k) | None => fail (Throw (EOutOfRange "operator[] key out of range")) end
          | _ => fail UB
          end
      | _ => fail (Throw (EKey "operator[] called on a non-object object"))
      end
  end.

(** operator[], value.hpp:711-728, 735-746 *)
Definition sub_loc (a : loc) (s : sel) : M loc :=
  do c <- read_loc a;
  do _ <- match c_ty c with
          | TNull => assign_new a (match s with Idx _ => IArr | Key _ => IObj end)
          | _ => ret tt
          end;
  do c <- read_loc a;
  match s with
  | Idx i =>
      match c_ty c with
      | TArray =>
          do p <- ptr_of c;
          do b <- get_block p;
          match b with
          | BArr g l =>
              if len l <=? i then
                let l' := l ++ repeat null_cell (N.to_nat (u64 (i + 18446744073709551616 - len l + 1))) in
                do _ <- set_block p (BArr (S g) l');
                match nth_error l' (N.to_nat i) with Some _ => ret (LElem p (S g) (N.to_nat i)) | None => fail UB end
              else ret (LElem p g (N.to_nat i))
          | _ => fail UB
          end
      | _ => fail (Throw (EKey "operator[] called on a non-array object"))
      end
  | Key k =>
      match c_ty c with
      | TObject =>
          do p <- ptr_of c;
          do b <- get_block p;
          match b with
          | BObj m => do _ <- set_block p (BObj (obj_emplace k null_cell m)); ret (LMember p k)
          | _ => fail UB
          end
      | _ => fail (Throw (EKey "operator[] called on a non-object type"))
      end
  end.

(** ** push_back / emplace_back, value.hpp:418-440.  [arg] builds the new
    element; the vector takes it before it lets go of its old buffer. *)
Definition push_back (a : loc) (arg : M cell) : M unit :=
  do c <- read_loc a;
  do _ <- match c_ty c with
          | TNull => assign_new a IArr
          | TArray => ret tt
          | _ => fail (Throw (EType "use push_back() or emplace_back() with non-array value"))
          end;
  do c <- read_loc a;
  do p <- ptr_of c;
  do x <- arg;
  do b <- get_block p;
  match b with
  | BArr g l => set_block p (BArr (S g) (l ++ [x]))
  | _ => fail UB
  end.

(** ** erase(key), erase(index), clear: value.hpp:348-364, 442-467 *)
Definition erase_key (a : loc) (k : str) : M N :=
  do c <- read_loc a;
  match c_ty c with
  | TObject =>
      do p <- ptr_of c;
      do b <- get_block p;
      match b with
      | BObj m =>
          match obj_find k m with
          | Some x => do _ <- set_block p (BObj (obj_erase k m)); do _ <- destroy_cell x; ret 1
          | None => ret 0
          end
      | _ => fail UB
      end
  | _ => fail (Throw (EKey "cannot use erase() with non-object value"))
  end.

Definition erase_idx (a : loc) (i : N) : M unit :=
  do c <- read_loc a;
  match c_ty c with
  | TArray =>
      do p <- ptr_of c;
      do b <- get_block p;
      match b with
      | BArr g l =>
          match nth_error l (N.to_nat i) with
          | Some x => do _ <- set_block p (BArr (S g) (remove_nth (N.to_nat i) l)); destroy_cell x
          | None => fail UB
          end
      | _ => fail UB
      end
  | _ => fail (Throw (EKey "cannot use erase() with non-array value"))
  end.

Definition clear (a : loc) : M unit :=
  do c <- read_loc a;
  match c_ty c with
  | TInteger => write_loc a (mkCell TInteger (WInt 0))
  | TFloating => write_loc a (mkCell TFloating (WFloat f64_zero))
  | TBoolean => write_loc a (mkCell TBoolean (WBool false))
  | TString => do p <- ptr_of c; do b <- get_block p; match b with BStr _ => set_block p (BStr []) | _ => fail UB end
  | TArray =>
      do p <- ptr_of c; do b <- get_block p;
      match b with BArr g l => do _ <- set_block p (BArr (S g) []); iterm destroy_cell l | _ => fail UB end
  | TObject =>
      do p <- ptr_of c; do b <- get_block p;
      match b with BObj m => do _ <- set_block p (BObj []); iterm (fun kc => destroy_cell (snd kc)) m | _ => fail UB end
  | TNull => ret tt
  end.

(** ** Programs.  A place is a variable and a chain of at() calls. *)
Definition place := (nat * list sel)%type.

Fixpoint walk_at (a : loc) (p : list sel) : M loc :=
  match p with
  | [] => ret a
  | s :: p' => do a' <- at_loc a s; walk_at a' p'
  end.

Definition locate (pl : place) : M loc :=
  do _ <- read_loc (LSlot (fst pl)); walk_at (LSlot (fst pl)) (snd pl).

Inductive cmd :=
| New (i : init)                (* basic_value v{...} *)
| NewCopy (b : place)           (* basic_value v{b} *)
| NewMove (b : place)           (* basic_value v{std::move(b)} *)
| CopyTo (a b : place)          (* a = b *)
| MoveTo (a b : place)          (* a = std::move(b) *)
| Swap (a b : place)            (* a.swap(b) *)
| SetTo (a : place) (i : init)  (* a = temporary *)
| ReplaceBy (a : place) (i : init)
| PushCopy (a b : place)        (* a.push_back(b) *)
| PushMove (a b : place)        (* a.push_back(std::move(b)) *)
| PushNew (a : place) (i : init)
| Sub (a : place) (s : sel)     (* a[s] *)
| DelKey (a : place) (k : str)
| DelIdx (a : place) (i : N)
| Wipe (a : place)              (* a.clear() *)
| End (n : nat).                (* the variable goes out of scope *)

Definition exec (c : cmd) : M result :=
  match c with
  | New i => do x <- construct i; do _ <- push_slot x; ret RUnit
  | NewCopy b => do l <- locate b; do x <- read_loc l; do y <- copy_cell x; do _ <- push_slot y; ret RUnit
  | NewMove b => do l <- locate b; do x <- move_from l; do _ <- push_slot x; ret RUnit
  | CopyTo a b => do la <- locate a; do lb <- locate b; do _ <- assign_copy la lb; ret RUnit
  | MoveTo a b => do la <- locate a; do lb <- locate b; do _ <- assign_move la lb; ret RUnit
  | Swap a b => do la <- locate a; do lb <- locate b; do _ <- swap la lb; ret RUnit
  | SetTo a i => do la <- locate a; do _ <- assign_new la i; ret RUnit
  | ReplaceBy a i => do la <- locate a; do _ <- replace_with la i; ret RUnit
  | PushCopy a b =>
      do la <- locate a; do lb <- locate b;
      do _ <- push_back la (do x <- read_loc lb; copy_cell x); ret RUnit
  | PushMove a b => do la <- locate a; do lb <- locate b; do _ <- push_back la (move_from lb); ret RUnit
  | PushNew a i =>
      do la <- locate a;
      do x <- construct i;
      do _ <- with_temp x (fun t => push_back la (move_from t)); ret RUnit
  | Sub a s => do la <- locate a; do _ <- sub_loc la s; ret RUnit
  | DelKey a k => do la <- locate a; do n <- erase_key la k; ret (RNum n)
  | DelIdx a i => do la <- locate a; do _ <- erase_idx la i; ret RUnit
  | Wipe a => do la <- locate a; do _ <- clear la; ret RUnit
  | End n => do _ <- end_slot n; ret RUnit
  end.

(** a program stops at undefined behaviour *)
Fixpoint exec_all (cs : list cmd) (s : hstate) : hstate * list (outcome result) :=
  match cs with
  | [] => (s, [])
  | c :: cs' =>
      match exec c s with
      | (s', Ret r) => let '(s2, rs) := exec_all cs' s' in (s2, Ret r :: rs)
      | (s', Throw e) => let '(s2, rs) := exec_all cs' s' in (s2, Throw e :: rs)
      | (s', r) => (s', [r])
      end
  end.

Definition start : hstate := mkSt [] [].
