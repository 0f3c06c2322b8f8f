(** Ownership when allocation can fail (details/value.hpp, conversion.hpp).

    The commands of Heap, run with a plan that says which allocations throw
    std::bad_alloc.  create_data takes storage and then constructs the string,
    vector or map in it; when the constructor throws nobody gives the storage
    back.

    Simplifications: an allocation is asked for wherever the library may
    allocate (the text of a string, the buffer of a vector, the node and the
    key of a map entry); a plan may grant it, as when a short string needs
    none.  Storage without an object in it is a block with an empty text.  A
    vector or map that cannot be completed destroys the elements it has, newest
    first; map entries are copied in order.  The default constructors of vector
    and map do not allocate. *)
From Verif Require Import Base Value ValueOps Heap.

(** true: this allocation fails; after the end of the plan all succeed *)
Definition plan := list bool.
Definition F (A : Type) := hstate * plan -> (hstate * plan) * outcome A.

Definition fret {A} (a : A) : F A := fun s => (s, Ret a).
Definition fseq {A B} (m : F A) (k : A -> F B) : F B := fun s =>
  match m s with
  | (s', Ret a) => k a s'
  | (s', Throw e) => (s', Throw e)
  | (s', Abort) => (s', Abort)
  | (s', UB) => (s', UB)
  | (s', OutOfFuel) => (s', OutOfFuel)
  end.
Notation "'let!' x '<-' m ';' k" := (fseq m (fun x => k)) (at level 200, x pattern, m at level 100, k at level 200, right associativity).

(** a part that does not allocate *)
Definition lift {A} (m : M A) : F A := fun s => let '(h, r) := m (fst s) in ((h, snd s), r).

Definition alloc : F unit := fun s =>
  match snd s with
  | true :: pl => ((fst s, pl), Throw EAlloc)
  | false :: pl => ((fst s, pl), Ret tt)
  | [] => (s, Ret tt)
  end.

(** m; k only if m throws *)
Definition on_throw {A} (m : F A) (k : M unit) : F A := fun s =>
  match m s with
  | (s', Throw e) => (let! _ <- lift k; lift (fail (Throw e))) s'
  | r => r
  end.

(** m; k in any case *)
Definition ffinally {A} (m : F A) (k : M unit) : F A := fun s =>
  match m s with
  | (s', Ret a) => (let! _ <- lift k; fret a) s'
  | (s', Throw e) => (let! _ <- lift k; lift (fail (Throw e))) s'
  | r => r
  end.

(** create_data, value.hpp:1095-1106 *)
Definition fcreate (build : F block) : F nat :=
  let! _ <- alloc;
  let! p <- lift (create (BStr []));
  let! b <- build;
  let! _ <- lift (set_block p b);
  fret p.

(** elements one after the other; those made are destroyed when one throws *)
Fixpoint fmapm {A B} (f : A -> F B) (undo : B -> M unit) (l : list A) : F (list B) :=
  match l with
  | [] => fret []
  | x :: l' =>
      let! y <- f x;
      let! ys <- on_throw (fmapm f undo l') (undo y);
      fret (y :: ys)
  end.

(** value.hpp:117-145 *)
Fixpoint fcopy (fuel : nat) (c : cell) : F cell :=
  match fuel with
  | O => lift (fail OutOfFuel)
  | S fuel' =>
      match c_ty c with
      | TString =>
          let! p <- lift (ptr_of c);
          let! b <- lift (get_block p);
          match b with
          | BStr s => let! q <- fcreate (let! _ <- alloc; fret (BStr s)); fret (mkCell TString (WPtr q))
          | _ => lift (fail UB)
          end
      | TArray =>
          let! p <- lift (ptr_of c);
          let! b <- lift (get_block p);
          match b with
          | BArr _ l =>
              let! q <- fcreate (let! _ <- alloc;
                                 let! l' <- fmapm (fcopy fuel') destroy_cell l;
                                 fret (BArr 0 l'));
              fret (mkCell TArray (WPtr q))
          | _ => lift (fail UB)
          end
      | TObject =>
          let! p <- lift (ptr_of c);
          let! b <- lift (get_block p);
          match b with
          | BObj m =>
              let! q <- fcreate (let! m' <- fmapm (fun kc => let! _ <- alloc; let! _ <- alloc;
                                                             let! c' <- fcopy fuel' (snd kc); fret (fst kc, c'))
                                                  (fun kc => destroy_cell (snd kc)) m;
                                 fret (BObj m'));
              fret (mkCell TObject (WPtr q))
          | _ => lift (fail UB)
          end
      | TNull => fret null_cell
      | t => fret (mkCell t (c_data c))
      end
  end.
Definition fcopy_cell (c : cell) : F cell := fun s => fcopy (budget (fst s)) c s.

(** basic_value(type), 87-115, and the converting constructor 155-163 for
    scalars and strings *)
Definition fconstruct (i : init) : F cell :=
  match i with
  | IStr s => let! p <- fcreate (let! _ <- alloc; fret (BStr s)); fret (mkCell TString (WPtr p))
  | IArr => let! p <- fcreate (fret (BArr 0 [])); fret (mkCell TArray (WPtr p))
  | IObj => let! p <- fcreate (fret (BObj [])); fret (mkCell TObject (WPtr p))
  | i => lift (construct i)
  end.

Definition ftemp {A} (c : cell) (m : loc -> F A) : F A :=
  let! t <- lift (push_slot c); ffinally (m (LSlot t)) pop_slot.

(** operator=(const basic_value&), value.hpp:689-697 *)
Definition fassign_copy (a b : loc) : F unit :=
  if loc_eqb a b then fret tt
  else
    let! x <- lift (read_loc b);
    let! tmp <- fcopy_cell x;
    ftemp tmp (fun t => lift (swap a t)).

Definition fassign_new (a : loc) (i : init) : F unit :=
  let! c <- fconstruct i;
  ftemp c (fun t => lift (assign_move a t)).

(** value_constructor::reset, value.hpp:1025-1031: the old content is
    destroyed and the new type set before the new content exists *)
Definition init_ty (i : init) : vtype :=
  match i with
  | INull => TNull | IBool _ => TBoolean | IInt _ => TInteger | IFloat _ => TFloating | IStr _ => TString | IArr => TArray | IObj => TObject
  end.
Definition freset (a : loc) (i : init) : F unit :=
  let! c <- lift (read_loc a);
  let! _ <- lift (destroy_cell c);
  let! _ <- lift (write_loc a (mkCell (init_ty i) (c_data c)));
  let! c' <- fconstruct i;
  lift (write_loc a c').

(** operator[], value.hpp:711-728, 735-746 *)
Definition fsub_loc (a : loc) (s : sel) : F loc :=
  let! c <- lift (read_loc a);
  let! _ <- match c_ty c with
            | TNull => fassign_new a (match s with Idx _ => IArr | Key _ => IObj end)
            | _ => fret tt
            end;
  let! c <- lift (read_loc a);
  match s with
  | Idx i =>
      match c_ty c with
      | TArray =>
          let! p <- lift (ptr_of c);
          let! b <- lift (get_block p);
          match b with
          | BArr g l =>
              if len l <=? i then
                let l' := l ++ repeat null_cell (N.to_nat (u64 (i + 18446744073709551616 - len l + 1))) in
                let! _ <- alloc;
                let! _ <- lift (set_block p (BArr (S g) l'));
                match nth_error l' (N.to_nat i) with Some _ => fret (LElem p (S g) (N.to_nat i)) | None => lift (fail UB) end
              else fret (LElem p g (N.to_nat i))
          | _ => lift (fail UB)
          end
      | _ => lift (fail (Throw (EKey "operator[] called on a non-array object")))
      end
  | Key k =>
      match c_ty c with
      | TObject =>
          let! p <- lift (ptr_of c);
          let! b <- lift (get_block p);
          match b with
          | BObj m =>
              let! _ <- match obj_find k m with Some _ => fret tt | None => let! _ <- alloc; alloc end;
              let! _ <- lift (set_block p (BObj (obj_emplace k null_cell m)));
              fret (LMember p k)
          | _ => lift (fail UB)
          end
      | _ => lift (fail (Throw (EKey "operator[] called on a non-object type")))
      end
  end.

(** emplace_back, value.hpp:428-440: the vector gets its new buffer, makes the
    new element in it, and only then moves the others *)
Definition fpush_back (a : loc) (arg : F cell) : F unit :=
  let! c <- lift (read_loc a);
  let! _ <- match c_ty c with
            | TNull => fassign_new a IArr
            | TArray => fret tt
            | _ => lift (fail (Throw (EType "use push_back() or emplace_back() with non-array value")))
            end;
  let! c <- lift (read_loc a);
  let! p <- lift (ptr_of c);
  let! _ <- alloc;
  let! x <- arg;
  let! b <- lift (get_block p);
  match b with
  | BArr g l => lift (set_block p (BArr (S g) (l ++ [x])))
  | _ => lift (fail UB)
  end.

Definition fexec (c : cmd) : F result :=
  match c with
  | New i => let! x <- fconstruct i; let! _ <- lift (push_slot x); fret RUnit
  | NewCopy b => let! l <- lift (locate b); let! x <- lift (read_loc l); let! y <- fcopy_cell x; let! _ <- lift (push_slot y); fret RUnit
  | CopyTo a b => let! la <- lift (locate a); let! lb <- lift (locate b); let! _ <- fassign_copy la lb; fret RUnit
  | SetTo a i => let! la <- lift (locate a); let! _ <- fassign_new la i; fret RUnit
  | ReplaceBy a i => let! la <- lift (locate a); let! _ <- freset la i; fret RUnit
  | PushCopy a b =>
      let! la <- lift (locate a); let! lb <- lift (locate b);
      let! _ <- fpush_back la (let! x <- lift (read_loc lb); fcopy_cell x); fret RUnit
  | PushMove a b =>
      let! la <- lift (locate a); let! lb <- lift (locate b);
      let! _ <- fpush_back la (lift (move_from lb)); fret RUnit
  | PushNew a i =>
      let! la <- lift (locate a);
      let! x <- fconstruct i;
      let! _ <- ftemp x (fun t => fpush_back la (lift (move_from t))); fret RUnit
  | Sub a s => let! la <- lift (locate a); let! _ <- fsub_loc la s; fret RUnit
  | c => lift (exec c)
  end.

Fixpoint fexec_all (cs : list cmd) (s : hstate * plan) : (hstate * plan) * list (outcome result) :=
  match cs with
  | [] => (s, [])
  | c :: cs' =>
      match fexec c s with
      | (s', Ret r) => let '(s2, rs) := fexec_all cs' s' in (s2, Ret r :: rs)
      | (s', Throw e) => let '(s2, rs) := fexec_all cs' s' in (s2, Throw e :: rs)
      | (s', r) => (s', [r])
      end
  end.

(** ** A variable made from a std::vector: basic_value(_CompatibleTy&&),
    value.hpp:155-163, with to_value for vectors, conversion.hpp:294-305.  When
    to_value throws, the constructor has not finished and the destructor does
    not run. *)
Fixpoint ffill (a : loc) (i : N) (l : list init) : F unit :=
  match l with
  | [] => fret tt
  | x :: l' =>
      let! e <- fsub_loc a (Idx i);
      let! _ <- fassign_new e x;
      ffill a (i + 1) l'
  end.
Definition forget_slot : M unit := fun s => (set_env (removelast (env s)) s, Ret tt).
Definition fnew_list (l : list init) : F unit :=
  let! t <- lift (push_slot null_cell);
  on_throw (let! _ <- freset (LSlot t) IArr; ffill (LSlot t) 0 l) forget_slot.
