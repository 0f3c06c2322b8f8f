(** What the value operations should do, stated without the model's functions:
    objects are finite maps, arrays are sequences, misuse is reported. *)
From Verif Require Import Base Value ValueOps SpecGrammar SpecText.

(** ** Objects as finite maps *)
Definition fmap := str -> option value.

(** One operation on an object; [InKey k f] is any use f of the reference
    v[k], at whatever depth. *)
Inductive oop :=
| InKey (k : str) (f : value -> value * outcome result)
| DelKey (k : str)
| ClearObj.

Definition value_or_null (o : option value) : value := match o with Some x => x | None => VNull end.

Definition fm_step (o : oop) (m m' : fmap) (r : outcome result) : Prop :=
  match o with
  | InKey k f =>
      m' k = Some (fst (f (value_or_null (m k)))) /\ r = snd (f (value_or_null (m k))) /\
      (forall j, j <> k -> m' j = m j)
  | DelKey k =>
      m' k = None /\ (forall j, j <> k -> m' j = m j) /\
      r = Ret (RNum (match m k with Some _ => 1 | None => 0 end))
  | ClearObj => (forall j, m' j = None) /\ r = Ret RUnit
  end.

Inductive fm_hist : list oop -> fmap -> fmap -> list (outcome result) -> Prop :=
| fh_nil m m' : (forall k, m' k = m k) -> fm_hist [] m m' []
| fh_cons o os m m1 m' r rs : fm_step o m m1 r -> fm_hist os m1 m' rs -> fm_hist (o :: os) m m' (r :: rs).

(** the entry list l is the map m *)
Definition is_map (l : list (str * value)) (m : fmap) : Prop :=
  sorted l /\ forall k x, In (k, x) l <-> m k = Some x.

(** the same operation on the model *)
Definition run_oop (o : oop) (v : value) : res result :=
  match o with
  | InKey k f => via_key k f v
  | DelKey k => run_op (EraseKey k) v
  | ClearObj => run_op Clear v
  end.

(** A use of a reference that does not run into undefined behaviour. *)
Definition oop_safe (o : oop) : Prop :=
  match o with InKey _ f => forall x, snd (f x) <> UB | _ => True end.

(** ** Arrays as sequences: a length and what is at each position *)
Definition seq := (N * (N -> option value))%type.

Inductive aop :=
| InIdx (i : N) (f : value -> value * outcome result)
| DelIdx (i : N)
| Push (x : value)
| ClearArr.

Definition seq_step (o : aop) (s s' : seq) (r : outcome result) : Prop :=
  let '(n, g) := s in
  let '(n', g') := s' in
  match o with
  | InIdx i f =>
      n' = N.max n (i + 1) /\
      g' i = Some (fst (f (value_or_null (g i)))) /\ r = snd (f (value_or_null (g i))) /\
      (forall j, j < n -> j <> i -> g' j = g j) /\
      (forall j, n <= j -> j < i -> g' j = Some VNull)
  | DelIdx i =>
      (i < n /\ r = Ret RUnit /\ n' + 1 = n /\
       (forall j, j < i -> g' j = g j) /\ (forall j, i <= j -> g' j = g (j + 1)))
      \/ (n <= i /\ r = UB)
  | Push x => n' = n + 1 /\ r = Ret RUnit /\ g' n = Some x /\ (forall j, j < n -> g' j = g j)
  | ClearArr => n' = 0 /\ r = Ret RUnit
  end.

(** A history ends at undefined behaviour. *)
Inductive seq_hist : list aop -> seq -> seq -> list (outcome result) -> Prop :=
| sh_nil s : seq_hist [] s s []
| sh_cons o os s s1 s' r rs : seq_step o s s1 r -> r <> UB -> seq_hist os s1 s' rs -> seq_hist (o :: os) s s' (r :: rs)
| sh_ub o os s s' : seq_step o s s' UB -> seq_hist (o :: os) s s' [UB].

Definition is_seq (l : list value) (s : seq) : Prop :=
  N.of_nat (length l) = fst s /\
  (forall i, i < fst s -> nth_error l (N.to_nat i) = snd s i) /\
  (forall i, fst s <= i -> snd s i = None).

Definition run_aop (o : aop) (v : value) : res result :=
  match o with
  | InIdx i f => via_idx i f v
  | DelIdx i => run_op (EraseIdx i) v
  | Push x => run_op (PushBack x) v
  | ClearArr => run_op Clear v
  end.

(** The largest index operator[] can be given is 2^64-1; one less always works. *)
Definition idx_ok (o : aop) : Prop :=
  match o with InIdx i _ => i < 18446744073709551615 | _ => True end.

(** operations that turn null into a container *)
Definition makes_object (o : oop) : Prop := match o with InKey _ _ => True | _ => False end.
Definition makes_array (o : aop) : Prop := match o with InIdx _ _ | Push _ => True | _ => False end.

(** ** Histories on the model *)
Section Run.
Context {O : Type} (step : O -> value -> res result).
Fixpoint run_all (os : list O) (v : value) : value * list (outcome result) :=
  match os with
  | [] => (v, [])
  | o :: os' =>
      match step o v with
      | (v', UB) => (v', [UB])
      | (v', r) => let '(v2, rs) := run_all os' v' in (v2, r :: rs)
      end
  end.
End Run.

(** ** Misuse *)

(** operations applied to a value of the wrong type, and what they throw *)
Inductive misuse : op -> value -> exn -> Prop :=
| mu_push x v : type_of v <> TNull -> type_of v <> TArray ->
    misuse (PushBack x) v (EType "use push_back() or emplace_back() with non-array value")
| mu_erase_key k v : type_of v <> TObject -> misuse (EraseKey k) v (EKey "cannot use erase() with non-object value")
| mu_erase_idx i v : type_of v <> TArray -> misuse (EraseIdx i) v (EKey "cannot use erase() with non-array value").

(** the const subscripts word it differently from the others *)
Inductive bad_subscript : acc -> value -> exn -> Prop :=
| bs_ref_idx i v : type_of v <> TNull -> type_of v <> TArray ->
    bad_subscript (RefIdx i) v (EKey "operator[] called on a non-array object")
| bs_ref_key k v : type_of v <> TNull -> type_of v <> TObject ->
    bad_subscript (RefKey k) v (EKey "operator[] called on a non-object type")
| bs_at_idx i v : type_of v <> TArray -> bad_subscript (AtIdx i) v (EKey "operator[] called on a non-array type")
| bs_at_key k v : type_of v <> TObject -> bad_subscript (AtKey k) v (EKey "operator[] called on a non-object object")
| bs_at_idx_range i l : N.of_nat (length l) <= i ->
    bad_subscript (AtIdx i) (VArr l) (EOutOfRange "operator[] index out of range")
| bs_at_key_range k m : (forall x, ~ In (k, x) m) ->
    bad_subscript (AtKey k) (VObj m) (EOutOfRange "operator[] key out of range").

(** the element a good subscript refers to *)
Inductive element : acc -> value -> value -> Prop :=
| el_idx i l x : nth_error l (N.to_nat i) = Some x -> element (AtIdx i) (VArr l) x
| el_key k m x : In (k, x) m -> element (AtKey k) (VObj m) x
| el_ref_idx i l x : nth_error l (N.to_nat i) = Some x -> element (RefIdx i) (VArr l) x
| el_ref_key k m x : In (k, x) m -> element (RefKey k) (VObj m) x
| el_new_idx i l : N.of_nat (length l) <= i -> element (RefIdx i) (VArr l) VNull
| el_new_key k m : (forall x, ~ In (k, x) m) -> element (RefKey k) (VObj m) VNull
| el_null_idx i : element (RefIdx i) VNull VNull
| el_null_key k : element (RefKey k) VNull VNull.

Definition only_at (a : acc) : Prop := match a with AtIdx _ | AtKey _ => True | _ => False end.

(** values an operation carries into the tree *)
Definition carried (o : op) : list value :=
  match o with Assign x | PushBack x => [x] | _ => [] end.
