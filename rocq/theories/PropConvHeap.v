(** Making values from C++ objects when memory runs out: C61. *)
From Coq Require Import List.
From Verif Require Import Base Value ValueOps SpecText Cpp Convert SpecConv Heap SpecHeap Alloc SpecAlloc ConvHeap SpecConvHeap ConvTo ConvThm ConvHeapProofs.
Import ListNotations.
Open Scope N_scope.
Notation text s := (chars s%string).

(** json v(x): the variable holds the image of x, or std::bad_alloc is thrown,
    no variable has changed, and at most the blocks of the image are lost. *)
Theorem C61_new : forall e lf t x, fair e -> wf_ty t -> typed t x -> exists v, of_cpp e t x = Ret v /\ image t x v /\
  forall s S pl qs, holds_but s S qs -> exists s' pl',
  (fnew_from e lf t x (s, pl) = ((s', pl'), Ret tt) /\ granted pl pl' /\ holds_but s' (S ++ [Some v]) qs) \/
  (exists ks, fnew_from e lf t x (s, pl) = ((s', pl'), Throw EAlloc) /\ refused pl pl' /\ holds_but s' S (ks ++ qs) /\
     (length ks <= needs v)%nat).
Proof.
  exact (fun e lf t x F W T => match to_value_image e t x F W T with
    | ex_intro _ v (conj E Im) => ex_intro _ v (conj E (conj Im (new_from e lf F t x v W T E))) end).
Qed.
Print Assumptions C61_new.

(** a = x: as above, and the old value of a survives a failure. *)
Theorem C61_assign : forall e lf t x v, fair e -> wf_ty t -> typed t x -> of_cpp e t x = Ret v ->
  forall a S S' y s pl qs, sget S a y -> sset S a v S' -> holds_but s S qs -> exists s' pl',
  (fset_from e lf a t x (s, pl) = ((s', pl'), Ret tt) /\ granted pl pl' /\ holds_but s' S' qs) \/
  (exists ks, fset_from e lf a t x (s, pl) = ((s', pl'), Throw EAlloc) /\ refused pl pl' /\ holds_but s' S (ks ++ qs) /\
     (length ks <= needs v)%nat).
Proof. exact (fun e lf t x v F W T E => set_from e lf F t x v W T E). Qed.
Print Assumptions C61_assign.

(** a.emplace_back(x) on an array or null: on failure a is as before, or the
    empty array if it was null. *)
Theorem C61_push : forall e lf t x v, fair e -> wf_ty t -> typed t x -> of_cpp e t x = Ret v ->
  forall a S S1 S' y l s pl qs, sget S a y -> as_array y l -> sset S a (VArr l) S1 -> sset S a (VArr (l ++ [v])) S' -> holds_but s S qs -> exists s' pl',
  (fpush_from e lf a t x (s, pl) = ((s', pl'), Ret tt) /\ granted pl pl' /\ holds_but s' S' qs) \/
  (exists ks Sx, fpush_from e lf a t x (s, pl) = ((s', pl'), Throw EAlloc) /\ refused pl pl' /\ (Sx = S \/ Sx = S1) /\
     holds_but s' Sx (ks ++ qs) /\ (length ks <= needs v)%nat).
Proof. exact (fun e lf t x v F W T E => push_from e lf F t x v W T E). Qed.
Print Assumptions C61_push.

(** Containers: nothing is lost only if the very first allocation was refused. *)
Theorem C61_container : forall e lf t x v, fair e -> wf_ty t -> typed t x -> of_cpp e t x = Ret v -> container t ->
  forall s S pl qs s' pl' er, holds_but s S qs -> fnew_from e lf t x (s, pl) = ((s', pl'), Throw er) ->
  exists ks, holds_but s' S (ks ++ qs) /\ (length ks <= needs v)%nat /\ (ks = [] <-> pl = true :: pl').
Proof. exact (fun e lf t x v F W T E => container_new e lf F t x v W T E). Qed.
Print Assumptions C61_container.

(** struct { vector<string> a; unique_ptr<json> b; }, both fields bound *)
Definition C61_env : Convert.env := mkEnv (fun l => l) (fun m => m) true.
Definition C61_ty : cty := TyStruct [(text "a", true, TySeq KVector TyString); (text "b", false, TyPtr TyJson)].
Definition C61_obj : cval := CRec [CSeq [CStr (text "x"); CStr (text "y")]; CPtr (Some (CJson (VArr [VInt 1])))].
Definition C61_val : value := VObj [(text "a", VArr [VStr (text "x"); VStr (text "y")]); (text "b", VArr [VInt 1])].

Example C61_enough : forall lf, of_cpp C61_env C61_ty C61_obj = Ret C61_val /\ needs C61_val = 5%nat /\
  snd (fnew_from C61_env lf C61_ty C61_obj (start, [])) = Ret tt /\
  length (heap (fst (fst (fnew_from C61_env lf C61_ty C61_obj (start, []))))) = 5%nat.
Proof. intros []; repeat split. Qed.

(** "A constructor that throws gives its memory back" is false, whichever
    operand of = comes first: the string "y" is refused; the object, the array
    and "x" are lost with the storage for "y", or all of them but the object,
    which is not there yet. *)
Theorem C61_no_leak_refuted : forall lf, exists s' pl' ks,
  fnew_from C61_env lf C61_ty C61_obj (start, repeat false (if lf then 9 else 5)%nat ++ [true]) = ((s', pl'), Throw EAlloc) /\
  Heap.env s' = [] /\ length ks = (if lf then 4 else 3)%nat /\ NoDup ks /\ forall p, live s' p <-> In p ks.
Proof.
  intros [].
  - eexists. exists [], [0; 1; 2; 3]%nat. split; [vm_compute; reflexivity|]. split; [reflexivity|]. split; [reflexivity|]. split; [repeat constructor; cbn; intuition discriminate|].
    intro p. unfold live. cbn [heap]. do 4 (destruct p as [|p]; [split; [cbn; tauto|intros _; eexists; reflexivity]|]).
    split; [intros [b X]; destruct p; discriminate|cbn; intros [X|[X|[X|[X|[]]]]]; discriminate].
  - eexists. exists [], [0; 1; 2]%nat. split; [vm_compute; reflexivity|]. split; [reflexivity|]. split; [reflexivity|]. split; [repeat constructor; cbn; intuition discriminate|].
    intro p. unfold live. cbn [heap]. do 3 (destruct p as [|p]; [split; [cbn; tauto|intros _; eexists; reflexivity]|]).
    split; [intros [b X]; destruct p; discriminate|cbn; intros [X|[X|[X|[]]]]; discriminate].
Qed.
Print Assumptions C61_no_leak_refuted.
