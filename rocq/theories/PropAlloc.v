(** C47, C48: running out of memory. *)
From Verif Require Import Base Value ValueOps Heap Alloc SpecText SpecHeap SpecAlloc AllocMain.
Open Scope N_scope.
Notation text s := (chars s%string).

(** C47.  Every command, under every plan of refusals, from every state (with
    any blocks qs already lost): it does what it does with enough memory, and
    nothing is lost; or an allocation was refused, it throws std::bad_alloc,
    the variables hold the old values (up to [half]), and all that is lost
    is the storage ks in which nothing could be constructed. *)
Theorem C47_step : forall c S S' r s pl qs, tstep c S S' r -> no_reset c -> holds_but s S qs -> exists s' pl',
  (fexec c (s, pl) = ((s', pl'), r) /\ granted pl pl' /\ holds_but s' S' qs) \/
  (exists S2 ks, fexec c (s, pl) = ((s', pl'), Throw EAlloc) /\ refused pl pl' /\ half c S S2 /\ loses c S (length ks) /\
     (forall p, In p ks -> bare s' p) /\ holds_but s' S2 (ks ++ qs)).
Proof. exact alloc_step. Qed.
Print Assumptions C47_step.

(** Whole programs, for every plan: no undefined behaviour, no program stops;
    each outcome is one of the two above. *)
Theorem C47_history : forall cs s S pl qs, holds_but s S qs -> sane_always cs S -> exists s' pl' S' rs ks,
  fexec_all cs (s, pl) = ((s', pl'), rs) /\ arun cs S S' rs (length ks) /\ holds_but s' S' (ks ++ qs) /\
  (forall r, In r rs -> (exists a, r = Ret a) \/ (exists e, r = Throw e)) /\
  (Forall (eq false) pl -> trun cs S S' rs /\ ks = [] /\ Forall (eq false) pl').
Proof. exact alloc_run. Qed.
Print Assumptions C47_history.

(** When every variable has been destroyed the lost blocks are all that is
    left. *)
Theorem C47_left : forall s S qs p, holds_but s S qs -> all_ended S -> (live s p <-> In p qs).
Proof. exact only_lost_left. Qed.
Print Assumptions C47_left.

(** Copy construction, copy assignment and assignment of a new value change no
    variable when they throw. *)
Theorem C47_unchanged : forall c S S' r s pl qs s' pl', tstep c S S' r -> no_reset c -> keeps c -> holds_but s S qs ->
  fexec c (s, pl) = ((s', pl'), Throw EAlloc) -> exists ks, loses c S (length ks) /\ holds_but s' S (ks ++ qs).
Proof. exact unchanged. Qed.
Print Assumptions C47_unchanged.

(** Moving, swapping, erasing, clearing and destroying need no memory. *)
Theorem C47_never_fails : forall c S S' r s pl qs, tstep c S S' r -> no_memory c -> holds_but s S qs ->
  exists s', fexec c (s, pl) = ((s', pl), r) /\ holds_but s' S' qs.
Proof. exact never_fails. Qed.
Print Assumptions C47_never_fails.

(** With enough memory everything is as in C36 and C37. *)
Theorem C47_enough : forall c S S' r s pl qs, tstep c S S' r -> holds_but s S qs -> Forall (eq false) pl -> exists s' pl',
  fexec c (s, pl) = ((s', pl'), r) /\ granted pl pl' /\ holds_but s' S' qs.
Proof. exact no_refusal. Qed.
Print Assumptions C47_enough.

(** A variable made from a std::vector: when it throws, all that was built is
    lost, unless the very first allocation was refused. *)
Theorem C47_from_list : forall l s S pl qs, holds_but s S qs -> len l < 18446744073709551615 -> exists s' pl',
  (fnew_list l (s, pl) = ((s', pl'), Ret tt) /\ granted pl pl' /\ holds_but s' (S ++ [Some (VArr (map init_value l))]) qs) \/
  (exists ks, fnew_list l (s, pl) = ((s', pl'), Throw EAlloc) /\ refused pl pl' /\ holds_but s' S (ks ++ qs) /\
     (length ks <= Datatypes.S (length l))%nat /\ (ks = [] <-> pl = true :: pl')).
Proof. exact new_list. Qed.
Print Assumptions C47_from_list.

(** var 0 = ["abc"]; the copy of the text is refused while copying *)
Definition C47_program : list cmd :=
  [New IArr; PushNew (0%nat, []) (IStr (text "abc")); NewCopy (0%nat, []); Wipe (0%nat, []); End 0].
Definition C47_plan : plan := [false; false; false; false; false; false; false; true].

(** "A failed copy gives its memory back" is false: here two blocks are left
    when no variable is. *)
Theorem C47_no_leak_refuted : exists s' pl',
  fexec_all C47_program (start, C47_plan) = ((s', pl'), [Ret RUnit; Ret RUnit; Throw EAlloc; Ret RUnit; Ret RUnit]) /\
  env s' = [None] /\ live s' 2 /\ live s' 3.
Proof.
  destruct (fexec_all C47_program (start, C47_plan)) as [[s' pl'] rs] eqn:E. exists s', pl'. vm_compute in E. injection E as <- <- <-.
  split; [reflexivity|]. split; [reflexivity|]. split; eexists; reflexivity.
Qed.
Print Assumptions C47_no_leak_refuted.

(** "A command that throws std::bad_alloc leaves all values alone" is false
    for push_back and operator[]: the null has become an array or object. *)
Theorem C47_strong_refuted :
  (let '((s', _), rs) := fexec_all [New INull; PushNew (0%nat, []) (IInt 5)] (start, [false; true]) in
   rs = [Ret RUnit; Throw EAlloc] /\ env s' = [Some (mkCell TArray (WPtr 0))]) /\
  (let '((s', _), rs) := fexec_all [New INull; Sub (0%nat, []) (Key (text "a"))] (start, [false; true]) in
   rs = [Ret RUnit; Throw EAlloc] /\ env s' = [Some (mkCell TObject (WPtr 0))]).
Proof. split; vm_compute; auto. Qed.
Print Assumptions C47_strong_refuted.

(** vector<string>{"a", "b"}: the second text is refused; the array, "a" and
    the storage for "b" stay. *)
Example C47_list_case :
  let r := fnew_list [IStr (text "a"); IStr (text "b")] (start, [false; false; false; false; false; false; true]) in
  snd r = Throw EAlloc /\ env (fst (fst r)) = [] /\ live (fst (fst r)) 0 /\ live (fst (fst r)) 1 /\ live (fst (fst r)) 2 /\ ~ live (fst (fst r)) 3.
Proof.
  vm_compute. split; [reflexivity|]. split; [reflexivity|]. repeat split; try (eexists; reflexivity). intros [b H]. discriminate.
Qed.

Example C47_case : exists s', fexec_all C47_program (start, []) = ((s', []), [Ret RUnit; Ret RUnit; Ret RUnit; Ret RUnit; Ret RUnit]) /\
  env s' = [None; Some (mkCell TArray (WPtr 2))].
Proof. eexists. vm_compute. split; reflexivity. Qed.

(** C48.  value_constructor::reset, with which to_value gives a value its
    new content: it succeeds, or a block was asked for and refused. *)
Theorem C48_reset : forall a i S S' s pl qs y, sget S a y -> sset S a (init_value i) S' -> holds_but s S qs -> exists s' pl',
  (fexec (ReplaceBy a i) (s, pl) = ((s', pl'), Ret RUnit) /\ granted pl pl' /\ holds_but s' S' qs) \/
  (fexec (ReplaceBy a i) (s, pl) = ((s', pl'), Throw EAlloc) /\ refused pl pl' /\ in_block i).
Proof. exact reset_step. Qed.
Print Assumptions C48_reset.

(** "After a failed reset the value can still be destroyed" is false, for
    every variable and every content: its destructor then has undefined
    behaviour. *)
Theorem C48_destroy_refuted : forall s S qs n i pl s' pl' e, holds_but s S qs -> alive S n ->
  fexec (ReplaceBy (n, []) i) (s, pl) = ((s', pl'), Throw e) ->
  in_block i /\ forall pl2, fexec (End n) (s', pl2) = ((s', pl2), UB).
Proof. exact reset_breaks. Qed.
Print Assumptions C48_destroy_refuted.

(** such a failure happens: v = "abc"; reset to an array refused; ~v *)
Example C48_case : snd (fexec_all [New (IStr (text "abc")); ReplaceBy (0%nat, []) IArr; End 0] (start, [false; false; true])) =
  [Ret RUnit; Throw EAlloc; UB].
Proof. vm_compute. reflexivity. Qed.
