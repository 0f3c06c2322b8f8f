(** C68: pointers to the content of a value, kept while values change. *)
From Coq Require Import ZArith.
From Verif Require Import Base Value ValueOps SpecText Content SpecContent ContentProofs.
Local Open Scope N_scope.
Notation text s := (chars s%string).

(** What the examples use. *)
Definition start : kst := fst (k_run [KSet 0 (VStr (text "abc")); KSet 1 (VInt 5); KSet 2 (VArr [VInt 1])] k_empty).
Definition sure (o : outcome (option kptr)) : kptr := match o with Ret (Some p) => p | _ => PWord 0 TNull end.
Definition str0 : kptr := sure (k_get TString 0 start).
Definition int1 : kptr := sure (k_get TInteger 1 start).
Definition after (cs : list kcmd) : kst := fst (k_run cs start).

(** Every string, array and object of the variables has a block of its own, no block
    is kept that belongs to no variable, and no step changes that. *)
Theorem C68_owned : kok k_empty /\ (forall c st st' o, kok st -> k_step c st = (st', o) -> kok st').
Proof. exact (conj empty_kok step_kok). Qed.
Print Assumptions C68_owned.
Theorem C68_owned_run : forall cs st st' rs, kok st -> k_run cs st = (st', rs) -> kok st'.
Proof. exact run_kok. Qed.
Print Assumptions C68_owned_run.
Example C68_owned_ex : map (fun i => k_heap (after [KMove 2 0; KDo 0 (PushBack VNull)]) i) [0; 1; 2; 3]%nat
  = [Some (VStr (text "abc")); None; Some (VArr [VNull]); None].
Proof. vm_compute. reflexivity. Qed.

(** A pointer is obtained exactly if the value is of its type; it points to the content of that value,
    which is in a block for a string, array or object and in the variable otherwise. *)
Theorem C68_got : forall st t x v, kok st -> val st x = Ret v ->
  (type_of v = t /\ t <> TNull -> exists p, k_get t x st = Ret (Some p) /\ points st p x t /\
    (in_block t -> exists i, p = PBlk i t) /\ (in_word t -> p = PWord x t)) /\
  (type_of v <> t \/ t = TNull -> k_get t x st = Ret None).
Proof. exact got. Qed.
Print Assumptions C68_got.
Example C68_got_ex : (str0, int1, k_get TInteger 0 start) = (PBlk 0 TString, PWord 1 TInteger, Ret None).
Proof. vm_compute. reflexivity. Qed.

(** What is read through a pointer is the content of the variable it points to, and a
    pointer that can be read points to one variable only. *)
Theorem C68_read : forall st p x t, kok st -> points st p x t -> k_read p st = val st x.
Proof. exact points_read. Qed.
Print Assumptions C68_read.
Theorem C68_one : forall st p v, kok st -> k_read p st = Ret v ->
  exists x, points st p x (type_of v) /\ val st x = Ret v /\ forall y t, points st p y t -> y = x.
Proof. exact read_points. Qed.
Print Assumptions C68_one.
Example C68_read_ex : k_read str0 start = Ret (VStr (text "abc")) /\ k_read int1 start = Ret (VInt 5).
Proof. vm_compute. split; reflexivity. Qed.

(** A pointer to a string, array or object goes with it to the variable that has it
    after the command, whether the command returns or throws; if the content is
    destroyed the pointer dangles. *)
Theorem C68_block : forall c st st' o x i t, kok st -> k_step c st = (st', o) -> points st (PBlk i t) x t ->
  match goes c x with Some y => points st' (PBlk i t) y t | None => k_read (PBlk i t) st' = UB end.
Proof. exact stays. Qed.
Print Assumptions C68_block.
Theorem C68_block_run : forall cs st st' rs x i t, kok st -> points st (PBlk i t) x t -> k_run cs st = (st', rs) -> Forall fine rs ->
  match goes_all cs x with
  | Some y => points st' (PBlk i t) y t /\ k_read (PBlk i t) st' = val st' y
  | None => k_read (PBlk i t) st' = UB
  end.
Proof. exact follows. Qed.
Print Assumptions C68_block_run.
Example C68_block_ex :
  (let cs := [KSwap 0 1; KMove 2 1; KDo 2 Clear] in
   goes_all cs 0 = Some 2%nat /\ k_read str0 (after cs) = Ret (VStr []) /\ val (after cs) 2 = Ret (VStr [])) /\
  (let cs := [KSwap 0 1; KCopy 1 2] in goes_all cs 0 = None /\ k_read str0 (after cs) = UB).
Proof. vm_compute. repeat split. Qed.

(** A pointer to released content stays dangling, whatever is done later. *)
Theorem C68_gone : forall cs st st' rs i t, kok st -> kknown st (PBlk i t) -> k_read (PBlk i t) st = UB ->
  k_run cs st = (st', rs) -> k_read (PBlk i t) st' = UB.
Proof. exact gone. Qed.
Print Assumptions C68_gone.
Example C68_gone_ex : k_read str0 (after [KSet 0 VNull]) = UB /\ k_read str0 (after [KSet 0 VNull; KSet 0 (VStr (text "abc"))]) = UB.
Proof. vm_compute. split; reflexivity. Qed.

(** A pointer to a boolean, integer or float stays with the variable: it gives what
    the variable holds whenever that is of its type, and is not to be read otherwise. *)
Theorem C68_word : forall st x t v, kok st -> val st x = Ret v ->
  (type_of v = t /\ in_word t -> k_read (PWord x t) st = Ret v) /\
  (~ (type_of v = t /\ in_word t) -> k_read (PWord x t) st = UB).
Proof. exact words. Qed.
Print Assumptions C68_word.
Example C68_word_ex : k_read int1 (after [KSet 1 (VInt 7)]) = Ret (VInt 7) /\ k_read int1 (after [KSwap 0 1]) = UB
  /\ k_read int1 (after [KSwap 0 1; KSwap 0 1]) = Ret (VInt 5).
Proof. vm_compute. repeat split. Qed.

(** A store through a pointer is seen by the variable it points to and by every other
    pointer to it, and by no other variable. *)
Theorem C68_store : forall st p x t v, kok st -> points st p x t -> type_of v = t ->
  exists st', k_step (KStore p v) st = (st', Ret tt) /\ kok st' /\ points st' p x t /\ k_read p st' = Ret v /\ val st' x = Ret v /\
    (forall y, y <> x -> val st' y = val st y) /\
    (forall q u, points st q x u -> k_read q st' = Ret v).
Proof. exact stored. Qed.
Print Assumptions C68_store.
Example C68_store_ex :
  let st := after [KCopy 2 0; KSwap 0 1; KStore str0 (VStr (text "x"))] in
  map (val st) [0; 1; 2]%nat = [Ret (VInt 5); Ret (VStr (text "x")); Ret (VStr (text "abc"))].
Proof. vm_compute. reflexivity. Qed.

(** The variables hold what they would without blocks and pointers, a store being an
    assignment to the variable pointed to, and commands return or throw as they would. *)
Theorem C68_values : forall c st st' o vs x t, kok st -> holds st vs -> k_step c st = (st', o) ->
  (forall p v, c = KStore p v -> points st p x t /\ type_of v = t) -> holds st' (effect x c vs).
Proof. exact effects. Qed.
Print Assumptions C68_values.
Theorem C68_answers : forall c st st' o vs, kok st -> holds st vs -> k_step c st = (st', o) ->
  (forall p v, c <> KStore p v) -> o = answer c vs.
Proof. exact outcomes. Qed.
Print Assumptions C68_answers.
Theorem C68_program : forall cs st vs, kok st -> holds st vs -> Forall storeless cs -> Forall fine (answers cs vs) ->
  exists st', k_run cs st = (st', answers cs vs) /\ kok st' /\ holds st' (effect_all cs vs).
Proof. exact program. Qed.
Print Assumptions C68_program.
Example C68_values_ex :
  let st := after [KDo 2 (PushBack VNull); KSub 2 (RefIdx 0) [] (Assign (VInt 9)); KCopy 0 2; KMove 1 2] in
  map (val st) [0; 1; 2]%nat = [Ret (VArr [VInt 9; VNull]); Ret (VArr [VInt 9; VNull]); Ret VNull].
Proof. vm_compute. reflexivity. Qed.

Example C68_program_ex :
  let cs := [KSet 0 (VInt 1); KDo 0 (PushBack VNull); KSwap 0 1; KMove 2 1] in
  match answers cs (fun _ => VNull) with [Ret _; Throw _; Ret _; Ret _] => True | _ => False end /\
  map (effect_all cs (fun _ => VNull)) [0; 1; 2]%nat = [VNull; VNull; VInt 1] /\
  map (val (fst (k_run cs k_empty))) [0; 1; 2]%nat = [Ret VNull; Ret VNull; Ret (VInt 1)].
Proof. vm_compute. repeat split. Qed.

(** False: that a pointer obtained from a variable, while it can be read, gives what
    that variable holds.  After a swap the string went to the other variable. *)
Theorem C68_same_variable_refuted : ~ (forall cs st st' rs x t p v, kok st -> k_get t x st = Ret (Some p) ->
  k_run cs st = (st', rs) -> k_read p st' = Ret v -> val st' x = Ret v).
Proof. exact same_variable. Qed.
Print Assumptions C68_same_variable_refuted.
Example C68_same_variable_ex : k_read str0 (after [KSwap 0 1]) = Ret (VStr (text "abc")) /\ val (after [KSwap 0 1]) 0 = Ret (VInt 5).
Proof. vm_compute. split; reflexivity. Qed.
