(** C36, C37: values in memory. *)
From Verif Require Import Base Value ValueOps Heap SpecText SpecHeap HeapMain.
Open Scope N_scope.

(** C36.  Copies are equal to the original... *)
Theorem C36_copy_construct : forall s S b x, holds s S -> sget S b x ->
  exists s', exec (NewCopy b) s = (s', Ret RUnit) /\ holds s' (S ++ [Some x]).
Proof. exact new_copy. Qed.
Print Assumptions C36_copy_construct.

(** ...and independent: whatever happens afterwards, variable n (the copy, or
    any older variable) keeps its value if no command changes it. *)
Theorem C36_independent : forall s S b x cs S2 rs n, holds s S -> sget S b x -> trun (NewCopy b :: cs) S S2 rs -> (n <= length S)%nat ->
  (forall c, In c cs -> ~ In n (changes c)) ->
  exists s', exec_all (NewCopy b :: cs) s = (s', rs) /\ holds s' S2 /\ nth_error S2 n = nth_error (S ++ [Some x]) n.
Proof. exact copy_apart. Qed.
Print Assumptions C36_independent.

(** A moved-from value is null. *)
Theorem C36_move_construct : forall s S b x, holds s S -> sget S b x ->
  exists s' S', exec (NewMove b) s = (s', Ret RUnit) /\ holds s' (S' ++ [Some x]) /\ length S' = length S /\ sget S' b VNull /\
    (forall c z, separate b c -> (sget S' c z <-> sget S c z)).
Proof. exact new_move. Qed.
Print Assumptions C36_move_construct.

(** Copy assignment; a and b are any places, also overlapping ones. *)
Theorem C36_copy_assign : forall s S a b x y, holds s S -> sget S a y -> sget S b x ->
  exists s' S', exec (CopyTo a b) s = (s', Ret RUnit) /\ holds s' S' /\ sget S' a x /\ (forall c z, separate a c -> (sget S' c z <-> sget S c z)).
Proof. exact copy_to. Qed.
Print Assumptions C36_copy_assign.

(** Move assignment; b may be a itself or inside a. *)
Theorem C36_move_assign : forall s S a b x y, holds s S -> a = b \/ ~ below b a -> sget S a y -> sget S b x ->
  exists s' S', exec (MoveTo a b) s = (s', Ret RUnit) /\ holds s' S' /\ sget S' a x /\ (separate a b -> sget S' b VNull) /\
    (forall c z, separate a c -> separate b c -> (sget S' c z <-> sget S c z)).
Proof. exact move_to. Qed.
Print Assumptions C36_move_assign.

Theorem C36_swap : forall s S a b x y, holds s S -> separate a b -> sget S a x -> sget S b y ->
  exists s' S', exec (Swap a b) s = (s', Ret RUnit) /\ holds s' S' /\ sget S' a y /\ sget S' b x /\
    (forall c z, separate a c -> separate b c -> (sget S' c z <-> sget S c z)).
Proof. exact swap_to. Qed.
Print Assumptions C36_swap.

(** The memory determines the values. *)
Theorem C36_one_reading : forall s S S', holds s S -> holds s S' -> S = S'.
Proof. exact holds_unique. Qed.
Print Assumptions C36_one_reading.

(** var 0 = ["a", {}]; var 1 = copy of 0; 0 = 0[0]; 0[0] fails; 1 = move(1[1]) *)
Definition C36_program : list cmd :=
  [New IArr; PushNew (0%nat, []) (IStr (chars "a")); PushNew (0%nat, []) IObj; NewCopy (0%nat, []);
   CopyTo (0%nat, []) (0%nat, [Idx 0]); MoveTo (1%nat, []) (1%nat, [Idx 1])].
Example C36_case : exists S rs, trun C36_program [] S rs /\ S = [Some (VStr (chars "a")); Some (VObj [])].
Proof.
  eexists _, _. split; [|reflexivity]. unfold C36_program.
  eapply tr_cons; [apply t_new|]. cbn [app init_value].
  eapply tr_cons; [eapply t_push_new; [exists (VArr []); split; [reflexivity|constructor]|constructor|exists [], (VArr []), (VArr [VStr (chars "a")]), []; repeat split; constructor]|].
  eapply tr_cons; [eapply t_push_new; [exists (VArr [VStr (chars "a")]); split; [reflexivity|constructor]|constructor|
    exists [], (VArr [VStr (chars "a")]), (VArr [VStr (chars "a"); VObj []]), []; repeat split; constructor]|]. cbn [app].
  eapply tr_cons; [apply t_new_copy; exists (VArr [VStr (chars "a"); VObj []]); split; [reflexivity|constructor]|]. cbn [app].
  eapply tr_cons; [eapply t_copy; [exists (VArr [VStr (chars "a"); VObj []]); split; [reflexivity|constructor]|
    exists (VArr [VStr (chars "a"); VObj []]); split; [reflexivity|]; apply (tg_idx [] [] (VStr (chars "a")) [VObj []] 0 (VStr (chars "a"))); [reflexivity|constructor]|
    exists [], (VArr [VStr (chars "a"); VObj []]), (VStr (chars "a")), [Some (VArr [VStr (chars "a"); VObj []])]; repeat split; constructor]|]. cbn [app].
  eapply tr_cons; [|apply tr_nil].
  eapply t_move with (S1 := [Some (VStr (chars "a")); Some (VArr [VStr (chars "a"); VNull])]); [discriminate|intros [_ [r E]]; discriminate E|
    exists (VArr [VStr (chars "a"); VObj []]); split; [reflexivity|constructor]|
    exists (VArr [VStr (chars "a"); VObj []]); split; [reflexivity|]; apply (tg_idx [] [VStr (chars "a")] (VObj []) [] 1 (VObj [])); [reflexivity|constructor]|
    exists [Some (VStr (chars "a"))], (VArr [VStr (chars "a"); VObj []]), (VArr [VStr (chars "a"); VNull]), []; repeat split; apply (ts_idx [] VNull [VStr (chars "a")] (VObj []) VNull [] 1); [reflexivity|constructor]|
    exists [Some (VStr (chars "a"))], (VArr [VStr (chars "a"); VNull]), (VObj []), []; repeat split; constructor].
Qed.
Example C36_case_run : snd (exec_all C36_program start) = repeat (Ret RUnit) 6.
Proof. vm_compute. reflexivity. Qed.

(** C37.  Any command with well-defined result does to the memory what it
    should do to the trees; each live block keeps exactly one owner. *)
Theorem C37_step : forall c S S' r s, tstep c S S' r -> holds s S -> exists s', exec c s = (s', r) /\ holds s' S'.
Proof. exact heap_step. Qed.
Print Assumptions C37_step.

(** [tstep] leaves out only what [sane] forbids. *)
Theorem C37_covered : forall c S, sane c S -> exists S' r, tstep c S S' r.
Proof. exact covered. Qed.
Print Assumptions C37_covered.

(** Every history: no undefined behaviour (no use of a freed block, no double
    free) at any command, and no block left when every variable is gone. *)
Theorem C37_history : forall cs, sane_prog cs [] -> exists s S rs, exec_all cs start = (s, rs) /\ holds s S /\
  (forall r, In r rs -> (exists a, r = Ret a) \/ (exists e, r = Throw e)) /\ length rs = length cs /\
  ((forall n x, nth_error (env s) n <> Some (Some x)) -> forall p, ~ live s p).
Proof. exact ends_clean. Qed.
Print Assumptions C37_history.

(** From any state that holds a store. *)
Theorem C37_history_from : forall cs s S, holds s S -> sane_prog cs S -> exists s' S' rs, exec_all cs s = (s', rs) /\ trun cs S S' rs /\ holds s' S' /\
  (forall r, In r rs -> (exists a, r = Ret a) \/ (exists e, r = Throw e)).
Proof. exact history_ok. Qed.
Print Assumptions C37_history_from.

Theorem C37_none_left : forall s S p, holds s S -> all_ended S -> ~ live s p.
Proof. exact no_blocks_left. Qed.
Print Assumptions C37_none_left.

(** Reachable stores are ordered, so [touch] is operator[] as in ValueOps. *)
Theorem C37_ordered : forall cs S rs n v k, trun cs [] S rs -> nth_error S n = Some (Some v) ->
  ordered v /\ touch k v = via1 (RefKey k) (fun x => (x, Ret RUnit)) v.
Proof. exact reach_touch. Qed.
Print Assumptions C37_ordered.

Example C37_case : let cs := C36_program ++ [Wipe (0%nat, []); End 0; End 1] in
  snd (exec_all cs start) = repeat (Ret RUnit) 9 /\ forallb (fun b => match b with None => true | _ => false end) (heap (fst (exec_all cs start))) = true /\
  length (heap (fst (exec_all cs start))) = 7%nat.
Proof. vm_compute. repeat split. Qed.

(** "Any history" is too much: moving or swapping a value into its own inside
    leaves a block that owns itself. *)
Theorem C37_own_inside_refuted : forall c, In c [MoveTo (0%nat, [Idx 0]) (0%nat, []); Swap (0%nat, []) (0%nat, [Idx 0]); PushMove (0%nat, []) (0%nat, [])] ->
  exists s, exec_all [New IArr; Sub (0%nat, []) (Idx 0); c; End 0] start = (s, [Ret RUnit; Ret RUnit; Ret RUnit; Ret RUnit]) /\
    (forall n x, nth_error (env s) n <> Some (Some x)) /\ exists p, live s p.
Proof. exact own_inside. Qed.
Print Assumptions C37_own_inside_refuted.

(** A reference obtained before the array grows is dead afterwards. *)
Theorem C37_old_reference_refuted : exists s l s1, exec_all [New IArr; Sub (0%nat, []) (Idx 0)] start = (s, [Ret RUnit; Ret RUnit]) /\
  locate (0%nat, [Idx 0]) s = (s, Ret l) /\ exec (Sub (0%nat, []) (Idx 5)) s = (s1, Ret RUnit) /\ snd (read_loc l s1) = UB.
Proof. exact stale. Qed.
Print Assumptions C37_old_reference_refuted.
