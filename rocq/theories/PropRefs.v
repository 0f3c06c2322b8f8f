(** C66: references to values, kept across statements. *)
From Verif Require Import Base Value ValueOps Heap SpecText SpecHeap HeapMain Refs SpecRefs RefsMain.
Open Scope N_scope.
Notation text s := (chars s%string).

(** Going on from a reference is going on from the place it leads to. *)
Theorem C66_place : forall s S R ls a a', refers s S R ls -> resolve_place R a = Some a' -> rlocate ls a s = locate a' s.
Proof. exact rlocate_place. Qed.
Print Assumptions C66_place.

(** A command leaves each reference at the object that [follows] names. *)
Theorem C66_step : forall c S S' o s R R' ls, tstep c S S' o -> in_order S -> holds s S -> refers s S R ls -> tracked c S o R R' ->
  exists s', exec c s = (s', o) /\ holds s' S' /\ refers s' S' R' ls.
Proof. exact ref_step. Qed.
Print Assumptions C66_step.

(** And no other reference survives: using it is undefined behaviour. *)
Theorem C66_dangling : forall c S S' o s r x l, tstep c S S' o -> in_order S -> holds s S -> sget S r x -> locate r s = (s, Ret l) ->
  exists s', exec c s = (s', o) /\ ((exists r', follows c S o r r') \/ snd (read_loc l s') = UB).
Proof. exact ref_dangling. Qed.
Print Assumptions C66_dangling.

(** Two references lead to one object after the command iff they did before. *)
Theorem C66_alias : forall c S S' o s r1 r2 r1' r2' x1 x2, tstep c S S' o -> in_order S -> holds s S -> sget S r1 x1 -> sget S r2 x2 ->
  follows c S o r1 r1' -> follows c S o r2 r2' -> (r1 = r2 <-> r1' = r2').
Proof. exact ref_one. Qed.
Print Assumptions C66_alias.

(** Every sane command on live references has such a step. *)
Theorem C66_progress : forall rc c S R s ls, resolves R rc c -> sane c S -> in_order S -> holds s S -> refers s S R ls ->
  exists S' R' o s', rstep rc (S, R) (S', R') o /\ rexec rc (s, ls) = ((s', ls), o) /\
    forall k a l, nth_error R k = Some (Some a) -> nth_error ls k = Some l -> (exists a', nth_error R' k = Some (Some a')) \/ snd (read_loc l s') = UB.
Proof. exact ref_progress. Qed.
Print Assumptions C66_progress.

(** Whole programs. *)
Theorem C66_run : forall cs st st' os, rrun cs st st' os -> forall s ls, in_order (fst st) -> holds s (fst st) -> refers s (fst st) (snd st) ls ->
  exists s' ls', rexec_all cs (s, ls) = ((s', ls'), os) /\ holds s' (fst st') /\ refers s' (fst st') (snd st') ls'.
Proof. exact ref_run. Qed.
Print Assumptions C66_run.

Theorem C66_program : forall cs S R os, rrun cs ([], []) (S, R) os -> exists s ls, rexec_all cs rstart = ((s, ls), os) /\ holds s S /\ refers s S R ls /\
  (forall o, In o os -> (exists a, o = Ret a) \/ (exists e, o = Throw e)).
Proof. exact run_from_start. Qed.
Print Assumptions C66_program.

(** ** Examples *)
Definition v0 : rplace := (Var 0, []).
Definition key (s : String.string) : sel := Key (text s).
Definition at_end (cs : list rcmd) (a : place) : outcome cell :=
  snd ((do l <- locate a; read_loc l) (fst (fst (rexec_all cs rstart)))).

(** v["b"]; auto& r = v["b"]; v["a"]; v["c"]; r = 1; *)
Example members_stay :
  let cs := [RNew IObj; RBindSub v0 (key "b"); RSub v0 (key "a"); RSub v0 (key "c"); RSetTo (Ref 0, []) (IInt 1)] in
  snd (rexec_all cs rstart) = repeat (Ret RUnit) 5 /\ at_end cs (0%nat, [key "b"]) = Ret (mkCell TInteger (WInt 1)).
Proof. vm_compute. split; reflexivity. Qed.

(** auto& r = v[0]; v.push_back(1); r = 1;  is undefined *)
Example elements_move :
  snd (rexec_all [RNew IArr; RBindSub v0 (Idx 0); RPushNew v0 (IInt 1); RSetTo (Ref 0, []) (IInt 1)] rstart) = [Ret RUnit; Ret RUnit; Ret RUnit; UB].
Proof. vm_compute. reflexivity. Qed.

(** auto& r = v[0]["k"]; v.push_back(1); r = 2; *)
Example inside_elements_stay :
  let cs := [RNew IArr; RSub v0 (Idx 0); RBindSub (Var 0, [Idx 0]) (key "k"); RPushNew v0 (IInt 1); RSetTo (Ref 0, []) (IInt 2)] in
  snd (rexec_all cs rstart) = repeat (Ret RUnit) 5 /\ at_end cs (0%nat, [Idx 0; key "k"]) = Ret (mkCell TInteger (WInt 2)).
Proof. vm_compute. split; reflexivity. Qed.

(** auto& r = v[1]["k"]; v.erase(0); r = 3;  changes v[0]["k"] *)
Example erased_below :
  let cs := [RNew IArr; RSub v0 (Idx 1); RBindSub (Var 0, [Idx 1]) (key "k"); RDelIdx v0 0; RSetTo (Ref 0, []) (IInt 3)] in
  snd (rexec_all cs rstart) = repeat (Ret RUnit) 5 /\ at_end cs (0%nat, [Idx 0; key "k"]) = Ret (mkCell TInteger (WInt 3)).
Proof. vm_compute. split; reflexivity. Qed.

(** auto& r = v["a"]; auto w = std::move(v); r = 4;  changes w["a"]; v is null *)
Example moved_along :
  let cs := [RNew IObj; RBindSub v0 (key "a"); RNewMove v0; RSetTo (Ref 0, []) (IInt 4)] in
  snd (rexec_all cs rstart) = repeat (Ret RUnit) 4 /\ at_end cs (1%nat, [key "a"]) = Ret (mkCell TInteger (WInt 4)) /\ at_end cs (0%nat, []) = Ret null_cell.
Proof. vm_compute. repeat split; reflexivity. Qed.

(** auto& r = v["a"]; auto w = v; r = 5;  leaves w["a"] null *)
Example copy_is_apart :
  let cs := [RNew IObj; RBindSub v0 (key "a"); RNewCopy v0; RSetTo (Ref 0, []) (IInt 5)] in
  snd (rexec_all cs rstart) = repeat (Ret RUnit) 4 /\ at_end cs (1%nat, [key "a"]) = Ret null_cell /\ at_end cs (0%nat, [key "a"]) = Ret (mkCell TInteger (WInt 5)).
Proof. vm_compute. repeat split; reflexivity. Qed.

(** auto& r = v["a"]; v = 1; r = 2;  is undefined, and so is it after v.erase("a") *)
Example overwritten_dangles :
  snd (rexec_all [RNew IObj; RBindSub v0 (key "a"); RSetTo v0 (IInt 1); RSetTo (Ref 0, []) (IInt 2)] rstart) = [Ret RUnit; Ret RUnit; Ret RUnit; UB] /\
  snd (rexec_all [RNew IObj; RBindSub v0 (key "a"); RDelKey v0 (text "a"); RSetTo (Ref 0, []) (IInt 2)] rstart) = [Ret RUnit; Ret RUnit; Ret (RNum 1); UB].
Proof. vm_compute. split; reflexivity. Qed.

(** the rules used: the reference to v["a"] leads into the new variable *)
Example moved_rule : follows (NewMove (0%nat, [])) [Some (VObj [(text "a", VNull)])] (Ret RUnit) (0%nat, [key "a"]) (1%nat, [key "a"]).
Proof. exact (f_new_moved (0%nat, []) [Some (VObj [(text "a", VNull)])] RUnit (key "a") []). Qed.
