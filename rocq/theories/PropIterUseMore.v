(** C67, continued: ranges, offsets and reverse iterators. *)
From Coq Require Import ZArith.
From Verif Require Import Base Value ValueOps SpecText SpecGrammar SpecIter IterUse SpecIterUse IterUseMore SpecIterUseMore IterUseMoreProofs.
Open Scope N_scope.
Notation text s := (chars s%string).

(** Examples: [1, 2, 3] and {"a": 1, "b": 2, "c": 3} *)
Definition ex_arr : ist := fresh 0 (VArr [VInt 1; VInt 2; VInt 3]).
Definition ex_obj : ist := fresh 0 (VObj [(text "a", VInt 1); (text "b", VInt 2); (text "c", VInt 3)]).
Definition ex_b : uit := u_find (text "b") (i_body ex_obj).

(** v.erase(first, last): the elements from first up to last go; members outside
    the range keep their iterators. *)
Theorem C67_range : forall u w st p q, ok st -> stands u (i_body st) p -> stands w (i_body st) q ->
  (spot_le p q -> exists st' u' es1 es2 es3, u_erase_range u w st = (st', Ret u') /\ ok st' /\
     type_of (view (i_body st')) = type_of (view (i_body st)) /\ parts p q es1 es2 es3 /\
     elements (view (i_body st)) (es1 ++ es2 ++ es3) /\ elements (view (i_body st')) (es1 ++ es3) /\
     stands u' (i_body st') (match p with Pos i => Pos i | _ => q end) /\
     (forall z s, (forall i, s <> Pos i) -> stands z (i_body st) s -> spot_lt s p \/ spot_le q s -> stands z (i_body st') s) /\
     (forall z s, known st z -> stands z (i_body st) s -> (exists i, s = Pos i) \/ spot_le p s /\ spot_lt s q -> astray z (i_body st'))) /\
  (~ spot_le p q -> snd (u_erase_range u w st) = UB).
Proof. exact range_erased. Qed.
Print Assumptions C67_range.
(** "a" and "b" go; the iterator at "c" is still good, the one at "b" is not *)
Example C67_range_ex :
  let (st, o) := u_erase_range (u_begin (i_body ex_obj)) (u_find (text "c") (i_body ex_obj)) ex_obj in
  view (i_body st) = VObj [(text "c", VInt 3)] /\ (let* u := o in u_key u (i_body st)) = Ret (text "c") /\
  u_key (u_find (text "c") (i_body ex_obj)) (i_body st) = Ret (text "c") /\ u_key (u_find (text "b") (i_body ex_obj)) (i_body st) = UB /\
  snd (u_erase_range (u_end (i_body ex_arr)) (u_begin (i_body ex_arr)) ex_arr) = UB.
Proof. vm_compute. repeat split. Qed.

(** it + n, it - it and it < it are about positions in arrays and throw for objects. *)
Theorem C67_offsets : forall u w st p q, ok st -> stands u (i_body st) p -> stands w (i_body st) q ->
  match p, q with
  | Pos i, Pos j =>
      (forall d, (0 <= Z.of_nat i + d <= Z.of_nat (N.to_nat (v_size (view (i_body st)))))%Z ->
         exists u', u_add d u (i_body st) = Ret u' /\ stands u' (i_body st) (Pos (Z.to_nat (Z.of_nat i + d)))) /\
      (forall d, ~ (0 <= Z.of_nat i + d <= Z.of_nat (N.to_nat (v_size (view (i_body st)))))%Z -> u_add d u (i_body st) = UB) /\
      u_diff u w (i_body st) = Ret (Z.of_nat i - Z.of_nat j)%Z /\
      exists r, u_lt u w (i_body st) = Ret r /\ (r = true <-> spot_lt p q)
  | _, _ =>
      (forall d, u_add d u (i_body st) = Throw (EIter "cannot compute offsets with object type")) /\
      u_diff u w (i_body st) = Throw (EIter "cannot compute iterator offsets with non-array type") /\
      u_lt u w (i_body st) = Throw (EIter "cannot compare iterators with object type")
  end.
Proof. exact offsets. Qed.
Print Assumptions C67_offsets.
Example C67_offsets_ex :
  (let* u := u_add 2 (u_begin (i_body ex_arr)) (i_body ex_arr) in u_read u (i_body ex_arr)) = Ret (VInt 3) /\
  u_diff (u_end (i_body ex_arr)) (u_begin (i_body ex_arr)) (i_body ex_arr) = Ret 3%Z /\ u_add 4 (u_begin (i_body ex_arr)) (i_body ex_arr) = UB.
Proof. vm_compute. repeat split. Qed.

(** Over other values only primitive_it_ moves. *)
Theorem C67_offsets_others : forall u w st, ~ container (view (i_body st)) ->
  (forall d, exists u', u_add d u (i_body st) = Ret u' /\ u_arr u' = u_arr u /\ u_obj u' = u_obj u /\
     u_prim u' = (match view (i_body st) with VNull => u_prim u | _ => u_prim u + d end)%Z) /\
  u_diff u w (i_body st) = Throw (EIter "cannot compute iterator offsets with non-array type") /\
  u_lt u w (i_body st) = Ret (Z.ltb (u_prim u) (u_prim w)) /\
  u_erase_range u w st = (st, Throw (EIter "cannot use erase() with non-object & non-array value")).
Proof. exact offsets_others. Qed.
Print Assumptions C67_offsets_others.
(** auto it = v.end() with v an array; v = 5; it - 1 *)
Example C67_offsets_others_ex :
  let b := i_body (fst (u_step (UAssign (VInt 5)) ex_arr)) in
  (let* u := u_add (-1) (u_end (i_body ex_arr)) b in u_read u b) = Throw (EOutOfRange "primitive iterator out of range").
Proof. vm_compute. reflexivity. Qed.

(** Lost iterators cannot be used for these either. *)
Theorem C67_astray_more : forall u w b n, ok (mkI b n) -> container (view b) -> astray u b ->
  snd (u_erase_range u w (mkI b n)) = UB /\ snd (u_erase_range w u (mkI b n)) = UB /\ r_entry u b = UB /\ r_incr u b = UB /\
  (type_of (view b) = TArray -> (forall d, u_add d u b = UB) /\ u_diff u w b = UB /\ u_diff w u b = UB /\ u_lt u w b = UB /\ u_lt w u b = UB).
Proof. exact astray_more. Qed.
Print Assumptions C67_astray_more.
Example C67_astray_more_ex :
  let st := fst (u_step (UPush VNull) ex_arr) in
  snd (u_erase_range (u_begin (i_body ex_arr)) (u_end (i_body st)) st) = UB /\ u_add 1 (u_begin (i_body ex_arr)) (i_body st) = UB.
Proof. vm_compute. split; reflexivity. Qed.

(** A reverse iterator keeps the iterator after its element: it gives what stands in
    front of that one now. *)
Theorem C67_reverse : forall r st p, ok st -> stands r (i_body st) p ->
  (first_spot (i_body st) p -> r_entry r (i_body st) = UB /\ r_incr r (i_body st) = UB) /\
  (~ first_spot (i_body st) p -> exists e r' p', r_entry r (i_body st) = Ret e /\ r_incr r (i_body st) = Ret r' /\
     stands r' (i_body st) p' /\ found (view (i_body st)) p' e /\
     match p with
     | End => forall j, In j (members (i_body st)) -> ~ (exists k, p' = At k /\ key_lt k j)
     | _ => next_spot (i_body st) p' p
     end).
Proof. exact reverse_reads. Qed.
Print Assumptions C67_reverse.
(** r gives "a" at first; then "ab" is inserted; then "b", which r does not give, is erased *)
Example C67_reverse_ex :
  let key o := let* e := o in match fst e with Some k => Ret k | None => UB end in
  let st := fst (u_step (USetKey (text "ab") VNull) ex_obj) in
  let st2 := fst (u_step (UDelKey (text "b")) st) in
  key (r_entry ex_b (i_body ex_obj)) = Ret (text "a") /\ key (r_entry ex_b (i_body st)) = Ret (text "ab") /\ key (r_entry ex_b (i_body st2)) = UB.
Proof. vm_compute. repeat split. Qed.
