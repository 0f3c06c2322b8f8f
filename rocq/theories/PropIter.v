(** C38-C40: iterators. *)
From Coq Require Import ZArith.
From Verif Require Import Base Value ValueOps Iterator SpecText SpecRfc SpecValue SpecIter IterProofs.
Open Scope N_scope.

Notation text s := (chars s%string).

(** C38.  Forward traversal: the iterator after n steps from begin(). *)
Theorem C38_forward : forall mem a es n, ordered (mem a) -> elements (mem a) es -> (n <= length es)%nat ->
  exists b e it, v_begin mem a = Ret b /\ v_end mem a = Ret e /\ walk n (it_incr mem) b = Ret it /\
  match nth_error es n with
  | Some (k, x) =>
      it_eq mem it e = Ret false /\ it_read mem it = Ret x /\
      match k with
      | Some k => it_key mem it = Ret k /\ it_value mem it = Ret [AtKey k]
      | None => it_key mem it = Throw no_key /\
                (type_of (mem a) = TArray -> it_value mem it = Ret [AtIdx (N.of_nat n)]) /\
                (type_of (mem a) <> TArray -> it_value mem it = Ret [])
      end
  | None => it_eq mem it e = Ret true
  end.
Proof. exact forward. Qed.
Print Assumptions C38_forward.

Theorem C38_loop : forall mem a es, ordered (mem a) -> elements (mem a) es ->
  forall b e, v_begin mem a = Ret b -> v_end mem a = Ret e ->
  forall fuel, (length es < fuel)%nat -> loop mem fuel (it_incr mem) (it_read mem) b e = Ret (map snd es).
Proof. exact loop_fwd. Qed.
Print Assumptions C38_loop.

Theorem C38_steps : forall v es, elements v es -> N.of_nat (length es) = v_size v.
Proof. exact elements_size. Qed.
Print Assumptions C38_steps.

Example C38_case : let v := VObj [(text "a", VInt 1); (text "b", VArr [VNull])] in
  (let* b := v_begin (fun _ => v) 7 in let* e := v_end (fun _ => v) 7 in
   loop (fun _ => v) 3 (it_incr (fun _ => v)) (it_read (fun _ => v)) b e) = Ret [VInt 1; VArr [VNull]].
Proof. vm_compute. reflexivity. Qed.

(** C39.  Reverse traversal. *)
Theorem C39_backward : forall mem a es n, ordered (mem a) -> elements (mem a) es -> (n <= length es)%nat ->
  exists b e it, v_rbegin mem a = Ret b /\ v_rend mem a = Ret e /\ walk n (rit_incr mem) b = Ret it /\
  match nth_error (rev es) n with
  | Some (k, x) =>
      it_eq mem it e = Ret false /\ rit_read mem it = Ret x /\
      match k with Some k => rit_key mem it = Ret k | None => rit_key mem it = Throw no_key end
  | None => it_eq mem it e = Ret true
  end.
Proof. exact backward. Qed.
Print Assumptions C39_backward.

Theorem C39_loop : forall mem a es, ordered (mem a) -> elements (mem a) es ->
  forall b e, v_rbegin mem a = Ret b -> v_rend mem a = Ret e ->
  forall fuel, (length es < fuel)%nat -> loop mem fuel (rit_incr mem) (rit_read mem) b e = Ret (map snd (rev es)).
Proof. exact loop_bwd. Qed.
Print Assumptions C39_loop.

Example C39_case : let v := VArr [VInt 1; VInt 2; VInt 3] in
  (let* b := v_rbegin (fun _ => v) 7 in let* e := v_rend (fun _ => v) 7 in
   loop (fun _ => v) 4 (rit_incr (fun _ => v)) (rit_read (fun _ => v)) b e) = Ret [VInt 3; VInt 2; VInt 1].
Proof. vm_compute. reflexivity. Qed.

(** C40.  Checked access. *)
Theorem C40_end : forall mem a n it es, at_pos mem a n it -> elements (mem a) es -> n = length es ->
  exists e, out_of_range (mem a) e /\ it_read mem it = Throw e /\ it_key mem it = Throw e /\ it_value mem it = Throw e.
Proof. exact read_end. Qed.
Print Assumptions C40_end.

Theorem C40_end_is_end : forall mem a, exists it, v_end mem a = Ret it /\ at_pos mem a (N.to_nat (v_size (mem a))) it.
Proof. exact end_pos. Qed.
Print Assumptions C40_end_is_end.

Theorem C40_object_arithmetic : forall mem a it, it_val it = Some a -> type_of (mem a) = TObject ->
  (forall off, it_add mem off it = Throw no_offset) /\
  (forall off, (off <> -9223372036854775808)%Z -> (-9223372036854775808 <= off <= 9223372036854775807)%Z -> it_sub mem off it = Throw no_offset) /\
  (forall jt, it_val jt = Some a -> it_lt mem it jt = Throw no_order /\ it_diff mem it jt = Throw no_distance).
Proof. exact obj_arith. Qed.
Print Assumptions C40_object_arithmetic.

Theorem C40_array_arithmetic : forall mem a n m it jt, type_of (mem a) = TArray -> at_pos mem a n it -> at_pos mem a m jt ->
  it_diff mem it jt = Ret (Z.of_nat n - Z.of_nat m)%Z /\ it_lt mem it jt = Ret (Nat.ltb n m) /\
  (forall off, ((0 <= Z.of_nat n + off <= Z.of_N (v_size (mem a)))%Z ->
      exists kt, it_add mem off it = Ret kt /\ at_pos mem a (Z.to_nat (Z.of_nat n + off)) kt) /\
    (~ (0 <= Z.of_nat n + off <= Z.of_N (v_size (mem a)))%Z -> it_add mem off it = UB)).
Proof. exact arr_arith. Qed.
Print Assumptions C40_array_arithmetic.

Theorem C40_array_back : forall mem a n it off, type_of (mem a) = TArray -> at_pos mem a n it ->
  (-9223372036854775808 < off <= 9223372036854775807)%Z ->
  ((0 <= Z.of_nat n - off <= Z.of_N (v_size (mem a)))%Z ->
      exists kt, it_sub mem off it = Ret kt /\ at_pos mem a (Z.to_nat (Z.of_nat n - off)) kt) /\
  (~ (0 <= Z.of_nat n - off <= Z.of_N (v_size (mem a)))%Z -> it_sub mem off it = UB).
Proof. exact arr_sub. Qed.
Print Assumptions C40_array_back.

Theorem C40_array_order : forall mem a n m it jt, type_of (mem a) = TArray -> at_pos mem a n it -> at_pos mem a m jt ->
  it_eq mem it jt = Ret (Nat.eqb n m) /\ it_ne mem it jt = Ret (negb (Nat.eqb n m)) /\
  it_lt mem it jt = Ret (Nat.ltb n m) /\ it_gt mem it jt = Ret (Nat.ltb m n) /\
  it_le mem it jt = Ret (Nat.leb n m) /\ it_ge mem it jt = Ret (Nat.leb m n).
Proof. exact arr_order. Qed.
Print Assumptions C40_array_order.

(** An iterator of a scalar is a counter, moved without a range check. *)
Theorem C40_scalar_arithmetic : forall mem a it jt, scalar (mem a) -> it_val it = Some a -> it_val jt = Some a ->
  it_diff mem it jt = Throw no_distance /\ it_lt mem it jt = Ret (it_prim it <? it_prim jt)%Z /\
  forall off, (int64_min <= it_prim it + off <= int64_max)%Z -> it_add mem off it = Ret (set_prim it (it_prim it + off)).
Proof. exact scalar_arith. Qed.
Print Assumptions C40_scalar_arithmetic.

Theorem C40_key : forall mem a n it, type_of (mem a) <> TObject -> at_pos mem a n it -> N.of_nat n < v_size (mem a) ->
  it_key mem it = Throw no_key.
Proof. exact key_not_object. Qed.
Print Assumptions C40_key.

Theorem C40_other_value : forall mem it jt a b, it_val it = Some a -> it_val jt = Some b -> a <> b ->
  it_eq mem it jt = Ret false /\ it_lt mem it jt = Throw no_order_across /\ it_diff mem it jt = Throw no_distance_across.
Proof. exact cross. Qed.
Print Assumptions C40_other_value.

Theorem C40_empty_iterator : forall mem it, it_val it = None ->
  it_read mem it = Throw no_value /\ it_value mem it = Throw no_value /\ it_key mem it = Throw no_value /\
  it_incr mem it = Throw no_value /\ it_decr mem it = Throw no_value /\ (forall off, it_add mem off it = Throw no_value) /\
  (forall jt, it_eq mem it jt = Ret false /\ it_lt mem it jt = Throw no_value /\ it_diff mem it jt = Throw no_value) /\
  (forall jt, it_eq mem jt it = Ret false /\ it_lt mem jt it = Throw no_value /\ it_diff mem jt it = Throw no_value).
Proof. exact empty_it. Qed.
Print Assumptions C40_empty_iterator.

Theorem C40_back_and_forth : forall mem a n it, at_pos mem a n it -> N.of_nat n < v_size (mem a) ->
  exists jt, it_incr mem it = Ret jt /\ it_decr mem jt = Ret it.
Proof. exact incr_decr. Qed.
Print Assumptions C40_back_and_forth.

(** Moving out of a container's range is not checked. *)
Theorem C40_out_of_range : forall mem a n it off, at_pos mem a n it -> container (mem a) ->
  (Z.of_nat n + off < 0 \/ Z.of_N (v_size (mem a)) < Z.of_nat n + off)%Z -> it_step mem off it = UB.
Proof. exact step_out. Qed.
Print Assumptions C40_out_of_range.

(** An iterator kept while its value becomes a container of another type is not
    recognised; kept while a container or null becomes a scalar, it passes for
    the beginning, even if it was the end. *)
Theorem C40_retyped : forall mem mem' a it, v_begin mem a = Ret it \/ v_end mem a = Ret it -> container (mem' a) -> type_of (mem' a) <> type_of (mem a) ->
  it_read mem' it = UB /\ it_value mem' it = UB /\ it_key mem' it = UB /\ it_incr mem' it = UB /\ it_decr mem' it = UB /\
  (forall jt, it_val jt = Some a -> it_eq mem' it jt = UB).
Proof. exact retyped. Qed.
Print Assumptions C40_retyped.
Theorem C40_retyped_scalar : forall mem mem' a it, v_begin mem a = Ret it \/ v_end mem a = Ret it -> container (mem a) \/ type_of (mem a) = TNull ->
  scalar (mem' a) -> it_read mem' it = Ret (mem' a).
Proof. exact retyped_scalar. Qed.
Print Assumptions C40_retyped_scalar.

Example C40_retyped_case : let m v := fun _ : addr => v in
  (let* e := v_end (m (VArr [VInt 1])) 7 in it_read (m (VInt 5)) e) = Ret (VInt 5) /\
  (let* b := v_begin (m VNull) 7 in it_read (m (VArr [VInt 1])) b) = UB.
Proof. split; reflexivity. Qed.

Example C40_case : let v := VArr [VInt 1; VInt 2] in let mem := fun _ : addr => v in
  (let* e := v_end mem 7 in it_read mem e) = Throw (EOutOfRange "array iterator out of range") /\
  (let* e := v_end mem 7 in let* i := it_decr mem e in it_read mem i) = Ret (VInt 2) /\
  (let* e := v_end mem 7 in it_incr mem e) = UB.
Proof. vm_compute. repeat split. Qed.
