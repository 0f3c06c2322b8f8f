(** C25 (order), C29-C33: value operations. *)
From Coq Require Import Floats.SpecFloat.
From Verif Require Import Base Encoding Value Parser Serializer ValueOps Iterator
  SpecGrammar SpecText SpecRfc SpecValue SpecIter SpecBuilt ValueProofs IterProofs BuiltProofs.
Open Scope N_scope.

Notation text s := (chars s%string).
Definition assign (x : value) : value -> res result := run_op (Assign x).

(** C25.  Keys are in strictly increasing order in every value a program can make
    (C18 and C19 render members in this order). *)
Theorem C25_keys_in_order : forall v, built v -> ordered v.
Proof. exact built_ordered. Qed.
Print Assumptions C25_keys_in_order.

Example C25_order_case :
  let v := fst (run [RefKey (text "a")] (Assign (VInt 2)) (make_object [(text "c", VNull); (text "b", VInt 1); (text "b", VInt 9)])) in
  built v /\ dump_json [] v = Ret (text "{""a"":2,""b"":1,""c"":null}").
Proof.
  split.
  - apply bt_assign; [apply bt_int|]. apply bt_object.
    intros k x [D|[D|[D|[]]]]; injection D as <- <-; [apply (bt_default TNull)|apply bt_int|apply bt_int].
  - vm_compute. reflexivity.
Qed.

(** C29.  An object is a finite map through every history of operations. *)
Theorem C29_history : forall os l m, Forall oop_safe os -> is_map l m ->
  exists l' m' rs, run_all run_oop os (VObj l) = (VObj l', rs) /\ is_map l' m' /\ fm_hist os m m' rs.
Proof. exact obj_hist. Qed.
Print Assumptions C29_history.

Theorem C29_at_count : forall l m k R (f : value -> res R), is_map l m ->
  match m k with
  | Some x => snd (via_at_key k f (VObj l)) = snd (f x) /\ v_count k (VObj l) = 1
  | None => via_at_key k f (VObj l) = (VObj l, Throw (EOutOfRange "operator[] key out of range")) /\ v_count k (VObj l) = 0
  end.
Proof. exact map_at. Qed.
Print Assumptions C29_at_count.

Theorem C29_size : forall l m, is_map l m ->
  exists ks, v_size (VObj l) = N.of_nat (length ks) /\ NoDup ks /\ (forall k, In k ks <-> m k <> None).
Proof. exact map_size. Qed.
Print Assumptions C29_size.

Theorem C29_make_object : forall l, exists m f, make_object l = VObj m /\ is_map m f /\
  forall k x, f k = Some x <-> assoc k x l.
Proof. exact make_object_map. Qed.
Print Assumptions C29_make_object.

Theorem C29_every_object_is_a_map : forall l, ordered (VObj l) -> exists m, is_map l m.
Proof. exact ordered_map. Qed.
Print Assumptions C29_every_object_is_a_map.

Example C29_case :
  run_all run_oop [InKey (text "b") (assign (VInt 1)); InKey (text "a") (assign (VInt 2)); InKey (text "b") (run_op (PushBack VNull));
                   DelKey (text "a"); DelKey (text "a"); InKey (text "c") (run [RefIdx 1] (Assign (VBool true)))] (VObj []) =
  (VObj [(text "b", VInt 1); (text "c", VArr [VNull; VBool true])],
   [Ret RUnit; Ret RUnit; Throw (EType "use push_back() or emplace_back() with non-array value"); Ret (RNum 1); Ret (RNum 0); Ret RUnit]).
Proof. vm_compute. reflexivity. Qed.

(** C30.  An array is a sequence through every history of operations. *)
Theorem C30_history : forall os l s, Forall idx_ok os -> is_seq l s ->
  exists l' s' rs, run_all run_aop os (VArr l) = (VArr l', rs) /\ is_seq l' s' /\ seq_hist os s s' rs.
Proof. exact arr_hist. Qed.
Print Assumptions C30_history.

Theorem C30_at_size : forall l s i R (f : value -> res R), is_seq l s ->
  v_size (VArr l) = fst s /\
  match snd s i with
  | Some x => snd (via_at_idx i f (VArr l)) = snd (f x)
  | None => via_at_idx i f (VArr l) = (VArr l, Throw (EOutOfRange "operator[] index out of range"))
  end.
Proof. exact seq_at. Qed.
Print Assumptions C30_at_size.

Theorem C30_erase_iterator : forall mem a n it es, container (mem a) -> at_pos mem a n it -> elements (mem a) es ->
  ((n < length es)%nat -> exists v' es' jt, v_erase_it mem a it = (v', Ret jt) /\ type_of v' = type_of (mem a) /\
     elements v' es' /\ es' = firstn n es ++ skipn (S n) es /\ it_val jt = Some a /\
     (type_of v' = TArray -> it_arr jt = Some n) /\ (type_of v' = TObject -> it_obj jt = Some n)) /\
  ((length es <= n)%nat -> snd (v_erase_it mem a it) = UB).
Proof. exact erase_it_pos. Qed.
Print Assumptions C30_erase_iterator.

Theorem C30_erase_range : forall mem a n m it jt es, container (mem a) -> at_pos mem a n it -> at_pos mem a m jt -> elements (mem a) es ->
  ((n <= m <= length es)%nat -> exists v' es' kt, v_erase_range mem a it jt = (v', Ret kt) /\ type_of v' = type_of (mem a) /\
     elements v' es' /\ es' = firstn n es ++ skipn m es /\ it_val kt = Some a /\
     (type_of v' = TArray -> it_arr kt = Some n) /\ (type_of v' = TObject -> it_obj kt = Some n)) /\
  (~ (n <= m <= length es)%nat -> snd (v_erase_range mem a it jt) = UB).
Proof. exact erase_range_pos. Qed.
Print Assumptions C30_erase_range.

(** Without the bound on the index the claim fails: index - size + 1 wraps. *)
Theorem C30_largest_index_refuted : exists o l, ~ idx_ok o /\ (exists s, is_seq l s) /\ snd (run_aop o (VArr l)) = UB /\
  forall s', ~ seq_step o (0, fun _ => None) s' UB.
Proof. exact largest_index. Qed.
Print Assumptions C30_largest_index_refuted.

Example C30_case :
  run_all run_aop [Push (VInt 1); InIdx 3 (assign (VInt 4)); DelIdx 0; InIdx 0 (run_op Get); DelIdx 7; Push VNull] (VArr []) =
  (VArr [VNull; VNull; VInt 4], [Ret RUnit; Ret RUnit; Ret RUnit; Ret (RVal VNull); UB]).
Proof. vm_compute. reflexivity. Qed.

(** C31.  Misuse. *)
Theorem C31_operations : forall o v,
  (exists e, misuse o v e /\ run_op o v = (v, Throw e)) \/
  ((forall c, ~ misuse o v c) /\
   ((exists v' r, run_op o v = (v', Ret r)) \/
    (exists i l, o = EraseIdx i /\ v = VArr l /\ N.of_nat (length l) <= i /\ snd (run_op o v) = UB))).
Proof. exact run_op_cases. Qed.
Print Assumptions C31_operations.

Theorem C31_subscripts : forall R a (f : value -> res R) v, ordered v ->
  (match a with RefIdx i => i < 18446744073709551615 | _ => True end) ->
  (exists e, bad_subscript a v e /\ via1 a f v = (v, Throw e)) \/
  ((forall c, ~ bad_subscript a v c) /\ exists x, element a v x /\ snd (via1 a f v) = snd (f x)).
Proof. exact via1_cases. Qed.
Print Assumptions C31_subscripts.

Theorem C31_at_unchanged : forall p o v e, Forall only_at p -> ordered v -> snd (run p o v) = Throw e -> fst (run p o v) = v.
Proof. exact at_unchanged. Qed.
Print Assumptions C31_at_unchanged.

Theorem C31_erase_iterator : forall mem a it, ~ container (mem a) ->
  v_erase_it mem a it = (mem a, Throw no_erase) /\ forall jt, v_erase_range mem a it jt = (mem a, Throw no_erase).
Proof. exact erase_it_scalar. Qed.
Print Assumptions C31_erase_iterator.

Theorem C31_null_becomes_object : forall o, makes_object o ->
  exists l' m' r, run_oop o VNull = (VObj l', r) /\ is_map l' m' /\ fm_step o (fun _ => None) m' r.
Proof. exact null_object. Qed.
Print Assumptions C31_null_becomes_object.

Theorem C31_null_becomes_array : forall o, makes_array o -> idx_ok o ->
  exists l' s' r, run_aop o VNull = (VArr l', r) /\ is_seq l' s' /\ seq_step o (0, fun _ => None) s' r.
Proof. exact null_array. Qed.
Print Assumptions C31_null_becomes_array.

(** With operator[] on the way, a failed operation can leave new nulls behind. *)
Theorem C31_chains_unchanged_refuted : exists p o v e, ordered v /\ snd (run p o v) = Throw e /\ fst (run p o v) <> v.
Proof. exact chain_changes. Qed.
Print Assumptions C31_chains_unchanged_refuted.

Example C31_case : run [AtKey (text "a"); AtIdx 0] (PushBack VNull) (VObj [(text "a", VArr [VInt 1])]) =
  (VObj [(text "a", VArr [VInt 1])], Throw (EType "use push_back() or emplace_back() with non-array value")).
Proof. vm_compute. reflexivity. Qed.

(** C32.  size, empty, count, find, at and distance agree. *)
Theorem C32_size_empty : forall v, v_empty v = true <-> v_size v = 0.
Proof. exact size_empty. Qed.
Print Assumptions C32_size_empty.

Theorem C32_find_count_at : forall mem a k, ordered (mem a) ->
  exists it e, v_find mem a k = Ret it /\ v_end mem a = Ret e /\
  ((v_count k (mem a) = 1 /\ it_eq mem it e = Ret false /\ it_key mem it = Ret k /\
    exists x, it_read mem it = Ret x /\ snd (via_at_key k (fun x => (x, Ret x)) (mem a)) = Ret x)
   \/ (v_count k (mem a) = 0 /\ it_eq mem it e = Ret true /\
       exists e', bad_subscript (AtKey k) (mem a) e' /\ snd (via_at_key k (fun x => (x, Ret x)) (mem a)) = Throw e')).
Proof. exact find_iter. Qed.
Print Assumptions C32_find_count_at.

Theorem C32_distance : forall mem a b e, v_begin mem a = Ret b -> v_end mem a = Ret e ->
  forall fuel, (N.to_nat (v_size (mem a)) < fuel)%nat -> distance mem fuel b e = Ret (v_size (mem a)).
Proof. exact distance_size. Qed.
Print Assumptions C32_distance.

Example C32_case : let v := VObj [(text "a", VInt 1); (text "b", VNull)] in
  v_size v = 2 /\ v_count (text "b") v = 1 /\ v_count (text "c") v = 0 /\ v_count (text "c") (VInt 3) = 0 /\
  (let* b := v_begin (fun _ => v) 0 in let* e := v_end (fun _ => v) 0 in distance (fun _ => v) 3 b e) = Ret 2.
Proof. vm_compute. repeat split. Qed.

(** C33.  clear. *)
Theorem C33_clear : forall v, type_of (v_clear v) = type_of v /\ v_clear v = of_type (type_of v) /\
  (container v -> v_empty (v_clear v) = true /\ elements (v_clear v) []) /\ v_clear (v_clear v) = v_clear v.
Proof. exact clear_all. Qed.
Print Assumptions C33_clear.

Example C33_case : v_clear (VStr (text "abc")) = VStr [] /\ v_clear (VInt 7) = VInt 0 /\ v_clear (VArr [VNull]) = VArr [].
Proof. repeat split. Qed.
