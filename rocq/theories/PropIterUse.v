(** C67: iterators kept while their value changes. *)
From Coq Require Import ZArith.
From Verif Require Import Base Value ValueOps SpecText SpecGrammar SpecIter IterUse SpecIterUse IterUseProofs IterUseMain IterUseWalk IterUseLoops IterUseIdioms.
Open Scope N_scope.
Notation text s := (chars s%string).

(** Examples: [1, 2, 3] and {"a": 1, "b": 2, "c": 3} *)
Definition ex_arr : ist := fresh 0 (VArr [VInt 1; VInt 2; VInt 3]).
Definition ex_obj : ist := fresh 0 (VObj [(text "a", VInt 1); (text "b", VInt 2); (text "c", VInt 3)]).
Definition ex_b : uit := u_find (text "b") (i_body ex_obj).

(** An iterator still stands where it stood after every command that spares its spot. *)
Theorem C67_stays : forall c st st' o u p, ok st -> stands u (i_body st) p -> u_step c st = (st', o) -> o <> UB -> stays c (i_body st) p ->
  stands u (i_body st') p.
Proof. exact stays_put. Qed.
Print Assumptions C67_stays.
Example C67_stays_ex :
  let st := fst (u_run [USetKey (text "aa") (VInt 9); UDelKey (text "a"); USetKey (text "b") (VInt 7); UDelKey (text "c")] ex_obj) in
  u_entry ex_b (i_body st) = Ret (Some (text "b"), VInt 7).
Proof. vm_compute. reflexivity. Qed.

(** After the others it stands nowhere, *)
Theorem C67_lost : forall c st st' o u p, ok st -> known st u -> stands u (i_body st) p -> u_step c st = (st', o) -> o <> UB -> ~ stays c (i_body st) p ->
  astray u (i_body st').
Proof. exact lost. Qed.
Print Assumptions C67_lost.
Example C67_lost_ex : u_entry (u_begin (i_body ex_arr)) (i_body (fst (u_step (UPush VNull) ex_arr))) = UB.
Proof. vm_compute. reflexivity. Qed.

(** for good, *)
Theorem C67_for_good : forall c st st' o u, ok st -> known st u -> astray u (i_body st) -> u_step c st = (st', o) -> astray u (i_body st').
Proof. exact for_good. Qed.
Print Assumptions C67_for_good.
(** erasing "b" and inserting it again does not bring the iterator back *)
Example C67_for_good_ex :
  u_entry ex_b (i_body (fst (u_run [UDelKey (text "b"); USetKey (text "b") (VInt 2)] ex_obj))) = UB.
Proof. vm_compute. reflexivity. Qed.

(** and any use of it is undefined as long as the value is an array or object. *)
Theorem C67_astray : forall u b n, ok (mkI b n) -> container (view b) -> astray u b ->
  u_entry u b = UB /\ u_incr u b = UB /\ u_decr u b = UB /\ (forall w, u_eq u w b = UB /\ u_eq w u b = UB) /\
  snd (u_step (UErase u) (mkI b n)) = UB /\ (forall x, snd (u_step (UStore u x) (mkI b n)) = UB).
Proof. exact astray_ub. Qed.
Print Assumptions C67_astray.
(** an iterator of the array, the value now an object *)
Example C67_astray_ex : u_incr (u_begin (i_body ex_arr)) (i_body (fst (u_step (UAssign (VObj [])) ex_arr))) = UB.
Proof. vm_compute. reflexivity. Qed.

(** Over a number, string or boolean only primitive_it_ is looked at, whatever the
    iterator was obtained from. *)
Theorem C67_scalar : forall u v, scalar v ->
  u_entry u (BVal v) = (if Z.eqb (u_prim u) 0 then Ret (None, v) else Throw (EOutOfRange "primitive iterator out of range")) /\
  u_incr u (BVal v) = Ret (with_prim u (u_prim u + 1)) /\ u_decr u (BVal v) = Ret (with_prim u (u_prim u - 1)).
Proof. exact reads_scalar. Qed.
Print Assumptions C67_scalar.
(** auto it = v.end();  v = 5;  the dereference gives 5 *)
Example C67_scalar_ex : u_read (u_end (i_body ex_arr)) (i_body (fst (u_step (UAssign (VInt 5)) ex_arr))) = Ret (VInt 5).
Proof. vm_compute. reflexivity. Qed.

Theorem C67_null : forall u, u_entry u (BVal VNull) = Throw (EOutOfRange "null iterator out of range") /\ u_incr u (BVal VNull) = Ret u /\ u_decr u (BVal VNull) = Ret u.
Proof. exact reads_null. Qed.
Print Assumptions C67_null.
Example C67_null_ex : u_read ex_b (i_body (fst (u_step UMoveOut ex_obj))) = Throw (EOutOfRange "null iterator out of range").
Proof. vm_compute. reflexivity. Qed.

(** Moving v away; erasing from and storing into what is neither array nor object. *)
Theorem C67_others : forall st u x,
  (exists o, u_step UMoveOut st = (mkI (BVal VNull) (i_next st), Ret o)) /\
  (~ container (view (i_body st)) ->
     u_step (UErase u) st = (st, Throw (EIter "cannot use erase() with non-object & non-array value")) /\
     (u_prim u = 0%Z -> view (i_body st) <> VNull -> u_step (UStore u x) st = u_step (UAssign x) st) /\
     (u_prim u <> 0%Z -> exists e, u_step (UStore u x) st = (st, Throw e) /\ out_of_range (view (i_body st)) e) /\
     (view (i_body st) = VNull -> exists e, u_step (UStore u x) st = (st, Throw e) /\ out_of_range VNull e) /\
     (forall w, u_eq u w (i_body st) = Ret (Z.eqb (u_prim u) (u_prim w)))).
Proof. exact others. Qed.
Print Assumptions C67_others.
(** the iterator of the array stores into the number v is now *)
Example C67_others_ex :
  view (i_body (fst (u_run [UAssign (VInt 5); UStore (u_begin (i_body ex_arr)) (VBool true)] ex_arr))) = VBool true.
Proof. vm_compute. reflexivity. Qed.

(** The value changes as without iterators. *)
Theorem C67_value : forall c f st st' o, plain c = Some f -> ok st -> u_step c st = (st', o) ->
  exists r, f (view (i_body st)) = (view (i_body st'), r) /\ alike o r.
Proof. exact step_view. Qed.
Print Assumptions C67_value.
Example C67_value_ex : view (i_body (fst (u_step (USetIdx 4 (VInt 9)) ex_arr))) = VArr [VInt 1; VInt 2; VInt 3; VNull; VInt 9].
Proof. vm_compute. reflexivity. Qed.

Theorem C67_program : forall cs st st' os, Forall tidy cs -> (forall c, In c cs -> plain c <> None) -> ok st -> u_run cs st = (st', os) ->
  runs cs (view (i_body st)) (view (i_body st')).
Proof. exact run_view. Qed.
Print Assumptions C67_program.
(** v.erase("a") throws and the program goes on *)
Example C67_program_ex : view (i_body (fst (u_run [UDelKey (text "a"); UDelIdx 0; UPush VNull] ex_arr))) = VArr [VInt 2; VInt 3; VNull].
Proof. vm_compute. reflexivity. Qed.

(** What an iterator gives where it stands. *)
Theorem C67_read : forall u st p, ok st -> stands u (i_body st) p ->
  (p <> end_spot (i_body st) -> exists e, u_entry u (i_body st) = Ret e /\ found (view (i_body st)) p e) /\
  (p = end_spot (i_body st) -> exists e, u_entry u (i_body st) = Throw e /\ out_of_range (view (i_body st)) e).
Proof. exact reads. Qed.
Print Assumptions C67_read.
Example C67_read_ex : u_entry ex_b (i_body ex_obj) = Ret (Some (text "b"), VInt 2) /\
  u_entry (u_end (i_body ex_obj)) (i_body ex_obj) = Throw (EOutOfRange "object iterator out of range").
Proof. vm_compute. split; reflexivity. Qed.

Theorem C67_key : forall u st p, ok st -> stands u (i_body st) p -> p <> end_spot (i_body st) ->
  match p with
  | At k => u_key u (i_body st) = Ret k
  | _ => u_key u (i_body st) = Throw (EIter "cannot use key() with non-object type")
  end.
Proof. exact keys_read. Qed.
Print Assumptions C67_key.
Example C67_key_ex : u_key ex_b (i_body (fst (u_step (UDelKey (text "a")) ex_obj))) = Ret (text "b").
Proof. vm_compute. reflexivity. Qed.

(** begin(), end() and find() *)
Theorem C67_taken : forall st, ok st -> container (view (i_body st)) ->
  (exists p, first_spot (i_body st) p /\ stands (u_begin (i_body st)) (i_body st) p) /\
  stands (u_end (i_body st)) (i_body st) (end_spot (i_body st)) /\
  (forall c m k, i_body st = BObj c m ->
     (In k (map fst m) -> stands (u_find k (i_body st)) (i_body st) (At k)) /\ (~ In k (map fst m) -> stands (u_find k (i_body st)) (i_body st) End)).
Proof. exact taken. Qed.
Print Assumptions C67_taken.
Example C67_taken_ex : stands ex_b (i_body ex_obj) (At (text "b")).
Proof. exists 2%nat, (VInt 2). vm_compute. split; reflexivity. Qed.

(** ++ goes to the next spot of the value as it is now. *)
Theorem C67_next : forall u st p, ok st -> stands u (i_body st) p ->
  (p <> end_spot (i_body st) -> exists u' p', u_incr u (i_body st) = Ret u' /\ next_spot (i_body st) p p' /\ stands u' (i_body st) p') /\
  (p = end_spot (i_body st) -> u_incr u (i_body st) = UB).
Proof. exact walks. Qed.
Print Assumptions C67_next.
(** "bb" was inserted after the iterator was obtained *)
Example C67_next_ex :
  let st := fst (u_step (USetKey (text "bb") VNull) ex_obj) in
  (let* u := u_incr ex_b (i_body st) in u_key u (i_body st)) = Ret (text "bb").
Proof. vm_compute. reflexivity. Qed.

Theorem C67_previous : forall u st p, ok st -> stands u (i_body st) p ->
  (first_spot (i_body st) p -> u_decr u (i_body st) = UB) /\
  (~ first_spot (i_body st) p -> exists u', u_decr u (i_body st) = Ret u' /\
     exists p', stands u' (i_body st) p' /\ p' <> end_spot (i_body st) /\
     match p with
     | End => forall j, In j (members (i_body st)) -> ~ (exists k, p' = At k /\ key_lt k j)
     | _ => next_spot (i_body st) p' p
     end).
Proof. exact walks_back. Qed.
Print Assumptions C67_previous.
(** end() was obtained before "d" came and "c" went *)
Example C67_previous_ex :
  let st := fst (u_run [USetKey (text "d") VNull; UDelKey (text "c")] ex_obj) in
  (let* u := u_decr (u_end (i_body ex_obj)) (i_body st) in u_key u (i_body st)) = Ret (text "d").
Proof. vm_compute. reflexivity. Qed.

Theorem C67_compare : forall u w st p q, ok st -> stands u (i_body st) p -> stands w (i_body st) q ->
  exists r, u_eq u w (i_body st) = Ret r /\ (r = true <-> p = q).
Proof. exact compares. Qed.
Print Assumptions C67_compare.
Example C67_compare_ex :
  let st := fst (u_step (UDelKey (text "a")) ex_obj) in u_eq ex_b (u_begin (i_body st)) (i_body st) = Ret true.
Proof. vm_compute. reflexivity. Qed.

(** Every iterator a program can get hold of was obtained before now. *)
Theorem C67_known : forall st, ok st ->
  (known st (u_begin (i_body st)) /\ known st (u_end (i_body st)) /\ forall k, known st (u_find k (i_body st))) /\
  (forall u u', known st u -> u_incr u (i_body st) = Ret u' \/ u_decr u (i_body st) = Ret u' -> known st u') /\
  (forall c st' o u, tidy c -> known st u -> u_step c st = (st', o) -> ok st' /\ known st' u /\ forall w, o = Ret w -> known st' w).
Proof.
  exact (fun st K => conj (made_known st K) (conj (fun u u' => moved_known st u u' K) (fun c st' o u T => step_known c st st' o u T K))).
Qed.
Print Assumptions C67_known.
Example C67_known_ex : known ex_obj ex_b.
Proof. apply C67_known, fresh_ok. intros m E. injection E as <-. repeat constructor. Qed.

(** Programs *)
Theorem C67_run : forall cs st st' os u p, Forall tidy cs -> ok st -> known st u -> u_run cs st = (st', os) -> ~ In UB os ->
  stands u (i_body st) p -> stays_all cs st p -> ok st' /\ stands u (i_body st') p.
Proof. exact run_stays. Qed.
Print Assumptions C67_run.
Example C67_run_ex :
  let st := fst (u_run [UStore ex_b (VArr []); UErase (u_begin (i_body ex_obj)); USetIdx 3 VNull] ex_obj) in
  u_entry ex_b (i_body st) = Ret (Some (text "b"), VArr []).
Proof. vm_compute. reflexivity. Qed.

Theorem C67_run_astray : forall cs st st' os u, Forall tidy cs -> ok st -> known st u -> u_run cs st = (st', os) -> astray u (i_body st) -> astray u (i_body st').
Proof. exact run_astray. Qed.
Print Assumptions C67_run_astray.
Example C67_run_astray_ex :
  u_entry (u_begin (i_body ex_arr)) (i_body (fst (u_run [UPush VNull; UDelIdx 3; USetIdx 0 (VInt 1)] ex_arr))) = UB.
Proof. vm_compute. reflexivity. Qed.

(** v.erase(it) and *it = x *)
Theorem C67_erase : forall u st p, ok st -> stands u (i_body st) p ->
  (p = end_spot (i_body st) -> snd (u_step (UErase u) st) = UB) /\
  (p <> end_spot (i_body st) -> exists st' u' es1 e es2, u_step (UErase u) st = (st', Ret u') /\
     type_of (view (i_body st')) = type_of (view (i_body st)) /\ found (view (i_body st)) p e /\
     elements (view (i_body st)) (es1 ++ e :: es2) /\ elements (view (i_body st')) (es1 ++ es2) /\
     (forall i, p = Pos i -> i = length es1 /\ stands u' (i_body st') (Pos i)) /\
     (forall k, p = At k -> match es2 with
                            | (Some k', _) :: _ => stands u' (i_body st') (At k')
                            | _ => es2 = [] /\ stands u' (i_body st') End
                            end)).
Proof. exact erases. Qed.
Print Assumptions C67_erase.
Example C67_erase_ex :
  match u_step (UErase ex_b) ex_obj with
  | (st, Ret u) => view (i_body st) = VObj [(text "a", VInt 1); (text "c", VInt 3)] /\ u_key u (i_body st) = Ret (text "c")
  | _ => False
  end.
Proof. vm_compute. split; reflexivity. Qed.

Theorem C67_store : forall u x st p, ok st -> stands u (i_body st) p -> p <> end_spot (i_body st) ->
  exists st' es1 o y es2, u_step (UStore u x) st = (st', Ret u_none) /\ type_of (view (i_body st')) = type_of (view (i_body st)) /\
    found (view (i_body st)) p (o, y) /\ elements (view (i_body st)) (es1 ++ (o, y) :: es2) /\ elements (view (i_body st')) (es1 ++ (o, x) :: es2) /\
    (forall i, p = Pos i -> i = length es1).
Proof. exact stores. Qed.
Print Assumptions C67_store.
Example C67_store_ex : view (i_body (fst (u_step (UStore (u_begin (i_body ex_arr)) (VBool true)) ex_arr))) = VArr [VBool true; VInt 2; VInt 3].
Proof. vm_compute. reflexivity. Qed.

(** for (auto it = v.begin(); it != v.end();) if (p(it)) it = v.erase(it); else ++it; *)
Theorem C67_erase_if : forall p st es fuel, ok st -> container (view (i_body st)) -> elements (view (i_body st)) es -> (length es < fuel)%nat ->
  exists st', erase_if p fuel (u_begin (i_body st)) st = (st', Ret tt) /\ ok st' /\
    type_of (view (i_body st')) = type_of (view (i_body st)) /\ elements (view (i_body st')) (filter (fun e => negb (p e)) es) /\
    (forall u s, (forall i, s <> Pos i) -> stands u (i_body st) s -> (forall k, s = At k -> In k (members (i_body st'))) -> stands u (i_body st') s).
Proof. exact erase_if_all. Qed.
Print Assumptions C67_erase_if.
Definition small (e : option str * value) : bool := match snd e with VInt z => Z.leb z 2 | _ => false end.
Example C67_erase_if_ex : view (i_body (fst (erase_if small 4 (u_begin (i_body ex_arr)) ex_arr))) = VArr [VInt 3].
Proof. vm_compute. reflexivity. Qed.

(** v.erase(it++) in its place does the same with objects, *)
Theorem C67_erase_post : forall p st es fuel, ok st -> type_of (view (i_body st)) = TObject -> elements (view (i_body st)) es -> (length es < fuel)%nat ->
  erase_post p fuel (u_begin (i_body st)) st = erase_if p fuel (u_begin (i_body st)) st.
Proof. exact erase_post_object. Qed.
Print Assumptions C67_erase_post.
Example C67_erase_post_ex : view (i_body (fst (erase_post small 4 (u_begin (i_body ex_obj)) ex_obj))) = VObj [(text "c", VInt 3)].
Proof. vm_compute. reflexivity. Qed.

(** and is undefined with arrays as soon as something is erased. *)
Theorem C67_erase_post_array : forall p st l fuel, ok st -> view (i_body st) = VArr l -> (exists x, In x l /\ p (None, x) = true) -> (length l < fuel)%nat ->
  snd (erase_post p fuel (u_begin (i_body st)) st) = UB.
Proof. exact erase_post_array. Qed.
Print Assumptions C67_erase_post_array.
Example C67_erase_post_array_ex : snd (erase_post small 4 (u_begin (i_body ex_arr)) ex_arr) = UB.
Proof. vm_compute. reflexivity. Qed.

(** for (auto it = v.begin(); it != v.end(); ++it) *it = f( *it); *)
Theorem C67_rewrite : forall f st es fuel, ok st -> container (view (i_body st)) -> elements (view (i_body st)) es -> (length es < fuel)%nat ->
  exists st', rewrite_all f fuel (u_begin (i_body st)) st = (st', Ret tt) /\ type_of (view (i_body st')) = type_of (view (i_body st)) /\
    elements (view (i_body st')) (map (fun e => (fst e, f (snd e))) es) /\
    forall u s, stands u (i_body st) s -> stands u (i_body st') s.
Proof. exact rewrite_each. Qed.
Print Assumptions C67_rewrite.
Example C67_rewrite_ex : view (i_body (fst (rewrite_all (fun x => VArr [x]) 4 (u_begin (i_body ex_arr)) ex_arr))) = VArr [VArr [VInt 1]; VArr [VInt 2]; VArr [VInt 3]].
Proof. vm_compute. reflexivity. Qed.

(** Over a single value the loop ends after one turn unless f makes an array or
    object of it. *)
Theorem C67_rewrite_scalar : forall f v n fuel, scalar v -> (1 < fuel)%nat ->
  (~ container (f v) -> rewrite_all f fuel (u_begin (BVal v)) (mkI (BVal v) n) = (mkI (BVal (f v)) n, Ret tt)) /\
  (container (f v) -> snd (rewrite_all f fuel (u_begin (BVal v)) (mkI (BVal v) n)) = UB).
Proof. exact rewrite_scalar. Qed.
Print Assumptions C67_rewrite_scalar.
Example C67_rewrite_scalar_ex : snd (rewrite_all (fun x => VArr [x]) 2 u_none (mkI (BVal (VInt 5)) 0)) = UB.
Proof. vm_compute. reflexivity. Qed.

(** for (auto it = v.begin(); it != v.end(); ++it) v[it.key() + "a"] = *it;
    never ends once there is a member. *)
Theorem C67_endless : forall st k fuel, ok st -> In k (members (i_body st)) ->
  snd (insert_all (fun e => match fst e with Some j => Some (j ++ [97], snd e) | None => None end) fuel (u_begin (i_body st)) st) = OutOfFuel.
Proof. exact insert_forever. Qed.
Print Assumptions C67_endless.
Example C67_endless_ex : map fst (match view (i_body (fst (insert_all grows 3 (u_begin (i_body ex_obj)) ex_obj))) with VObj m => m | _ => [] end) =
  [text "a"; text "aa"; text "aaa"; text "aaaa"; text "b"; text "c"].
Proof. vm_compute. reflexivity. Qed.
