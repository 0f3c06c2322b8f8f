(** Every command of the memory model does what the trees say. *)
From Coq Require Import Lia Permutation Arith.
From Verif Require Import Base Value ValueOps ObjFacts ValueProofs Heap SpecHeap HeapGhost HeapPaths HeapOps.
Open Scope nat_scope.

(** ** Subscripts *)
Definition sub_tail (a : loc) (s : sel) : M loc :=
  do c <- read_loc a;
  match s with
  | Idx i =>
      match c_ty c with
      | TArray =>
          do p <- ptr_of c;
          do b <- get_block p;
          match b with
          | BArr g l =>
              if (len l <=? i)%N then
                let l' := l ++ repeat null_cell (N.to_nat (u64 (i + 18446744073709551616 - len l + 1))) in
                do _ <- set_block p (BArr (S g) l');
                match nth_error l' (N.to_nat i) with Some _ => ret (LElem p (S g) (N.to_nat i)) | None => fail UB end
              else ret (LElem p g (N.to_nat i))
          | _ => fail UB
          end
      | _ => fail (Throw (EKey "operator[] called on a non-array object"))
      end
  | Key k =>
      match c_ty c with
      | TObject =>
          do p <- ptr_of c;
          do b <- get_block p;
          match b with
          | BObj m => do _ <- set_block p (BObj (obj_emplace k null_cell m)); ret (LMember p k)
          | _ => fail UB
          end
      | _ => fail (Throw (EKey "operator[] called on a non-object type"))
      end
  end.

Lemma sub_loc_eq : forall a s, sub_loc a s =
  (do c <- read_loc a;
   do _ <- match c_ty c with TNull => assign_new a (match s with Idx _ => IArr | Key _ => IObj end) | _ => ret tt end;
   sub_tail a s).
Proof. reflexivity. Qed.

Lemma map_repeat' : forall A B (f : A -> B) x n, map f (repeat x n) = repeat (f x) n.
Proof. induction n as [|n IH]; cbn; [reflexivity|]. rewrite IH. reflexivity. Qed.

Lemma blocks_nulls : forall n, flat_map blocks (repeat GNull n) = [].
Proof. induction n as [|n IH]; cbn; [reflexivity|]. exact IH. Qed.

Lemma len_map : forall A B (f : A -> B) l, len (map f l) = len l.
Proof. intros. unfold len. rewrite map_length. reflexivity. Qed.

Definition idf : value -> res result := fun x => (x, Ret RUnit).

Lemma in_elem_id : forall i l y r, in_elem i idf l = (y, r) -> r <> UB -> y = VArr l /\ r = Ret RUnit /\ exists x, nth_error l (N.to_nat i) = Some x.
Proof.
  intros i l y r H N. unfold in_elem, idf in H. destruct (nth_error l (N.to_nat i)) as [x|] eqn:E.
  - injection H as E1 E2. subst. rewrite set_same by assumption. eauto.
  - injection H as E1 E2. congruence.
Qed.

Lemma sub_tail_idx : forall s G L a la q n xs i y r, rep s G L -> fwalk G a = Some (la, GArr q n xs) ->
  via_idx i idf (VArr (map val_of xs)) = (y, r) -> r <> UB ->
  exists s' l' z, sub_tail la (Idx i) s = (s', Ret l') /\ r = Ret RUnit /\ val_of z = y /\ rep s' (fput G a z) L.
Proof.
  intros s G L a la q n xs i y r H W V N. cbn [via_idx] in V. rewrite len_map in V.
  unfold sub_tail, seqm at 1. rewrite (read_ok _ _ _ _ _ _ H W). cbn [cell_of c_ty]. unfold seqm at 1, ptr_of. cbn [c_data ret].
  unfold seqm at 1. rewrite (get_at _ _ _ _ _ _ _ _ _ H W eq_refl). rewrite len_map.
  destruct (len xs <=? i)%N.
  - set (k := N.to_nat (u64 (i + 18446744073709551616 - len xs + 1))) in *. clearbody k. cbv zeta.
    apply in_elem_id in V; [|assumption]. destruct V as (-> & -> & x & Ex).
    change null_cell with (cell_of GNull). rewrite <- map_repeat', <- map_app.
    change VNull with (val_of GNull) in *. rewrite <- map_repeat', <- map_app in *.
    rewrite nth_error_map in *. destruct (nth_error (xs ++ repeat GNull k) (N.to_nat i)) as [c|]; [|discriminate]. cbn [option_map].
    destruct (refocus s G L a la (GArr q n xs) q (BArr n (map cell_of xs)) (BArr (S n) (map cell_of (xs ++ repeat GNull k)))
      (flat_map blocks xs) (flat_map blocks xs) (GArr q (S n) (xs ++ repeat GNull k)) L H W eq_refl) as [E1 H1].
    + cbn [blocks]. rewrite flat_map_app, blocks_nulls, app_nil_r. reflexivity.
    + reflexivity.
    + apply Permutation_refl.
    + unfold seqm. rewrite E1. eexists _, _, _. split; [reflexivity|]. split; [reflexivity|]. split; [|exact H1]. reflexivity.
  - apply in_elem_id in V; [|assumption]. destruct V as (-> & -> & _). eexists _, _, (GArr q n xs). split; [reflexivity|]. split; [reflexivity|].
    split; [reflexivity|]. rewrite (fput_same _ _ _ _ W). assumption.
Qed.

Lemma snd_emplace : forall k (m : list (str * gt)), Permutation (flat_map (fun kx => blocks (snd kx)) (obj_emplace k GNull m)) (flat_map (fun kx => blocks (snd kx)) m).
Proof.
  intros k m. induction m as [|[k' x] m IH]; cbn [obj_emplace]; [apply Permutation_refl|].
  destruct (str_ltb k k'); [apply Permutation_refl|]. destruct (str_eqb k k'); [apply Permutation_refl|].
  cbn [flat_map snd]. apply Permutation_app_head. exact IH.
Qed.

Lemma sub_tail_key : forall s G L a la q m k, rep s G L -> fwalk G a = Some (la, GObj q m) ->
  exists s' l' z, sub_tail la (Key k) s = (s', Ret l') /\ val_of z = VObj (obj_emplace k VNull (vmap val_of m)) /\ rep s' (fput G a z) L.
Proof.
  intros s G L a la q m k H W.
  unfold sub_tail, seqm at 1. rewrite (read_ok _ _ _ _ _ _ H W). cbn [cell_of c_ty]. unfold seqm at 1, ptr_of. cbn [c_data ret].
  unfold seqm at 1. rewrite (get_at _ _ _ _ _ _ _ _ _ H W eq_refl).
  change null_cell with (cell_of GNull). rewrite emplace_vmap.
  destruct (refocus s G L a la (GObj q m) q (BObj (vmap cell_of m)) (BObj (vmap cell_of (obj_emplace k GNull m)))
    (flat_map (fun kx => blocks (snd kx)) m) (flat_map (fun kx => blocks (snd kx)) (obj_emplace k GNull m)) (GObj q (obj_emplace k GNull m)) L H W eq_refl eq_refl eq_refl) as [E1 H1].
  - apply Permutation_app_tail. apply Permutation_sym. apply snd_emplace.
  - unfold seqm. rewrite E1. eexists _, _, _. split; [reflexivity|]. split; [|exact H1]. rewrite val_obj. change VNull with (val_of GNull). rewrite emplace_vmap. reflexivity.
Qed.

(** trees with a given value *)
Lemma gt_arr : forall x l, val_of x = VArr l -> exists q n xs, x = GArr q n xs /\ l = map val_of xs.
Proof. intros x l H. destruct x; try discriminate. cbn in H. injection H as <-. eauto. Qed.
Lemma gt_obj : forall x l, val_of x = VObj l -> exists q m, x = GObj q m /\ l = vmap val_of m.
Proof. intros x l H. destruct x; try discriminate. rewrite val_obj in H. injection H as <-. eauto. Qed.

Definition seq_unit {A} (m : M A) : M result := do _ <- m; ret RUnit.

Lemma sub_idx_ok : forall s G L a la x i y r, rep s G L -> fwalk G a = Some (la, x) -> via_idx i idf (val_of x) = (y, r) -> r <> UB ->
  exists s' z, seq_unit (sub_loc la (Idx i)) s = (s', r) /\ val_of z = y /\ rep s' (fput G a z) L.
Proof.
  intros s G L a la x i y r H W V N. unfold seq_unit. rewrite sub_loc_eq. unfold seqm at 1. unfold seqm at 1. rewrite (read_ok _ _ _ _ _ _ H W).
  assert (Hthrow : forall msg, y = val_of x -> r = Throw (EKey msg) -> (do _ <- ret tt; sub_tail la (Idx i)) s = (s, Throw (EKey msg)) -> 
    exists s' z, match (do _ <- ret tt; sub_tail la (Idx i)) s with
      | (s', Ret _) => ret RUnit s' | (s', Throw e) => (s', Throw e) | (s', Abort) => (s', Abort) | (s', UB) => (s', UB) | (s', OutOfFuel) => (s', OutOfFuel) end = (s', r) /\ val_of z = y /\ rep s' (fput G a z) L).
  { intros msg -> -> E. rewrite E. exists s, x. rewrite (fput_same _ _ _ _ W). auto. }
  destruct x as [|b|z|f|q t|q n xs|q m]; cbn [cell_of c_ty].
  - destruct (assign_new_ok IArr _ _ _ _ _ _ H W) as (s1 & z1 & E1 & V1 & H1). unfold seqm. rewrite E1.
    cbn [init_value] in V1. apply gt_arr in V1. destruct V1 as (q & n & xs & -> & Ex). destruct xs; [|discriminate].
    pose proof (fwalk_put_same _ _ (GArr q n []) _ _ W) as W1.
    destruct (sub_tail_idx _ _ _ _ _ _ _ _ i y r H1 W1 V N) as (s2 & l' & z & E2 & -> & Vz & H2). rewrite E2.
    exists s2, z. split; [reflexivity|]. split; [assumption|]. rewrite (fput_fput_same _ _ _ _ _ _ W) in H2. assumption.
  - injection V as <- <-. eapply Hthrow; [reflexivity|reflexivity|]. unfold seqm, ret, sub_tail. unfold seqm. rewrite (read_ok _ _ _ _ _ _ H W). reflexivity.
  - injection V as <- <-. eapply Hthrow; [reflexivity|reflexivity|]. unfold seqm, ret, sub_tail. unfold seqm. rewrite (read_ok _ _ _ _ _ _ H W). reflexivity.
  - injection V as <- <-. eapply Hthrow; [reflexivity|reflexivity|]. unfold seqm, ret, sub_tail. unfold seqm. rewrite (read_ok _ _ _ _ _ _ H W). reflexivity.
  - injection V as <- <-. eapply Hthrow; [reflexivity|reflexivity|]. unfold seqm, ret, sub_tail. unfold seqm. rewrite (read_ok _ _ _ _ _ _ H W). reflexivity.
  - unfold seqm. cbn [ret]. destruct (sub_tail_idx _ _ _ _ _ _ _ _ i y r H W V N) as (s2 & l' & z & E2 & -> & Vz & H2). rewrite E2. exists s2, z. split; [reflexivity|auto].
  - injection V as <- <-. eapply Hthrow; [reflexivity|reflexivity|]. unfold seqm, ret, sub_tail. unfold seqm. rewrite (read_ok _ _ _ _ _ _ H W). reflexivity.
Qed.

Lemma sub_key_ok : forall s G L a la x k y r, rep s G L -> fwalk G a = Some (la, x) -> touch k (val_of x) = (y, r) ->
  exists s' z, seq_unit (sub_loc la (Key k)) s = (s', r) /\ val_of z = y /\ rep s' (fput G a z) L.
Proof.
  intros s G L a la x k y r H W V. unfold seq_unit. rewrite sub_loc_eq. unfold seqm at 1. unfold seqm at 1. rewrite (read_ok _ _ _ _ _ _ H W).
  assert (Hthrow : forall msg, y = val_of x -> r = Throw (EKey msg) -> (do _ <- ret tt; sub_tail la (Key k)) s = (s, Throw (EKey msg)) -> 
    exists s' z, match (do _ <- ret tt; sub_tail la (Key k)) s with
      | (s', Ret _) => ret RUnit s' | (s', Throw e) => (s', Throw e) | (s', Abort) => (s', Abort) | (s', UB) => (s', UB) | (s', OutOfFuel) => (s', OutOfFuel) end = (s', r) /\ val_of z = y /\ rep s' (fput G a z) L).
  { intros msg -> -> E. rewrite E. exists s, x. rewrite (fput_same _ _ _ _ W). auto. }
  destruct x as [|b|z|f|q t|q n xs|q m]; cbn [cell_of c_ty].
  - destruct (assign_new_ok IObj _ _ _ _ _ _ H W) as (s1 & z1 & E1 & V1 & H1). unfold seqm. rewrite E1.
    cbn [init_value] in V1. apply gt_obj in V1. destruct V1 as (q & m & -> & Ex). destruct m; [|discriminate].
    pose proof (fwalk_put_same _ _ (GObj q []) _ _ W) as W1.
    destruct (sub_tail_key _ _ _ _ _ _ _ k H1 W1) as (s2 & l' & z & E2 & Vz & H2). rewrite E2.
    cbn [touch val_of] in V. injection V as <- <-. exists s2, z. split; [reflexivity|]. split; [assumption|]. rewrite (fput_fput_same _ _ _ _ _ _ W) in H2. assumption.
  - injection V as <- <-. eapply Hthrow; [reflexivity|reflexivity|]. unfold seqm, ret, sub_tail. unfold seqm. rewrite (read_ok _ _ _ _ _ _ H W). reflexivity.
  - injection V as <- <-. eapply Hthrow; [reflexivity|reflexivity|]. unfold seqm, ret, sub_tail. unfold seqm. rewrite (read_ok _ _ _ _ _ _ H W). reflexivity.
  - injection V as <- <-. eapply Hthrow; [reflexivity|reflexivity|]. unfold seqm, ret, sub_tail. unfold seqm. rewrite (read_ok _ _ _ _ _ _ H W). reflexivity.
  - injection V as <- <-. eapply Hthrow; [reflexivity|reflexivity|]. unfold seqm, ret, sub_tail. unfold seqm. rewrite (read_ok _ _ _ _ _ _ H W). reflexivity.
  - injection V as <- <-. eapply Hthrow; [reflexivity|reflexivity|]. unfold seqm, ret, sub_tail. unfold seqm. rewrite (read_ok _ _ _ _ _ _ H W). reflexivity.
  - unfold seqm. cbn [ret]. destruct (sub_tail_key _ _ _ _ _ _ _ k H W) as (s2 & l' & z & E2 & Vz & H2). rewrite E2.
    rewrite val_obj in V. cbn [touch] in V. injection V as <- <-. exists s2, z. split; [reflexivity|auto].
Qed.

(** ** erase and clear *)
Lemma erase_key_ok : forall s G L a la x k y r, rep s G L -> fwalk G a = Some (la, x) -> run_op (EraseKey k) (val_of x) = (y, r) ->
  exists s' z, (do n <- erase_key la k; ret (RNum n)) s = (s', r) /\ val_of z = y /\ rep s' (fput G a z) L.
Proof.
  intros s G L a la x k y r H W V. unfold erase_key. unfold seqm at 1. unfold seqm at 1. rewrite (read_ok _ _ _ _ _ _ H W).
  destruct x as [|b|z|f|q t|q n xs|q m]; cbn [cell_of c_ty].
  1,2,3,4,5,6: injection V as <- <-; exists s; eexists; split; [reflexivity|]; split; [|rewrite (fput_same _ _ _ _ W); assumption]; reflexivity.
  rewrite val_obj in V. cbn [run_op v_erase_key rmap fst snd bind] in V. injection V as <- <-.
  unfold seqm, ptr_of. cbn [c_data ret]. rewrite (get_at _ _ _ _ _ _ _ _ _ H W eq_refl). rewrite !find_vmap.
  destruct (obj_find k m) as [c|] eqn:E; cbn [option_map].
  - apply find_split in E. destruct E as (m1 & m2 & -> & N). rewrite erase_vmap, erase_mid by assumption.
    destruct (refocus s G L a la (GObj q (m1 ++ (k, c) :: m2)) q (BObj (vmap cell_of (m1 ++ (k, c) :: m2))) (BObj (vmap cell_of (m1 ++ m2)))
      (flat_map (fun kx => blocks (snd kx)) (m1 ++ (k, c) :: m2)) (flat_map (fun kx => blocks (snd kx)) (m1 ++ m2)) (GObj q (m1 ++ m2)) (c :: L) H W eq_refl eq_refl eq_refl) as [E1 H1].
    { rewrite fm_mid, flat_map_app. cbn [snd lblocks flat_map]. fold (lblocks L). psolve. }
    rewrite E1. destruct (drop_ok _ _ _ _ H1) as (s2 & E2 & H2). rewrite E2. cbn [ret]. eexists _, _. split; [reflexivity|]. split; [|exact H2].
    rewrite val_obj. rewrite erase_vmap, erase_mid by assumption. reflexivity.
  - cbn [ret]. exists s, (GObj q m). split; [reflexivity|]. split; [|rewrite (fput_same _ _ _ _ W); assumption]. rewrite val_obj, erase_vmap. f_equal. f_equal.
    symmetry. clear -E. induction m as [|[k' x] m IH]; cbn in *; [reflexivity|]. destruct (str_eqb k k'); [discriminate|]. rewrite IH by assumption. reflexivity.
Qed.

Lemma erase_idx_ok : forall s G L a la x i y r, rep s G L -> fwalk G a = Some (la, x) -> run_op (EraseIdx i) (val_of x) = (y, r) -> r <> UB ->
  exists s' z, seq_unit (erase_idx la i) s = (s', r) /\ val_of z = y /\ rep s' (fput G a z) L.
Proof.
  intros s G L a la x i y r H W V N. unfold seq_unit, erase_idx. unfold seqm at 1. unfold seqm at 1. rewrite (read_ok _ _ _ _ _ _ H W).
  destruct x as [|b|z|f|q t|q n xs|q m]; cbn [cell_of c_ty].
  1,2,3,4,5,7: injection V as <- <-; exists s; eexists; split; [reflexivity|]; split; [|rewrite (fput_same _ _ _ _ W); assumption]; reflexivity.
  cbn [run_op v_erase_idx val_of rmap] in V. rewrite len_map in V.
  destruct (i <? len xs)%N eqn:Ei; cbn [fst snd bind] in V; injection V as <- <-; [|congruence].
  apply N.ltb_lt in Ei. unfold len in Ei.
  unfold seqm, ptr_of. cbn [c_data ret]. rewrite (get_at _ _ _ _ _ _ _ _ _ H W eq_refl).
  rewrite nth_error_map. destruct (nth_error xs (N.to_nat i)) as [c|] eqn:E; [|apply nth_error_None in E; lia]. cbn [option_map].
  apply nth_error_split in E. destruct E as (l1 & l2 & -> & Ln). rewrite <- Ln. rewrite !remove_map, remove_mid.
  destruct (refocus s G L a la (GArr q n (l1 ++ c :: l2)) q (BArr n (map cell_of (l1 ++ c :: l2))) (BArr (S n) (map cell_of (l1 ++ l2)))
    (flat_map blocks (l1 ++ c :: l2)) (flat_map blocks (l1 ++ l2)) (GArr q (S n) (l1 ++ l2)) (c :: L) H W eq_refl eq_refl eq_refl) as [E1 H1].
  { rewrite fm_mid, flat_map_app. cbn [lblocks flat_map]. fold (lblocks L). psolve. }
  rewrite E1. destruct (drop_ok _ _ _ _ H1) as (s2 & E2 & H2). rewrite E2. cbn [ret]. eexists _, _. split; [reflexivity|]. split; [|exact H2]. reflexivity.
Qed.

Lemma fm_map : forall A B C (f : B -> list C) (g : A -> B) l, flat_map f (map g l) = flat_map (fun x => f (g x)) l.
Proof. intros A B C f g l. induction l as [|x l IH]; cbn; [reflexivity|]. rewrite IH. reflexivity. Qed.

Lemma scalar_write : forall s G L a la x y, rep s G L -> fwalk G a = Some (la, x) -> blocks x = [] -> blocks y = [] ->
  exists s', write_loc la (cell_of y) s = (s', Ret tt) /\ rep s' (fput G a y) L.
Proof.
  intros s G L a la x y H W Bx By. apply (proj1 (rep_scalar _ _ _ _ By)) in H. destruct (exchange _ _ _ _ _ _ _ H W) as (_ & s' & E & H1).
  exists s'. split; [assumption|]. apply (rep_scalar _ _ _ _ Bx). assumption.
Qed.

Lemma clear_ok : forall s G L a la x, rep s G L -> fwalk G a = Some (la, x) ->
  exists s' z, seq_unit (clear la) s = (s', Ret RUnit) /\ val_of z = v_clear (val_of x) /\ rep s' (fput G a z) L.
Proof.
  intros s G L a la x H W. unfold seq_unit, clear. unfold seqm at 1. unfold seqm at 1. rewrite (read_ok _ _ _ _ _ _ H W).
  destruct x as [|b|z|f|q t|q n xs|q m]; cbn [cell_of c_ty].
  - exists s, GNull. split; [reflexivity|]. split; [reflexivity|]. rewrite (fput_same _ _ _ _ W). assumption.
  - destruct (scalar_write _ _ _ _ _ _ (GBool false) H W eq_refl eq_refl) as (s' & E & H1). cbn [cell_of] in E. rewrite E. eexists _, _. split; [reflexivity|]. split; [|exact H1]. reflexivity.
  - destruct (scalar_write _ _ _ _ _ _ (GInt 0) H W eq_refl eq_refl) as (s' & E & H1). cbn [cell_of] in E. rewrite E. eexists _, _. split; [reflexivity|]. split; [|exact H1]. reflexivity.
  - destruct (scalar_write _ _ _ _ _ _ (GFlt f64_zero) H W eq_refl eq_refl) as (s' & E & H1). cbn [cell_of] in E. rewrite E. eexists _, _. split; [reflexivity|]. split; [|exact H1]. reflexivity.
  - unfold seqm, ptr_of. cbn [c_data ret]. rewrite (get_at _ _ _ _ _ _ _ _ _ H W eq_refl).
    destruct (refocus s G L a la (GStr q t) q (BStr t) (BStr []) [] [] (GStr q []) L H W eq_refl eq_refl eq_refl (Permutation_refl _)) as [E1 H1].
    rewrite E1. eexists _, _. split; [reflexivity|]. split; [|exact H1]. reflexivity.
  - unfold seqm, ptr_of. cbn [c_data ret]. rewrite (get_at _ _ _ _ _ _ _ _ _ H W eq_refl).
    destruct (refocus s G L a la (GArr q n xs) q (BArr n (map cell_of xs)) (BArr (S n) []) (flat_map blocks xs) [] (GArr q (S n) []) (xs ++ L) H W eq_refl eq_refl eq_refl) as [E1 H1].
    { unfold lblocks. rewrite flat_map_app. apply Permutation_refl. }
    rewrite E1. destruct (drop_all _ _ _ _ H1) as (s2 & E2 & H2). rewrite E2. eexists _, _. split; [reflexivity|]. split; [|exact H2]. reflexivity.
  - unfold seqm, ptr_of. cbn [c_data ret]. rewrite (get_at _ _ _ _ _ _ _ _ _ H W eq_refl).
    destruct (refocus s G L a la (GObj q m) q (BObj (vmap cell_of m)) (BObj []) (flat_map (fun kx => blocks (snd kx)) m) [] (GObj q []) (map snd m ++ L) H W eq_refl eq_refl eq_refl) as [E1 H1].
    { unfold lblocks. rewrite flat_map_app, fm_map. apply Permutation_refl. }
    rewrite E1. destruct (drop_all _ _ _ _ H1) as (s2 & E2 & H2). rewrite (iterm_ext _ _ destroy_cell snd). unfold vmap. rewrite map_map. cbn [snd].
    rewrite map_map in E2. rewrite E2. eexists _, _. split; [reflexivity|]. split; [|exact H2]. reflexivity.
Qed.

(** ** push_back *)
Definition push_tail (q : nat) (x : cell) : M unit :=
  do b <- get_block q;
  match b with BArr g l => set_block q (BArr (S g) (l ++ [x])) | _ => fail UB end.

Lemma push_tail_ok : forall s G L y a la q g gl, rep s G (y :: L) -> fwalk G a = Some (la, GArr q g gl) ->
  exists s', push_tail q (cell_of y) s = (s', Ret tt) /\ rep s' (fput G a (GArr q (S g) (gl ++ [y]))) L.
Proof.
  intros s G L y a la q g gl H W. unfold push_tail, seqm. rewrite (get_at _ _ _ _ _ _ _ _ _ H W eq_refl).
  change [cell_of y] with (map cell_of [y]). rewrite <- map_app.
  destruct (refocus s G (y :: L) a la (GArr q g gl) q (BArr g (map cell_of gl)) (BArr (S g) (map cell_of (gl ++ [y]))) (flat_map blocks gl) (flat_map blocks (gl ++ [y]))
     (GArr q (S g) (gl ++ [y])) L H W eq_refl eq_refl eq_refl) as [E1 H1].
  { rewrite flat_map_app. cbn [flat_map lblocks]. fold (lblocks L). rewrite app_nil_r. psolve. }
  eauto.
Qed.

Lemma push_head : forall s G L a la x l, rep s G L -> fwalk G a = Some (la, x) -> as_array (val_of x) l ->
  exists s1 q g gl, l = map val_of gl /\ (x = GNull \/ x = GArr q g gl) /\ rep s1 (fput G a (GArr q g gl)) L /\
    forall arg, push_back la arg s = (do y <- arg; push_tail q y) s1.
Proof.
  intros s G L a la x l H W A. destruct x as [|b|z|f|q t|q n xs|q m]; inversion A; subst.
  - destruct (assign_new_ok IArr _ _ _ _ _ _ H W) as (s1 & z & E1 & V1 & H1). apply gt_arr in V1. destruct V1 as (q & n & xs & -> & Ex).
    destruct xs; [|discriminate]. exists s1, q, n, []. split; [reflexivity|]. split; [auto|]. split; [assumption|]. intro arg.
    unfold push_back. unfold seqm at 1. rewrite (read_ok _ _ _ _ _ _ H W). cbn [cell_of c_ty]. unfold seqm at 1. rewrite E1.
    unfold seqm at 1. rewrite (read_ok _ _ _ _ _ _ H1 (fwalk_put_same _ _ _ _ _ W)). unfold seqm at 1, ptr_of. reflexivity.
  - exists s, q, n, xs. split; [reflexivity|]. split; [auto|]. rewrite (fput_same _ _ _ _ W). split; [assumption|]. intro arg.
    unfold push_back. unfold seqm at 1. rewrite (read_ok _ _ _ _ _ _ H W). cbn [cell_of c_ty]. unfold seqm at 1. cbn [ret].
    unfold seqm at 1. rewrite (read_ok _ _ _ _ _ _ H W). unfold seqm at 1, ptr_of. reflexivity.
Qed.

Lemma push_bad : forall s G L a la x arg, rep s G L -> fwalk G a = Some (la, x) -> (forall l, ~ as_array (val_of x) l) ->
  push_back la arg s = (s, Throw push_error).
Proof.
  intros s G L a la x arg H W A. unfold push_back. unfold seqm at 1. rewrite (read_ok _ _ _ _ _ _ H W).
  destruct x as [|b|z|f|q t|q n xs|q m]; try reflexivity; exfalso; eapply A; constructor.
Qed.

(** ** locate *)
Lemma walk_at_ok : forall p l x s R, read_loc l s = (s, Ret (cell_of x)) -> heap_is (heap s) (blocks x ++ R) ->
  match walk l x p with
  | Some (l', x') => walk_at l p s = (s, Ret l') /\ exists y, snd (via (map at_acc p) (fun x => (x, Ret x)) (val_of x)) = Ret y
  | None => exists e, walk_at l p s = (s, Throw e) /\ snd (via (map at_acc p) (fun x => (x, Ret x)) (val_of x)) = Throw e
  end.
Proof.
  induction p as [|sl p IH]; intros l x s R Hr Hh.
  - cbn. split; [reflexivity|eauto].
  - remember (walk_at l (sl :: p) s) as w eqn:Ew. cbn [walk_at] in Ew. unfold seqm at 1, at_loc in Ew. unfold seqm at 1 in Ew. rewrite Hr in Ew.
    destruct sl as [i|k]; cbn [map at_acc via via1 walk].
    + destruct x as [|b|z|f|q t|q n xs|q m]; cbn [cell_of c_ty] in Ew; try (subst w; eexists; split; reflexivity).
      cbn [val_of via_at_idx].
      cbn [blocks app] in Hh. unfold seqm at 1, ptr_of in Ew. cbn [c_data ret] in Ew. unfold seqm at 1 in Ew. rewrite (get_block_ok _ _ _ _ Hh) in Ew.
      rewrite len_map in *. destruct (len xs <=? i)%N eqn:Ei.
      * apply N.leb_le in Ei. unfold len in Ei. assert (E : nth_error xs (N.to_nat i) = None) by (apply nth_error_None; lia). rewrite E.
        subst w. eexists. split; reflexivity.
      * apply N.leb_gt in Ei. unfold len in Ei. destruct (nth_error xs (N.to_nat i)) as [c|] eqn:E; [|apply nth_error_None in E; lia].
        cbn [ret] in Ew. unfold in_elem. rewrite nth_error_map, E. cbn [option_map].
        pose proof E as E'. apply nth_error_split in E'. destruct E' as (l1 & l2 & -> & Ln).
        specialize (IH (LElem q n (N.to_nat i)) c s ((q, BArr n (map cell_of (l1 ++ c :: l2))) :: flat_map blocks l1 ++ flat_map blocks l2 ++ R)).
        destruct (via (map at_acc p) (fun x => (x, Ret x)) (val_of c)) as [v' o]. cbn [snd] in *. subst w. apply IH.
        -- cbn [read_loc]. unfold seqm. rewrite (get_block_ok _ _ _ _ Hh), Nat.eqb_refl, nth_error_map, E. reflexivity.
        -- eapply heap_is_perm; [|exact Hh]. rewrite fm_mid. psolve.
    + destruct x as [|b|z|f|q t|q n xs|q m]; cbn [cell_of c_ty] in Ew; try (subst w; eexists; split; reflexivity).
      rewrite val_obj. cbn [via_at_key].
      cbn [blocks app] in Hh. unfold seqm at 1, ptr_of in Ew. cbn [c_data ret] in Ew. unfold seqm at 1 in Ew. rewrite (get_block_ok _ _ _ _ Hh) in Ew.
      rewrite find_vmap in *. destruct (obj_find k m) as [c|] eqn:E; cbn [option_map] in *.
      * cbn [ret] in Ew. unfold in_member. rewrite find_vmap, E. cbn [option_map].
        pose proof E as E'. apply find_split in E'. destruct E' as (m1 & m2 & -> & Nk).
        specialize (IH (LMember q k) c s ((q, BObj (vmap cell_of (m1 ++ (k, c) :: m2))) :: flat_map (fun kx => blocks (snd kx)) m1 ++ flat_map (fun kx => blocks (snd kx)) m2 ++ R)).
        destruct (via (map at_acc p) (fun x => (x, Ret x)) (val_of c)) as [v' o]. cbn [snd] in *. subst w. apply IH.
        -- cbn [read_loc]. unfold seqm. rewrite (get_block_ok _ _ _ _ Hh), find_vmap, E. reflexivity.
        -- eapply heap_is_perm; [|exact Hh]. rewrite fm_mid. cbn [snd]. psolve.
      * subst w. eexists. split; reflexivity.
Qed.

Lemma locate_slot : forall s G L a g, rep s G L -> nth_error G (fst a) = Some (Some g) ->
  locate a s = walk_at (LSlot (fst a)) (snd a) s /\ read_loc (LSlot (fst a)) s = (s, Ret (cell_of g)) /\ exists R, heap_is (heap s) (blocks g ++ R).
Proof.
  intros s G L [n p] g H N. cbn [fst snd] in *.
  assert (W : fwalk G (n, []) = Some (LSlot n, g)) by (unfold fwalk; cbn [fst snd]; rewrite N; reflexivity).
  pose proof (read_ok _ _ _ _ _ _ H W) as R. split; [|split; [assumption|]].
  - unfold locate, seqm. cbn [fst snd]. rewrite R. reflexivity.
  - eapply rep_focus; eassumption.
Qed.

Lemma locate_ok : forall s G L a l x, rep s G L -> fwalk G a = Some (l, x) -> locate a s = (s, Ret l).
Proof.
  intros s G L a l x H W. apply fwalk_at in W. destruct W as (g & N & W). destruct (locate_slot _ _ _ _ _ H N) as (E & R & B & Hh).
  rewrite E. pose proof (walk_at_ok (snd a) _ _ _ _ R Hh) as K. rewrite W in K. apply K.
Qed.

Lemma locate_bad : forall s G L a e, rep s G L -> sfail (vals G) a e -> locate a s = (s, Throw e).
Proof.
  intros s G L a e H (v & N & T). unfold vals in N. rewrite nth_error_map in N.
  destruct (nth_error G (fst a)) as [[g|]|] eqn:Ng; cbn [option_map] in N; try discriminate. injection N as <-.
  destruct (locate_slot _ _ _ _ _ H Ng) as (E & R & B & Hh). rewrite E. pose proof (walk_at_ok (snd a) _ _ _ _ R Hh) as K.
  destruct (walk (LSlot (fst a)) g (snd a)) as [[l' x']|].
  - destruct K as (_ & y & K). congruence.
  - destruct K as (e' & K1 & K2). congruence.
Qed.

(** ** Destroying a variable *)
Lemma end_ok : forall s G1 g G2 L, rep s (G1 ++ Some g :: G2) L -> exists s', end_slot (length G1) s = (s', Ret tt) /\ rep s' (G1 ++ None :: G2) L.
Proof.
  intros s G1 g G2 L H. assert (W : fwalk (G1 ++ Some g :: G2) (length G1, []) = Some (LSlot (length G1), g)) by (unfold fwalk; cbn [fst snd]; rewrite nth_mid; reflexivity).
  unfold end_slot, seqm. rewrite (read_ok _ _ _ _ _ _ H W). destruct H as [E Hh].
  assert (H1 : heap_is (heap s) (blocks g ++ fblocks G1 ++ fblocks G2 ++ lblocks L)).
  { eapply heap_is_perm; [|exact Hh]. rewrite fblocks_app. cbn [fblocks flat_map tblocks]. fold (fblocks G2). psolve. }
  destruct (destroy_cell_ok g s _ H1) as (s1 & E1 & V1 & H2 & _). rewrite E1. eexists. split; [reflexivity|]. split.
  - cbn [set_env env]. rewrite V1, E. unfold cells. rewrite !map_app. cbn [map option_map]. rewrite <- (map_length (option_map cell_of) G1), set_mid. reflexivity.
  - cbn [set_env heap]. eapply heap_is_perm; [|exact H2]. rewrite fblocks_app. cbn [fblocks flat_map tblocks app]. fold (fblocks G2). psolve.
Qed.

(** ** One command *)
Lemma vals_app : forall G T, vals (G ++ T) = vals G ++ vals T.
Proof. intros. apply map_app. Qed.

Lemma sset_to : forall G a l x v S' z, fwalk G a = Some (l, x) -> sset (vals G) a v S' -> val_of z = v -> S' = vals (fput G a z).
Proof. intros G a l x v S' z W H <-. eapply sset_walk; eassumption. Qed.

Lemma fapart_or : forall a b, ~ below b a -> fapart a b \/ exists t, t <> [] /\ b = ext a t.
Proof.
  intros a b N. destruct (places a b) as [P|[P|P]]; [auto| |contradiction]. right. apply below_ext in P. destruct P as [t ->]. exists t. split; [|reflexivity].
  intros ->. apply N. unfold ext. rewrite app_nil_r, <- surjective_pairing. apply below_refl.
Qed.

Lemma ext_nil : forall a, ext a [] = a.
Proof. intros a. unfold ext. rewrite app_nil_r, <- surjective_pairing. reflexivity. Qed.

(** turning a null into an array moves nothing *)
Lemma fwalk_settle : forall G a b la lb x xb q g gl, fwalk G a = Some (la, x) -> fwalk G b = Some (lb, xb) -> x = GNull \/ x = GArr q g gl ->
  exists xb', fwalk (fput G a (GArr q g gl)) b = Some (lb, xb').
Proof.
  intros G a b la lb x xb q g gl Wa Wb [->| ->]; [|rewrite (fput_same _ _ _ _ Wa); eauto].
  destruct (places a b) as [P|[P|P]].
  - rewrite fwalk_put_apart by assumption. eauto.
  - apply below_ext in P. destruct P as [t ->]. destruct t as [|s0 t].
    + rewrite ext_nil in *. rewrite (fwalk_put_same _ _ _ _ _ Wa). rewrite Wa in Wb. injection Wb as -> _. eauto.
    + rewrite (fwalk_ext _ _ _ _ _ Wa) in Wb. destruct s0; discriminate.
  - apply below_ext in P. destruct P as [t ->]. erewrite fwalk_put_below by eassumption. eauto.
Qed.

Lemma step_ok : forall c S S' r, tstep c S S' r -> forall s G L, rep s G L -> S = vals G ->
  exists s' G', exec c s = (s', r) /\ rep s' G' L /\ S' = vals G'.
Proof.
  intros c S S' r T. destruct T as
    [i S|b S x Hb|b S x S1 Hb Hs|a b S x y S' Ha Hb Hs|a S x Ha|a b S x y S1 S' Nab Nb Ha Hb Hs1 Hs2|a S x Ha|a b S x y S1 S' Nab Nba Ha Hb Hs1 Hs2
    |a i S y S' Ha Hs|a i S y S' Ha Hs|a b S y l x0 S1 x S' Ha Al Hb Hs1 Hb1 Hs2|a b S y l x S1 y1 l1 S' Ha Al Hb Nb Hs1 Ha1 Al1 Hs2
    |a i S y l S' Ha Al Hs|c a S y Ha Na Hc|c a f S y y' r S' Hl Ha Hf Nr Hs|S1 v S2|c a b S e Hc Hf|c a b S y e Hc Ha Hf]; intros s G L H EG; try subst S.
  - (* New *) destruct (construct_ok i _ _ _ H) as (s1 & y & E1 & V & H1). destruct (push_slot_ok _ _ _ _ H1) as (s2 & E2 & H2).
    exists s2, (G ++ [Some y]). cbn [exec]. unfold seqm. rewrite E1, E2. split; [reflexivity|]. split; [assumption|]. rewrite vals_app. cbn [vals map option_map]. congruence.
  - (* NewCopy *) apply sget_walk in Hb. destruct Hb as (l & xb & W & V). cbn [exec]. unfold seqm. rewrite (locate_ok _ _ _ _ _ _ H W), (read_ok _ _ _ _ _ _ H W).
    destruct (copy_at _ _ _ _ _ _ H W) as (s1 & y & E1 & V1 & H1). rewrite E1. destruct (push_slot_ok _ _ _ _ H1) as (s2 & E2 & H2). rewrite E2.
    exists s2, (G ++ [Some y]). split; [reflexivity|]. split; [assumption|]. rewrite vals_app. cbn [vals map option_map]. congruence.
  - (* NewMove *) apply sget_walk in Hb. destruct Hb as (l & xb & W & V). cbn [exec]. unfold seqm. rewrite (locate_ok _ _ _ _ _ _ H W).
    destruct (move_from_ok _ _ _ _ _ _ H W) as (s1 & E1 & H1). rewrite E1. destruct (push_slot_ok _ _ _ _ H1) as (s2 & E2 & H2). rewrite E2.
    exists s2, (fput G b GNull ++ [Some xb]). split; [reflexivity|]. split; [assumption|]. rewrite vals_app. cbn [vals map option_map]. fold (vals (fput G b GNull)).
    rewrite (sset_to _ _ _ _ _ _ GNull W Hs eq_refl). congruence.
  - (* CopyTo *) apply sget_walk in Ha. destruct Ha as (la & xa & Wa & Va). apply sget_walk in Hb. destruct Hb as (lb & xb & Wb & Vb).
    cbn [exec]. unfold seqm. rewrite (locate_ok _ _ _ _ _ _ H Wa), (locate_ok _ _ _ _ _ _ H Wb).
    destruct (assign_copy_ok _ _ _ _ _ _ _ _ _ H Wa Wb) as (s1 & y' & E1 & V1 & H1). rewrite E1. exists s1, (fput G a y'). split; [reflexivity|]. split; [assumption|].
    eapply sset_to; [eassumption|eassumption|congruence].
  - (* MoveTo self *) apply sget_walk in Ha. destruct Ha as (la & xa & Wa & Va). cbn [exec]. unfold seqm.
    rewrite (locate_ok _ _ _ _ _ _ H Wa), (locate_ok _ _ _ _ _ _ H Wa), assign_move_self. exists s, G. auto.
  - (* MoveTo *) apply sget_walk in Ha. destruct Ha as (la & xa & Wa & Va). apply sget_walk in Hb. destruct Hb as (lb & xb & Wb & Vb).
    cbn [exec]. unfold seqm. rewrite (locate_ok _ _ _ _ _ _ H Wa), (locate_ok _ _ _ _ _ _ H Wb).
    destruct (assign_move_ok _ _ _ _ _ _ _ _ _ H Wa Wb Nb) as (s1 & E1 & H1). rewrite E1. exists s1, (fput (fput G b GNull) a xb). split; [reflexivity|]. split; [assumption|].
    rewrite (sset_to _ _ _ _ _ _ GNull Wb Hs1 eq_refl) in Hs2.
    assert (Wa' : exists l' x', fwalk (fput G b GNull) a = Some (l', x')).
    { destruct (fapart_or _ _ Nb) as [P|(t & _ & ->)].
      - rewrite fwalk_put_apart by (apply fapart_sym; assumption). eauto.
      - erewrite fwalk_put_below by eassumption. eauto. }
    destruct Wa' as (l' & x' & Wa'). eapply sset_to; [eassumption|eassumption|congruence].
  - (* Swap self *) apply sget_walk in Ha. destruct Ha as (la & xa & Wa & Va). cbn [exec]. unfold seqm.
    rewrite (locate_ok _ _ _ _ _ _ H Wa), (locate_ok _ _ _ _ _ _ H Wa), (swap_self _ _ _ _ _ _ H Wa). exists s, G. auto.
  - (* Swap *) apply sget_walk in Ha. destruct Ha as (la & xa & Wa & Va). apply sget_walk in Hb. destruct Hb as (lb & xb & Wb & Vb).
    destruct (places a b) as [P|[P|P]]; [|contradiction|contradiction].
    cbn [exec]. unfold seqm. rewrite (locate_ok _ _ _ _ _ _ H Wa), (locate_ok _ _ _ _ _ _ H Wb).
    destruct (swap_ok _ _ _ _ _ _ _ _ _ H Wa Wb P) as (s1 & E1 & H1). rewrite E1. exists s1, (fput (fput G a xb) b xa). split; [reflexivity|]. split; [assumption|].
    rewrite (sset_to _ _ _ _ _ _ xb Wa Hs1 Vb) in Hs2. rewrite <- (fwalk_put_apart G a b xb P) in Wb. eapply sset_to; [eassumption|eassumption|congruence].
  - (* SetTo *) apply sget_walk in Ha. destruct Ha as (la & xa & Wa & Va). cbn [exec]. unfold seqm. rewrite (locate_ok _ _ _ _ _ _ H Wa).
    destruct (assign_new_ok i _ _ _ _ _ _ H Wa) as (s1 & y1 & E1 & V1 & H1). rewrite E1. exists s1, (fput G a y1). split; [reflexivity|]. split; [assumption|].
    eapply sset_to; eassumption.
  - (* ReplaceBy *) apply sget_walk in Ha. destruct Ha as (la & xa & Wa & Va). cbn [exec]. unfold seqm. rewrite (locate_ok _ _ _ _ _ _ H Wa).
    destruct (replace_ok i _ _ _ _ _ _ H Wa) as (s1 & y1 & E1 & V1 & H1). rewrite E1. exists s1, (fput G a y1). split; [reflexivity|]. split; [assumption|].
    eapply sset_to; eassumption.
  - (* PushCopy *) apply sget_walk in Ha. destruct Ha as (la & xa & Wa & Va). apply sget_walk in Hb. destruct Hb as (lb & xb & Wb & Vb). rewrite <- Va in Al.
    destruct (push_head _ _ _ _ _ _ _ H Wa Al) as (s1 & q & g & gl & -> & Xa & H1 & E1).
    cbn [exec]. unfold seqm at 1 2 3. rewrite (locate_ok _ _ _ _ _ _ H Wa), (locate_ok _ _ _ _ _ _ H Wb), E1.
    rewrite (sset_to _ _ _ _ _ _ (GArr q g gl) Wa Hs1 eq_refl) in *. clear Hs1.
    destruct (fwalk_settle _ _ _ _ _ _ _ q g gl Wa Wb Xa) as (xb' & Wb').
    apply sget_walk in Hb1. destruct Hb1 as (lb2 & xb2 & Wb2 & Vb2). rewrite Wb' in Wb2. injection Wb2 as E2 E3. subst lb2 xb2.
    unfold seqm. rewrite (read_ok _ _ _ _ _ _ H1 Wb'). destruct (copy_at _ _ _ _ _ _ H1 Wb') as (s2 & y2 & E2 & V2 & H2). rewrite E2.
    pose proof (fwalk_put_same _ _ (GArr q g gl) _ _ Wa) as Wa'.
    destruct (push_tail_ok _ _ _ _ _ _ _ _ _ H2 Wa') as (s3 & E3 & H3). rewrite E3. eexists _, _. split; [reflexivity|]. split; [exact H3|].
    eapply sset_to; [eassumption|eassumption|]. cbn [val_of]. rewrite map_app. cbn [map]. congruence.
  - (* PushMove *) apply sget_walk in Ha. destruct Ha as (la & xa & Wa & Va). apply sget_walk in Hb. destruct Hb as (lb & xb & Wb & Vb). rewrite <- Va in Al.
    destruct (push_head _ _ _ _ _ _ _ H Wa Al) as (s1 & q & g & gl & -> & Xa & H1 & E1).
    cbn [exec]. unfold seqm at 1 2 3. rewrite (locate_ok _ _ _ _ _ _ H Wa), (locate_ok _ _ _ _ _ _ H Wb), E1.
    rewrite (sset_to _ _ _ _ _ _ GNull Wb Hs1 eq_refl) in *. clear Hs1.
    assert (K : exists gl1, l1 = map val_of gl1 /\ fwalk (fput (fput G a (GArr q g gl)) b GNull) a = Some (la, GArr q g gl1) /\
                fwalk (fput G a (GArr q g gl)) b = Some (lb, xb) /\
                (exists l' x', fwalk (fput G b GNull) a = Some (l', x')) /\
                forall z, fput (fput (fput G a (GArr q g gl)) b GNull) a z = fput (fput G b GNull) a z).
    { destruct (fapart_or _ _ Nb) as [P|(t & Nt & ->)].
      - exists gl. assert (Wa1 : fwalk (fput G b GNull) a = Some (la, xa)) by (rewrite fwalk_put_apart by (apply fapart_sym; assumption); assumption).
        split.
        + apply sget_walk in Ha1. destruct Ha1 as (l2 & x2 & W2 & V2). rewrite Wa1 in W2. injection W2 as _ <-. rewrite V2 in Al.
          clear -Al Al1. inversion Al; subst; inversion Al1; subst; congruence.
        + split; [rewrite fwalk_put_apart by (apply fapart_sym; assumption); apply (fwalk_put_same _ _ _ _ _ Wa)|].
          split; [rewrite fwalk_put_apart by assumption; assumption|]. split; [eauto|]. intro z.
          rewrite (fput_fput_apart _ _ _ _ _ P). eapply fput_fput_same. eassumption.
      - destruct Xa as [->| ->].
        + rewrite (fwalk_ext _ _ _ _ _ Wa) in Wb. destruct t as [|s0 t]; [congruence|]. destruct s0; discriminate.
        + rewrite (fput_same _ _ _ _ Wa). pose proof (fwalk_put_below G a t GNull _ _ Wa) as Wa1.
          assert (X : exists gl1, gput t GNull (GArr q g gl) = GArr q g gl1).
          { destruct t as [|[i|k] t]; [congruence| |]; cbn [gput]; [|eauto]. destruct (nth_error gl (N.to_nat i)); eauto. }
          destruct X as (gl1 & X). rewrite X in Wa1. exists gl1. split.
          * apply sget_walk in Ha1. destruct Ha1 as (l2 & x2 & W2 & V2). rewrite Wa1 in W2. injection W2 as _ <-. rewrite <- V2 in Al1. inversion Al1. reflexivity.
          * split; [assumption|]. split; [assumption|]. split; [eauto|reflexivity]. }
    destruct K as (gl1 & -> & K1 & K2 & (l' & x' & K3) & K4).
    destruct (move_from_ok _ _ _ _ _ _ H1 K2) as (s2 & E2 & H2). unfold seqm. rewrite E2.
    destruct (push_tail_ok _ _ _ _ _ _ _ _ _ H2 K1) as (s3 & E3 & H3). rewrite E3. eexists _, _. split; [reflexivity|]. rewrite K4 in H3. split; [exact H3|].
    eapply sset_to; [eassumption|eassumption|]. cbn [val_of]. rewrite map_app. cbn [map]. congruence.
  - (* PushNew *) apply sget_walk in Ha. destruct Ha as (la & xa & Wa & Va). rewrite <- Va in Al.
    cbn [exec]. unfold seqm at 1. rewrite (locate_ok _ _ _ _ _ _ H Wa). unfold seqm at 1.
    destruct (construct_ok i _ _ _ H) as (s1 & z & E1 & V1 & H1). rewrite E1. unfold seqm at 1.
    destruct (with_temp_ok unit (fun t => push_back la (move_from t)) s1 G L z (Ret tt) (fun G' L' => S' = vals G' /\ L' = L) Logic.I H1) as (s' & G' & L' & E2 & H2 & Q & ->).
    + intros s2 H2. pose proof (fwalk_grow _ [Some z] _ _ _ Wa) as Wa2.
      destruct (push_head _ _ _ _ _ _ _ H2 Wa2 Al) as (s3 & q & g & gl & -> & Xa & H3 & E3). rewrite E3.
      pose proof (new_apart _ _ [] _ _ Wa) as P.
      assert (Wt : fwalk (fput (G ++ [Some z]) a (GArr q g gl)) (length G, []) = Some (LSlot (length G), z)) by (rewrite fwalk_put_apart by assumption; apply last_slot).
      destruct (move_from_ok _ _ _ _ _ _ H3 Wt) as (s4 & E4 & H4). unfold seqm. rewrite E4.
      assert (Wa4 : fwalk (fput (fput (G ++ [Some z]) a (GArr q g gl)) (length G, []) GNull) a = Some (la, GArr q g gl)).
      { rewrite fwalk_put_apart by (apply fapart_sym; assumption). eapply fwalk_put_same. eassumption. }
      destruct (push_tail_ok _ _ _ _ _ _ _ _ _ H4 Wa4) as (s5 & E5 & H5). rewrite E5.
      rewrite (fput_fput_apart _ _ _ _ _ (fapart_sym _ _ P)) in H5. rewrite (fput_fput_same _ _ _ _ _ _ Wa2) in H5.
      rewrite (fput_grow _ _ _ _ _ _ Wa) in H5. rewrite <- (length_fput G a (GArr q (Datatypes.S g) (gl ++ [z]))) in H5. rewrite fput_new in H5. cbn [gput] in H5.
      eexists _, _, _, _. split; [reflexivity|]. split; [exact H5|]. split; [|reflexivity].
      eapply sset_to; [eassumption|eassumption|]. cbn [val_of]. rewrite map_app. cbn [map]. congruence.
    + rewrite E2. exists s', G'. auto.
  - (* push on a non-array *) apply sget_walk in Ha. destruct Ha as (la & xa & Wa & Va). rewrite <- Va in Na.
    destruct Hc as [(b & x & [-> | ->] & Hb)|[i ->]].
    + apply sget_walk in Hb. destruct Hb as (lb & xb & Wb & Vb). cbn [exec]. unfold seqm at 1 2 3.
      rewrite (locate_ok _ _ _ _ _ _ H Wa), (locate_ok _ _ _ _ _ _ H Wb), (push_bad _ _ _ _ _ _ _ H Wa Na). exists s, G. auto.
    + apply sget_walk in Hb. destruct Hb as (lb & xb & Wb & Vb). cbn [exec]. unfold seqm at 1 2 3.
      rewrite (locate_ok _ _ _ _ _ _ H Wa), (locate_ok _ _ _ _ _ _ H Wb), (push_bad _ _ _ _ _ _ _ H Wa Na). exists s, G. auto.
    + cbn [exec]. unfold seqm at 1. rewrite (locate_ok _ _ _ _ _ _ H Wa). unfold seqm at 1.
      destruct (construct_ok i _ _ _ H) as (s1 & z & E1 & V1 & H1). rewrite E1. unfold seqm at 1.
      destruct (with_temp_ok unit (fun t => push_back la (move_from t)) s1 G L z (Throw push_error) (fun G' L' => G' = G /\ L' = L) Logic.I H1) as (s' & G' & L' & E2 & H2 & -> & ->).
      * intros s2 H2. rewrite (push_bad _ _ _ _ _ _ _ H2 (fwalk_grow _ _ _ _ _ Wa) Na). exists s2, G, z, L. auto.
      * rewrite E2. exists s', G. auto.
  - (* local *) apply sget_walk in Ha. destruct Ha as (la & xa & Wa & Va). rewrite <- Va in Hf.
    assert (K : exists s' z, exec c s = (s', r) /\ val_of z = y' /\ rep s' (fput G a z) L).
    { destruct c as [| | | | | | | | | | |a0 [i|k]|a0 k|a0 i|a0|]; cbn [local] in Hl; try discriminate; injection Hl as <- <-; cbn [exec];
        unfold seqm at 1; rewrite (locate_ok _ _ _ _ _ _ H Wa).
      - exact (sub_idx_ok _ _ _ _ _ _ _ _ _ H Wa Hf Nr).
      - exact (sub_key_ok _ _ _ _ _ _ _ _ _ H Wa Hf).
      - exact (erase_key_ok _ _ _ _ _ _ _ _ _ H Wa Hf).
      - exact (erase_idx_ok _ _ _ _ _ _ _ _ _ H Wa Hf Nr).
      - cbn [run_op] in Hf. injection Hf as <- <-. exact (clear_ok _ _ _ _ _ _ H Wa). }
    destruct K as (s' & z & E & V & H1). exists s', (fput G a z). split; [assumption|]. split; [assumption|]. eapply sset_to; eassumption.
  - (* End *) assert (X : exists G1 g G2, G = G1 ++ Some g :: G2 /\ vals G1 = S1 /\ vals G2 = S2).
    { clear H. revert G EG. induction S1 as [|v1 S1 IH]; intros [|g G] EG; cbn [app vals map] in EG; try discriminate.
      - injection EG as E1 E2. destruct g as [g|]; [|discriminate]. exists [], g, G. auto.
      - injection EG as E1 E2. destruct (IH _ E2) as (G1 & g1 & G2 & -> & E3 & E4). exists (g :: G1), g1, G2. split; [reflexivity|]. split; [|assumption].
        cbn [vals map]. fold (vals G1). congruence. }
    destruct X as (G1 & g & G2 & -> & <- & <-). destruct (end_ok _ _ _ _ _ H) as (s1 & E1 & H1).
    cbn [exec]. unfold seqm. unfold vals at 1. rewrite map_length, E1. exists s1, (G1 ++ None :: G2). split; [reflexivity|]. split; [assumption|].
    rewrite vals_app. reflexivity.
  - (* first place fails *) pose proof (locate_bad _ _ _ _ _ H Hf) as E. exists s, G. split; [|auto].
    destruct c; cbn [two one] in Hc; destruct Hc as [Hc|Hc]; try discriminate; injection Hc as Hc; try (destruct Hc); subst; cbn [exec]; unfold seqm at 1; rewrite E; reflexivity.
  - (* second place fails *) apply sget_walk in Ha. destruct Ha as (la & xa & Wa & Va).
    pose proof (locate_ok _ _ _ _ _ _ H Wa) as E0. pose proof (locate_bad _ _ _ _ _ H Hf) as E. exists s, G. split; [|auto].
    destruct c; cbn [two] in Hc; try discriminate; injection Hc as E1 E2; subst; cbn [exec]; unfold seqm at 1; rewrite E0; unfold seqm at 1; rewrite E; reflexivity.
Qed.
