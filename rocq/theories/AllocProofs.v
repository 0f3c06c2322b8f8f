(** Every command either does what the trees say or runs out of memory and
    leaves what SpecAlloc says. *)
From Coq Require Import Lia Permutation Arith.
From Verif Require Import Base Value ValueOps ObjFacts ValueProofs Heap SpecHeap HeapGhost HeapPaths HeapOps HeapProofs Alloc SpecAlloc AllocRules.
Open Scope nat_scope.

(** lost: at most n blocks; the variables are those of G *)
Definition leak (G : forest) (L : list gt) (n : nat) (s : hstate) : Prop := exists K, length K <= n /\ rep s G (map raw K ++ L).

Lemma leak_none : forall s G L n, rep s G L -> leak G L n s.
Proof. intros s G L n H. exists []. split; [cbn; lia|exact H]. Qed.
Lemma leak_mono : forall s G L n m, n <= m -> leak G L n s -> leak G L m s.
Proof. intros s G L n m N (K & A & H). exists K. split; [lia|exact H]. Qed.

Lemma lblocks_raw : forall K L, lblocks (map raw K ++ L) = raws K ++ lblocks L.
Proof. intros K L. unfold lblocks, raws. rewrite flat_map_app. f_equal. induction K as [|k K IH]; cbn; [reflexivity|]. f_equal. exact IH. Qed.

Lemma lost_leak : forall s G L n s', rep s G L -> lost s (fblocks G ++ lblocks L) n s' -> leak G L n s'.
Proof.
  intros s G L n s' [E H] (K & A & E' & H'). exists K. split; [exact A|]. split; [congruence|]. eapply heap_is_perm; [|exact H'].
  rewrite lblocks_raw. psolve.
Qed.

Definition built (G : forest) (L : list gt) (v : value) (s : hstate) (c : cell) : Prop := exists y, c = cell_of y /\ val_of y = v /\ rep s G (y :: L).

Lemma made_built : forall s G L v s' c, rep s G L -> made s (fblocks G ++ lblocks L) v s' c -> built G L v s' c.
Proof.
  intros s G L v s' c [E H] (y & -> & V & E' & H'). exists y. split; [reflexivity|]. split; [exact V|]. split; [congruence|]. eapply heap_is_perm; [|exact H'].
  cbn [lblocks flat_map]. fold (lblocks L). psolve.
Qed.

Lemma fcopy_at : forall s pl G L a l x, rep s G L -> fwalk G a = Some (l, x) ->
  outF (fcopy_cell (cell_of x)) s pl (built G L (val_of x)) (leak G L (height (val_of x))).
Proof.
  intros s pl G L a l x H W. destruct (focus _ _ _ _ W) as (R & P & _). pose proof H as [E Hh].
  eapply out_weak; [apply (fcopy_cell_ok x s pl _ (R ++ lblocks L) Hh); rewrite P; psolve| |].
  - intros s' c. apply made_built. assumption.
  - intros s'. apply lost_leak. assumption.
Qed.

Definition ilost (i : init) : nat := match i with IStr _ => 1 | _ => 0 end.

Lemma fconstruct_ok : forall i s pl G L, rep s G L -> outF (fconstruct i) s pl (built G L (init_value i)) (leak G L (ilost i)).
Proof.
  intros i s pl G L H. pose proof H as [E Hh].
  assert (K : forall j, fconstruct j = lift (construct j) -> outF (fconstruct j) s pl (built G L (init_value j)) (leak G L (ilost j))).
  { intros j Ej. rewrite Ej. destruct (construct_ok j _ _ _ H) as (s1 & y & E1 & V & H1). eapply out_lift; [exact E1|]. exists y. auto. }
  destruct i; try (apply K; reflexivity); cbn [fconstruct].
  - eapply out_seq; [eapply out_weak; [apply (fcreate_text s0 s pl _ Hh)| |]|].
    + intros s' p X. exact X.
    + intros s' X. apply (lost_leak s); assumption.
    + intros s' p pl' [E1 H1]. apply out_ret. apply (made_built s); [assumption|]. exists (GStr p s0). auto.
  - eapply out_seq; [eapply out_weak; [apply (fcreate_now (BArr 0 []) s pl _ Hh)| |]|].
    + intros s' p X. exact X.
    + intros s' X. apply (lost_leak s); assumption.
    + intros s' p pl' [E1 H1]. apply out_ret. apply (made_built s); [assumption|]. exists (GArr p 0 []). auto.
  - eapply out_seq; [eapply out_weak; [apply (fcreate_now (BObj []) s pl _ Hh)| |]|].
    + intros s' p X. exact X.
    + intros s' X. apply (lost_leak s); assumption.
    + intros s' p pl' [E1 H1]. apply out_ret. apply (made_built s); [assumption|]. exists (GObj p []). auto.
Qed.

(** ** Temporaries *)
Lemma ftemp_ok : forall A (m : loc -> F A) s pl G L y (Q : A -> forest -> Prop) (R : forest -> list gt -> Prop), rep s G (y :: L) ->
  (forall s1, rep s1 (G ++ [Some y]) L -> outF (m (LSlot (length G))) s1 pl (fun s2 a => exists G' y', rep s2 (G' ++ [Some y']) L /\ Q a G')
     (fun s2 => exists G' y' L', rep s2 (G' ++ [Some y']) L' /\ R G' L')) ->
  outF (ftemp (cell_of y) m) s pl (fun s' a => exists G', rep s' G' L /\ Q a G') (fun s' => exists G' L', rep s' G' L' /\ R G' L').
Proof.
  intros A m s pl G L y Q R H Hm. unfold ftemp. destruct (push_slot_ok _ _ _ _ H) as (s1 & E1 & H1). eapply out_step; [exact E1|].
  eapply out_finally; [apply (Hm s1 H1)| |].
  - intros s2 a (G' & y' & H2 & HQ). destruct (pop_slot_ok _ _ _ _ H2) as (s3 & E3 & H3). exists s3. split; [exact E3|]. exists G'. auto.
  - intros s2 (G' & y' & L' & H2 & HQ). destruct (pop_slot_ok _ _ _ _ H2) as (s3 & E3 & H3). exists s3. split; [exact E3|]. exists G', L'. auto.
Qed.

Definition put (G : forest) (L : list gt) (a : place) (v : value) (s : hstate) : Prop := exists y, val_of y = v /\ rep s (fput G a y) L.

Lemma fassign_copy_ok : forall s pl G L a b la lb x y, rep s G L -> fwalk G a = Some (la, x) -> fwalk G b = Some (lb, y) ->
  outF (fassign_copy la lb) s pl (fun s' _ => put G L a (val_of y) s') (leak G L (height (val_of y))).
Proof.
  intros s pl G L a b la lb x y H Wa Wb. unfold fassign_copy.
  destruct (loc_eqb la lb) eqn:E.
  - apply loc_eqb_iff in E. subst lb. apply out_ret. exists x. rewrite (fput_same _ _ _ _ Wa). split; [|assumption].
    destruct (place_dec a b) as [<-|D]; [congruence|]. exfalso. apply (loc_diff _ _ _ _ _ _ _ _ _ H Wa Wb D). reflexivity.
  - eapply out_step; [apply (read_ok _ _ _ _ _ _ H Wb)|]. eapply out_seq; [apply (fcopy_at _ _ _ _ _ _ _ H Wb)|].
    intros s1 c pl1 (y' & -> & V & H1).
    eapply out_weak; [apply (ftemp_ok unit (fun t => lift (swap la t)) s1 pl1 G L y' (fun _ G' => G' = fput G a y') (fun _ _ => False) H1)| |].
    + intros s2 H2. destruct (swap_ok _ _ _ a (length G, []) _ _ _ _ H2 (fwalk_grow _ _ _ _ _ Wa) (last_slot G y') (new_apart _ _ _ _ _ Wa)) as (s3 & E3 & H3).
      rewrite (fput_grow _ _ _ _ _ _ Wa) in H3. rewrite <- (length_fput G a y') in H3. rewrite fput_new in H3.
      eapply out_lift; [exact E3|]. exists (fput G a y'), x. auto.
    + intros s' u (G' & H' & ->). exists y'. auto.
    + intros s' (G' & L' & _ & []).
Qed.

Lemma fassign_new_ok : forall i s pl G L a la x, rep s G L -> fwalk G a = Some (la, x) ->
  outF (fassign_new la i) s pl (fun s' _ => put G L a (init_value i) s') (leak G L (ilost i)).
Proof.
  intros i s pl G L a la x H Wa. unfold fassign_new. eapply out_seq; [apply (fconstruct_ok i _ _ _ _ H)|].
  intros s1 c pl1 (y & -> & V & H1).
  eapply out_weak; [apply (ftemp_ok unit (fun t => lift (assign_move la t)) s1 pl1 G L y (fun _ G' => G' = fput G a y) (fun _ _ => False) H1)| |].
  - intros s2 H2. pose proof (new_apart _ _ [] _ _ Wa) as P.
    destruct (assign_move_ok _ _ _ a (length G, []) _ _ _ _ H2 (fwalk_grow _ _ _ _ _ Wa) (last_slot G y)) as (s3 & E3 & H3).
    { apply fapart_not_below. apply fapart_sym. assumption. }
    eapply out_lift; [exact E3|]. exists (fput G a y), GNull. split; [|reflexivity]. rewrite fput_new in H3. cbn [gput] in H3.
    rewrite (fput_grow _ _ _ _ _ _ Wa) in H3. exact H3.
  - intros s' u (G' & H' & ->). exists y. auto.
  - intros s' (G' & L' & _ & []).
Qed.

(** ** Subscripts *)
Definition fsub_tail (a : loc) (s : sel) : F loc :=
  let! c <- lift (read_loc a);
  match s with
  | Idx i =>
      match c_ty c with
      | TArray =>
          let! p <- lift (ptr_of c);
          let! b <- lift (get_block p);
          match b with
          | BArr g l =>
              if (len l <=? i)%N then
                let l' := l ++ repeat null_cell (N.to_nat (u64 (i + 18446744073709551616 - len l + 1))) in
                let! _ <- alloc;
                let! _ <- lift (set_block p (BArr (S g) l'));
                match nth_error l' (N.to_nat i) with Some _ => fret (LElem p (S g) (N.to_nat i)) | None => lift (fail UB) end
              else fret (LElem p g (N.to_nat i))
          | _ => lift (fail UB)
          end
      | _ => lift (fail (Throw (EKey "operator[] called on a non-array object")))
      end
  | Key k =>
      match c_ty c with
      | TObject =>
          let! p <- lift (ptr_of c);
          let! b <- lift (get_block p);
          match b with
          | BObj m =>
              let! _ <- match obj_find k m with Some _ => fret tt | None => let! _ <- alloc; alloc end;
              let! _ <- lift (set_block p (BObj (obj_emplace k null_cell m)));
              fret (LMember p k)
          | _ => lift (fail UB)
          end
      | _ => lift (fail (Throw (EKey "operator[] called on a non-object type")))
      end
  end.

Lemma fsub_loc_eq : forall a s, fsub_loc a s =
  (let! c <- lift (read_loc a);
   let! _ <- match c_ty c with TNull => fassign_new a (match s with Idx _ => IArr | Key _ => IObj end) | _ => fret tt end;
   fsub_tail a s).
Proof. reflexivity. Qed.

Lemma fsub_tail_idx : forall s pl G L a la q n xs i y r, rep s G L -> fwalk G a = Some (la, GArr q n xs) ->
  via_idx i idf (VArr (map val_of xs)) = (y, r) -> r <> UB ->
  r = Ret RUnit /\ outF (fsub_tail la (Idx i)) s pl (fun s' l => exists z, val_of z = y /\ rep s' (fput G a z) L /\
     exists x, fwalk (fput G a z) (ext a [Idx i]) = Some (l, x)) (fun s' => rep s' G L).
Proof.
  intros s pl G L a la q n xs i y r H W V N. cbn [via_idx] in V. rewrite len_map in V.
  assert (Hl : forall g ys x, nth_error ys (N.to_nat i) = Some x -> exists x', fwalk (fput G a (GArr q g ys)) (ext a [Idx i]) = Some (LElem q g (N.to_nat i), x')).
  { intros g ys x Ex. rewrite (fwalk_put_above _ _ _ _ _ _ W). cbn [walk]. rewrite Ex. eauto. }
  destruct (len xs <=? i)%N eqn:Ei.
  - set (k := N.to_nat (u64 (i + 18446744073709551616 - len xs + 1))) in *.
    apply in_elem_id in V; [|assumption]. destruct V as (-> & -> & x & Ex). split; [reflexivity|].
    unfold fsub_tail. eapply out_step; [apply (read_ok _ _ _ _ _ _ H W)|]. cbn [cell_of c_ty]. eapply out_step; [reflexivity|].
    eapply out_step; [apply (get_at _ _ _ _ _ _ _ _ _ H W eq_refl)|]. cbv beta iota. rewrite len_map, Ei. fold k. clearbody k. cbv zeta.
    eapply out_seq with (ok1 := fun s' _ => s' = s); [apply out_alloc; [reflexivity|assumption]|]. intros s' u pl' ->.
    change null_cell with (cell_of GNull). rewrite <- map_repeat', <- map_app.
    change VNull with (val_of GNull) in *. rewrite <- map_repeat', <- map_app in *.
    rewrite nth_error_map in *. destruct (nth_error (xs ++ repeat GNull k) (N.to_nat i)) as [c|] eqn:Ec; [|discriminate]. cbn [option_map].
    destruct (refocus s G L a la (GArr q n xs) q (BArr n (map cell_of xs)) (BArr (S n) (map cell_of (xs ++ repeat GNull k)))
      (flat_map blocks xs) (flat_map blocks xs) (GArr q (S n) (xs ++ repeat GNull k)) L H W eq_refl) as [E1 H1].
    + cbn [blocks]. rewrite flat_map_app, blocks_nulls, app_nil_r. reflexivity.
    + reflexivity.
    + apply Permutation_refl.
    + eapply out_step; [exact E1|]. apply out_ret. eexists. split; [|split; [exact H1|]]; [reflexivity|]. eapply Hl. exact Ec.
  - apply in_elem_id in V; [|assumption]. destruct V as (-> & -> & x & Ex). split; [reflexivity|].
    unfold fsub_tail. eapply out_step; [apply (read_ok _ _ _ _ _ _ H W)|]. cbn [cell_of c_ty]. eapply out_step; [reflexivity|].
    eapply out_step; [apply (get_at _ _ _ _ _ _ _ _ _ H W eq_refl)|]. cbv beta iota. rewrite len_map, Ei.
    apply out_ret. exists (GArr q n xs). split; [reflexivity|]. rewrite nth_error_map in Ex. destruct (nth_error xs (N.to_nat i)) eqn:Ec; [|discriminate].
    split; [|eapply Hl; exact Ec]. rewrite (fput_same _ _ _ _ W). assumption.
Qed.

Lemma find_emplaced : forall A k (y : A) m, exists x, obj_find k (obj_emplace k y m) = Some x.
Proof.
  intros A k y m. induction m as [|[k' x'] m [x IH]]; cbn [obj_emplace]; [cbn [obj_find]; rewrite str_eqb_refl; eauto|].
  destruct (str_ltb k k'); [cbn [obj_find]; rewrite str_eqb_refl; eauto|]. destruct (str_eqb k k') eqn:E; cbn [obj_find]; rewrite E; eauto.
Qed.

Lemma fsub_tail_key : forall s pl G L a la q m k, rep s G L -> fwalk G a = Some (la, GObj q m) ->
  outF (fsub_tail la (Key k)) s pl (fun s' l => exists z, val_of z = VObj (obj_emplace k VNull (vmap val_of m)) /\ rep s' (fput G a z) L /\
     exists x, fwalk (fput G a z) (ext a [Key k]) = Some (l, x)) (fun s' => rep s' G L).
Proof.
  intros s pl G L a la q m k H W.
  unfold fsub_tail. eapply out_step; [apply (read_ok _ _ _ _ _ _ H W)|]. cbn [cell_of c_ty]. eapply out_step; [reflexivity|].
  eapply out_step; [apply (get_at _ _ _ _ _ _ _ _ _ H W eq_refl)|]. cbv beta iota.
  eapply out_seq with (ok1 := fun s' _ => s' = s).
  { destruct (obj_find k (vmap cell_of m)); [apply out_ret; reflexivity|].
    eapply out_seq with (ok1 := fun s' _ => s' = s); [apply out_alloc; [reflexivity|assumption]|]. intros s' u pl' ->. apply out_alloc; [reflexivity|assumption]. }
  intros s' u pl' ->. change null_cell with (cell_of GNull). rewrite emplace_vmap.
  destruct (refocus s G L a la (GObj q m) q (BObj (vmap cell_of m)) (BObj (vmap cell_of (obj_emplace k GNull m)))
    (flat_map (fun kx => blocks (snd kx)) m) (flat_map (fun kx => blocks (snd kx)) (obj_emplace k GNull m)) (GObj q (obj_emplace k GNull m)) L H W eq_refl eq_refl eq_refl) as [E1 H1].
  - apply Permutation_app_tail. apply Permutation_sym. apply snd_emplace.
  - eapply out_step; [exact E1|]. apply out_ret. eexists. split; [|split; [exact H1|]].
    + rewrite val_obj. change VNull with (val_of GNull). rewrite emplace_vmap. reflexivity.
    + rewrite (fwalk_put_above _ _ _ _ _ _ W). cbn [walk]. destruct (find_emplaced gt k GNull m) as [x ->]. eauto.
Qed.

(** a null that became an empty array or object *)
Definition opened (G : forest) (L : list gt) (a : place) (x : gt) (v : value) (s : hstate) : Prop :=
  rep s G L \/ (x = GNull /\ put G L a v s).

Lemma fsub_idx_ok : forall s pl G L a la x i y r, rep s G L -> fwalk G a = Some (la, x) -> via_idx i idf (val_of x) = (y, r) -> r <> UB ->
  (r = Ret RUnit /\ outF (fsub_loc la (Idx i)) s pl (fun s' l => exists z, val_of z = y /\ rep s' (fput G a z) L /\
     exists x', fwalk (fput G a z) (ext a [Idx i]) = Some (l, x')) (opened G L a x (VArr []))) \/
  (exists e, r = Throw e /\ y = val_of x /\ fsub_loc la (Idx i) (s, pl) = ((s, pl), Throw e)).
Proof.
  intros s pl G L a la x i y r H W V N.
  assert (Hthrow : forall msg, (y, r) = (val_of x, Throw (EKey msg)) -> fsub_loc la (Idx i) (s, pl) = ((s, pl), Throw (EKey msg)) ->
    exists e, r = Throw e /\ y = val_of x /\ fsub_loc la (Idx i) (s, pl) = ((s, pl), Throw e)).
  { intros msg X E. injection X as -> ->. eauto. }
  assert (Hbad : c_ty (cell_of x) <> TNull -> c_ty (cell_of x) <> TArray -> fsub_loc la (Idx i) (s, pl) = ((s, pl), Throw (EKey "operator[] called on a non-array object"))).
  { intros N1 N2. rewrite fsub_loc_eq, (lift_seq _ _ _ _ _ _ _ _ (read_ok _ _ _ _ _ _ H W)). unfold fseq at 1.
    destruct x; cbn [cell_of c_ty] in *; try congruence; cbn [fret]; unfold fsub_tail; rewrite (lift_seq _ _ _ _ _ _ _ _ (read_ok _ _ _ _ _ _ H W)); reflexivity. }
  destruct x as [|b|z|f|q t|q n xs|q m]; cbn [cell_of c_ty] in *.
  - left. rewrite fsub_loc_eq. cbn [val_of] in V. change (via_idx i idf VNull) with (via_idx i idf (VArr [])) in V.
    assert (R : r = Ret RUnit).
    { cbn [via_idx] in V. destruct (len ([] : list value) <=? i)%N; apply in_elem_id in V; try assumption; apply V. }
    split; [assumption|]. eapply out_step; [apply (read_ok _ _ _ _ _ _ H W)|]. cbn [cell_of c_ty].
    eapply out_seq; [eapply out_weak; [apply (fassign_new_ok IArr s pl _ _ _ _ _ H W)| |]|].
    + intros s' u X. exact X.
    + intros s' (K & LK & H'). left. destruct K; [exact H'|cbn in LK; lia].
    + intros s1 u pl1 (z & Vz & H1). cbn [init_value] in Vz. apply gt_arr in Vz. destruct Vz as (q & n & xs & -> & Ex). destruct xs; [|discriminate].
      pose proof (fwalk_put_same _ _ (GArr q n []) _ _ W) as W1.
      destruct (fsub_tail_idx s1 pl1 _ _ _ _ _ _ _ i y r H1 W1 V N) as (_ & O). eapply out_weak; [exact O| |].
      * intros s2 l (z & Vz & H2 & x' & Wx). rewrite (fput_fput_same _ _ _ _ _ _ W) in *. exists z. eauto.
      * intros s2 H2. right. split; [reflexivity|]. exists (GArr q n []). auto.
  - right. injection V as <- <-. eexists. split; [reflexivity|]. split; [reflexivity|]. apply Hbad; discriminate.
  - right. injection V as <- <-. eexists. split; [reflexivity|]. split; [reflexivity|]. apply Hbad; discriminate.
  - right. injection V as <- <-. eexists. split; [reflexivity|]. split; [reflexivity|]. apply Hbad; discriminate.
  - right. injection V as <- <-. eexists. split; [reflexivity|]. split; [reflexivity|]. apply Hbad; discriminate.
  - left. cbn [val_of] in V. destruct (fsub_tail_idx s pl _ _ _ _ _ _ _ i y r H W V N) as (R & O). split; [assumption|]. rewrite fsub_loc_eq.
    eapply out_step; [apply (read_ok _ _ _ _ _ _ H W)|]. cbn [cell_of c_ty].
    eapply out_seq with (ok1 := fun s' _ => s' = s); [apply out_ret; reflexivity|]. intros s' u pl' ->.
    destruct (fsub_tail_idx s pl' _ _ _ _ _ _ _ i y r H W V N) as (_ & O'). eapply out_weak; [exact O'|auto|]. intros s' H'. left. assumption.
  - right. injection V as <- <-. eexists. split; [reflexivity|]. split; [reflexivity|]. apply Hbad; discriminate.
Qed.

Lemma fsub_key_ok : forall s pl G L a la x k y r, rep s G L -> fwalk G a = Some (la, x) -> touch k (val_of x) = (y, r) ->
  (r = Ret RUnit /\ outF (fsub_loc la (Key k)) s pl (fun s' l => exists z, val_of z = y /\ rep s' (fput G a z) L /\
     exists x', fwalk (fput G a z) (ext a [Key k]) = Some (l, x')) (opened G L a x (VObj []))) \/
  (exists e, r = Throw e /\ y = val_of x /\ fsub_loc la (Key k) (s, pl) = ((s, pl), Throw e)).
Proof.
  intros s pl G L a la x k y r H W V.
  assert (Hbad : c_ty (cell_of x) <> TNull -> c_ty (cell_of x) <> TObject -> fsub_loc la (Key k) (s, pl) = ((s, pl), Throw (EKey "operator[] called on a non-object type"))).
  { intros N1 N2. rewrite fsub_loc_eq, (lift_seq _ _ _ _ _ _ _ _ (read_ok _ _ _ _ _ _ H W)). unfold fseq at 1.
    destruct x; cbn [cell_of c_ty] in *; try congruence; cbn [fret]; unfold fsub_tail; rewrite (lift_seq _ _ _ _ _ _ _ _ (read_ok _ _ _ _ _ _ H W)); reflexivity. }
  destruct x as [|b|z|f|q t|q n xs|q m]; cbn [cell_of c_ty] in *.
  - left. rewrite fsub_loc_eq. cbn [val_of touch] in V. injection V as <- <-.
    split; [reflexivity|]. eapply out_step; [apply (read_ok _ _ _ _ _ _ H W)|]. cbn [cell_of c_ty].
    eapply out_seq; [eapply out_weak; [apply (fassign_new_ok IObj s pl _ _ _ _ _ H W)| |]|].
    + intros s' u X. exact X.
    + intros s' (K & LK & H'). left. destruct K; [exact H'|cbn in LK; lia].
    + intros s1 u pl1 (z & Vz & H1). cbn [init_value] in Vz. apply gt_obj in Vz. destruct Vz as (q & xs & -> & Ex). destruct xs; [|discriminate].
      pose proof (fwalk_put_same _ _ (GObj q []) _ _ W) as W1.
      eapply out_weak; [apply (fsub_tail_key s1 pl1 _ _ _ _ _ _ k H1 W1)| |].
      * intros s2 l (z & Vz & H2 & x' & Wx). rewrite (fput_fput_same _ _ _ _ _ _ W) in *. exists z. eauto.
      * intros s2 H2. right. split; [reflexivity|]. exists (GObj q []). auto.
  - right. injection V as <- <-. eexists. split; [reflexivity|]. split; [reflexivity|]. apply Hbad; discriminate.
  - right. injection V as <- <-. eexists. split; [reflexivity|]. split; [reflexivity|]. apply Hbad; discriminate.
  - right. injection V as <- <-. eexists. split; [reflexivity|]. split; [reflexivity|]. apply Hbad; discriminate.
  - right. injection V as <- <-. eexists. split; [reflexivity|]. split; [reflexivity|]. apply Hbad; discriminate.
  - right. injection V as <- <-. eexists. split; [reflexivity|]. split; [reflexivity|]. apply Hbad; discriminate.
  - left. rewrite val_obj in V. cbn [touch] in V. injection V as <- <-. split; [reflexivity|]. rewrite fsub_loc_eq.
    eapply out_step; [apply (read_ok _ _ _ _ _ _ H W)|]. cbn [cell_of c_ty].
    eapply out_seq with (ok1 := fun s' _ => s' = s); [apply out_ret; reflexivity|]. intros s' u pl' ->.
    eapply out_weak; [apply (fsub_tail_key s pl' _ _ _ _ _ _ k H W)|auto|]. intros s' H'. left. assumption.
Qed.

(** ** push_back *)
Lemma fpush_ok : forall s pl G L a la x l arg (ok bad : hstate -> Prop), rep s G L -> fwalk G a = Some (la, x) -> as_array (val_of x) l ->
  (forall s' q g gl, l = map val_of gl -> (x = GNull \/ x = GArr q g gl) -> rep s' (fput G a (GArr q g gl)) L -> bad s') ->
  (forall s', rep s' G L -> bad s') ->
  (forall s1 pl1 q g gl, l = map val_of gl -> (x = GNull \/ x = GArr q g gl) -> rep s1 (fput G a (GArr q g gl)) L ->
     outF arg s1 pl1 (fun s2 c => exists y, c = cell_of y /\ exists G2 gl2, rep s2 G2 (y :: L) /\ fwalk G2 a = Some (la, GArr q g gl2) /\
        forall s3, rep s3 (fput G2 a (GArr q (S g) (gl2 ++ [y]))) L -> ok s3) bad) ->
  outF (fpush_back la arg) s pl (fun s3 _ => ok s3) bad.
Proof.
  intros s pl G L a la x l arg ok bad H W A B1 B2 Ha. unfold fpush_back. eapply out_step; [apply (read_ok _ _ _ _ _ _ H W)|].
  eapply out_seq with (ok1 := fun s1 _ => exists q g gl, l = map val_of gl /\ (x = GNull \/ x = GArr q g gl) /\ rep s1 (fput G a (GArr q g gl)) L).
  - destruct x as [|b|z|f|q t|q n xs|q m]; inversion A; subst; cbn [cell_of c_ty].
    + eapply out_weak; [apply (fassign_new_ok IArr s pl _ _ _ _ _ H W)| |].
      * intros s' u (z & Vz & H1). cbn [init_value] in Vz. apply gt_arr in Vz. destruct Vz as (q & n & xs & -> & Ex). exists q, n, xs. auto.
      * intros s' (K & LK & H'). apply B2. destruct K; [exact H'|cbn in LK; lia].
    + apply out_ret. exists q, n, xs. rewrite (fput_same _ _ _ _ W). auto.
  - intros s1 u pl1 (q & g & gl & El & X & H1). pose proof (fwalk_put_same _ _ (GArr q g gl) _ _ W) as W1.
    eapply out_step; [apply (read_ok _ _ _ _ _ _ H1 W1)|]. eapply out_step; [reflexivity|].
    eapply out_seq with (ok1 := fun s' _ => s' = s1); [apply out_alloc; [reflexivity|eapply B1; eassumption]|]. intros s' u' pl' ->.
    eapply out_seq; [apply (Ha s1 pl' q g gl El X H1)|]. intros s2 c pl2 (y & -> & G2 & gl2 & H2 & W2 & K).
    eapply out_step; [apply (get_at _ _ _ _ _ _ _ _ _ H2 W2 eq_refl)|].
    destruct (push_tail_ok _ _ _ _ _ _ _ _ _ H2 W2) as (s3 & E3 & H3). unfold push_tail, seqm in E3. rewrite (get_at _ _ _ _ _ _ _ _ _ H2 W2 eq_refl) in E3.
    eapply out_lift; [exact E3|]. apply K. exact H3.
Qed.

Lemma fpush_bad : forall s pl G L a la x arg, rep s G L -> fwalk G a = Some (la, x) -> (forall l, ~ as_array (val_of x) l) ->
  fpush_back la arg (s, pl) = ((s, pl), Throw push_error).
Proof.
  intros s pl G L a la x arg H W A. unfold fpush_back. rewrite (lift_seq _ _ _ _ _ _ _ _ (read_ok _ _ _ _ _ _ H W)).
  destruct x as [|b|z|f|q t|q n xs|q m]; try reflexivity; exfalso; eapply A; constructor.
Qed.
(** ** Commands *)
Lemma height_put : forall t y x, height (val_of (gput t y x)) <= height (val_of x) + height (val_of y).
Proof.
  induction t as [|[i|k] t IH]; intros y x; cbn [gput]; [lia| |].
  - destruct x as [|b|z|f|q s0|q n xs|q m]; try lia. destruct (nth_error xs (N.to_nat i)) as [c|] eqn:E; [|lia].
    cbn [val_of height]. rewrite !map_map. rewrite Nat.add_succ_l. apply le_n_S. apply list_max_le'. intros h Hh. apply in_map_iff in Hh. destruct Hh as (z & <- & Hz).
    apply nth_error_split in E. destruct E as (l1 & l2 & -> & Ln). rewrite <- Ln, set_mid in Hz.
    assert (K : forall w, In w (l1 ++ c :: l2) -> height (val_of w) <= list_max (map (fun x => height (val_of x)) (l1 ++ c :: l2))) by (intros w Hw; apply (in_max _ (fun x => height (val_of x))); assumption).
    apply in_app_or in Hz. destruct Hz as [Hz|[<-|Hz]].
    + assert (In z (l1 ++ c :: l2)) by (apply in_or_app; auto). specialize (K z H). lia.
    + assert (In c (l1 ++ c :: l2)) by (apply in_or_app; right; left; reflexivity). specialize (K c H). specialize (IH y c). lia.
    + assert (In z (l1 ++ c :: l2)) by (apply in_or_app; right; right; assumption). specialize (K z H). lia.
  - destruct x as [|b|z|f|q s0|q n xs|q m]; try lia. destruct (obj_find k m) as [c|] eqn:E; [|lia].
    rewrite !val_obj. cbn [height]. unfold vmap. rewrite !map_map. cbn [snd]. rewrite Nat.add_succ_l. apply le_n_S. apply list_max_le'. intros h Hh. apply in_map_iff in Hh. destruct Hh as (z & <- & Hz).
    apply find_split in E. destruct E as (m1 & m2 & -> & Nk). rewrite upd_mid in Hz by assumption.
    assert (K : forall w, In w (m1 ++ (k, c) :: m2) -> height (val_of (snd w)) <= list_max (map (fun x : str * gt => height (val_of (snd x))) (m1 ++ (k, c) :: m2))) by (intros w Hw; apply (in_max _ (fun x : str * gt => height (val_of (snd x)))); assumption).
    apply in_app_or in Hz. destruct Hz as [Hz|[<-|Hz]].
    + assert (In z (m1 ++ (k, c) :: m2)) by (apply in_or_app; auto). specialize (K z H). lia.
    + assert (In (k, c) (m1 ++ (k, c) :: m2)) by (apply in_or_app; right; left; reflexivity). specialize (K _ H). cbn [snd] in *. specialize (IH y c). lia.
    + assert (In z (m1 ++ (k, c) :: m2)) by (apply in_or_app; right; right; assumption). specialize (K z H). lia.
Qed.

Lemma settle_height : forall G a b la lb x xb q g gl xb', fwalk G a = Some (la, x) -> fwalk G b = Some (lb, xb) ->
  (x = GNull /\ gl = []) \/ x = GArr q g gl ->
  fwalk (fput G a (GArr q g gl)) b = Some (lb, xb') -> height (val_of xb') <= S (height (val_of xb)).
Proof.
  intros G a b la lb x xb q g gl xb' Wa Wb [[-> ->]| ->] Wb'; [|rewrite (fput_same _ _ _ _ Wa) in Wb'; rewrite Wb in Wb'; injection Wb' as <-; lia].
  destruct (places a b) as [P|[P|P]].
  - rewrite fwalk_put_apart in Wb' by assumption. rewrite Wb in Wb'. injection Wb' as <-. lia.
  - apply below_ext in P. destruct P as [t ->]. destruct t as [|s0 t].
    + rewrite ext_nil in *. rewrite (fwalk_put_same _ _ _ _ _ Wa) in Wb'. injection Wb' as _ <-. cbn. lia.
    + rewrite (fwalk_ext _ _ _ _ _ Wa) in Wb. destruct s0; discriminate.
  - apply below_ext in P. destruct P as [t ->]. erewrite fwalk_put_below in Wb' by eassumption. injection Wb' as <-.
    pose proof (height_put t (GArr q g []) xb). cbn [val_of height map list_max fold_right] in *. lia.
Qed.

Definition fails (c : cmd) (G : forest) (L : list gt) (s' : hstate) : Prop :=
  exists G' K, rep s' G' (map raw K ++ L) /\ half c (vals G) (vals G') /\ loses c (vals G) (length K).

Definition does (c : cmd) (s : hstate) (pl : plan) (G : forest) (L : list gt) (S' : store) (r : outcome result) : Prop :=
  (exists s' pl' G', fexec c (s, pl) = ((s', pl'), r) /\ granted pl pl' /\ rep s' G' L /\ S' = vals G') \/
  (exists s' pl', fexec c (s, pl) = ((s', pl'), Throw EAlloc) /\ refused pl pl' /\ fails c G L s').

Lemma does_out : forall c s pl G L S', outF (fexec c) s pl (fun s' r' => r' = RUnit /\ exists G', rep s' G' L /\ S' = vals G') (fails c G L) ->
  does c s pl G L S' (Ret RUnit).
Proof.
  intros c s pl G L S' [(s' & pl' & r & E & P & -> & G' & H & V)|(s' & pl' & E & P & H)]; [left; exists s', pl', G'; auto|right; exists s', pl'; auto].
Qed.

Lemma does_now : forall c s pl G L S' s' G' r, fexec c (s, pl) = ((s', pl), r) -> rep s' G' L -> S' = vals G' -> does c s pl G L S' r.
Proof. intros. left. exists s', pl, G'. split; [assumption|]. split; [apply granted_refl|auto]. Qed.

Lemma does_lift : forall c s pl G L S' r, fexec c = lift (exec c) -> (exists s' G', exec c s = (s', r) /\ rep s' G' L /\ S' = vals G') -> does c s pl G L S' r.
Proof.
  intros c s pl G L S' r E (s' & G' & X & H & V). eapply does_now; [|eassumption|eassumption]. rewrite E. unfold lift. cbn [fst snd]. rewrite X. reflexivity.
Qed.

Lemma leak_fails : forall c G L n s', (forall k, k <= n -> loses c (vals G) k) -> leak G L n s' -> fails c G L s'.
Proof. intros c G L n s' Hl (K & A & H). exists G, K. split; [assumption|]. split; [constructor|auto]. Qed.

Lemma out_unit : forall A (m : F A) s pl (ok : hstate -> Prop) bad, outF m s pl (fun s' _ => ok s') bad ->
  outF (let! _ <- m; fret RUnit) s pl (fun s' r => r = RUnit /\ ok s') bad.
Proof. intros A m s pl ok bad H. eapply out_seq; [exact H|]. intros s' a pl' H'. apply out_ret. auto. Qed.

Lemma sset_put : forall G L a la x v S' s, fwalk G a = Some (la, x) -> sset (vals G) a v S' -> put G L a v s -> exists G', rep s G' L /\ S' = vals G'.
Proof. intros G L a la x v S' s W H (y & V & R). exists (fput G a y). split; [assumption|]. eapply sset_to; eassumption. Qed.

(** a push that fails *)
Lemma push_fails : forall c G L a la x q g gl s' K, pushes c a -> fwalk G a = Some (la, x) -> (x = GNull /\ gl = []) \/ x = GArr q g gl ->
  loses c (vals G) (length K) -> rep s' (fput G a (GArr q g gl)) (map raw K ++ L) -> fails c G L s'.
Proof.
  intros c G L a la x q g gl s' K P W X Hl H. exists (fput G a (GArr q g gl)), K. split; [assumption|]. split; [|assumption].
  destruct X as [[-> ->]| ->].
  - apply hf_push with (a := a); [assumption|apply (walk_sget _ _ _ _ W)|]. apply (walk_sset _ _ _ _ (GArr q g []) W).
  - rewrite (fput_same _ _ _ _ W). constructor.
Qed.

Lemma settled : forall (x : gt) q g gl l, as_array (val_of x) l -> l = map val_of gl -> x = GNull \/ x = GArr q g gl -> (x = GNull /\ gl = []) \/ x = GArr q g gl.
Proof.
  intros x q g gl l A E [->|X]; [|auto]. left. split; [reflexivity|]. inversion A; subst. destruct gl; [reflexivity|discriminate].
Qed.

(** the element to move out is still there after the null became an array *)
Lemma move_room : forall G a b la lb xa xb q g gl S1 y1 l1, fwalk G a = Some (la, xa) -> fwalk G b = Some (lb, xb) -> ~ below b a ->
  as_array (val_of xa) (map val_of gl) -> xa = GNull \/ xa = GArr q g gl -> sset (vals G) b VNull S1 -> sget S1 a y1 -> as_array y1 l1 ->
  exists gl1, l1 = map val_of gl1 /\ fwalk (fput (fput G a (GArr q g gl)) b GNull) a = Some (la, GArr q g gl1) /\
    fwalk (fput G a (GArr q g gl)) b = Some (lb, xb) /\
    (exists l' x', fwalk (fput G b GNull) a = Some (l', x')) /\
    forall z, fput (fput (fput G a (GArr q g gl)) b GNull) a z = fput (fput G b GNull) a z.
Proof.
  intros G a b la lb xa xb q g gl S1 y1 l1 Wa Wb Nb Al Xa Hs1 Ha1 Al1. rewrite (sset_to _ _ _ _ _ _ GNull Wb Hs1 eq_refl) in *. clear Hs1.
  destruct (fapart_or _ _ Nb) as [P|(t & Nt & ->)].
  - exists gl. assert (Wa1 : fwalk (fput G b GNull) a = Some (la, xa)) by (rewrite fwalk_put_apart by (apply fapart_sym; assumption); assumption).
    split.
    + apply sget_walk in Ha1. destruct Ha1 as (l2 & x2 & W2 & V2). rewrite Wa1 in W2. injection W2 as _ <-. rewrite V2 in Al.
      clear -Al Al1. inversion Al; subst; inversion Al1; subst; congruence.
    + split; [rewrite fwalk_put_apart by (apply fapart_sym; assumption); apply (fwalk_put_same _ _ _ _ _ Wa)|].
      split; [rewrite fwalk_put_apart by assumption; assumption|]. split; [eauto|]. intro z.
      rewrite (fput_fput_apart _ _ _ _ _ P). eapply fput_fput_same. eassumption.
  - destruct Xa as [->| ->].
    + rewrite (fwalk_ext _ _ _ _ _ Wa) in Wb. destruct t as [|s0 t]; [congruence|]. destruct s0; discriminate.
    + rewrite (fput_same _ _ _ _ Wa). pose proof (fwalk_put_below G a t GNull _ _ Wa) as Wa1.
      assert (X : exists gl1, gput t GNull (GArr q g gl) = GArr q g gl1).
      { destruct t as [|[i|k] t]; [congruence| |]; cbn [gput]; [|eauto]. destruct (nth_error gl (N.to_nat i)); eauto. }
      destruct X as (gl1 & X). rewrite X in Wa1. exists gl1. split.
      * apply sget_walk in Ha1. destruct Ha1 as (l2 & x2 & W2 & V2). rewrite Wa1 in W2. injection W2 as _ <-. rewrite <- V2 in Al1. inversion Al1. reflexivity.
      * split; [assumption|]. split; [assumption|]. split; [eauto|reflexivity].
Qed.

(** value_constructor::reset *)
Lemma freset_ok : forall i s pl G L a la x, rep s G L -> fwalk G a = Some (la, x) ->
  outF (freset la i) s pl (fun s' _ => put G L a (init_value i) s') (fun _ => in_block i).
Proof.
  intros i s pl G L a la x [E H] W. destruct (frame _ _ _ _ W) as (F & C & P1 & E1 & P2 & Hw).
  assert (H1 : heap_is (heap s) (F (cell_of x) ++ blocks x ++ lblocks L)) by (eapply heap_is_perm; [|exact H]; rewrite P1; psolve).
  destruct (Hw _ _ _ H1 (eq_trans E E1)) as [Hr _]. unfold freset. eapply out_step; [exact Hr|].
  assert (H2 : heap_is (heap s) (blocks x ++ F (cell_of x) ++ lblocks L)) by (eapply heap_is_perm; [|exact H1]; psolve).
  destruct (destroy_cell_ok x s _ H2) as (s1 & D1 & V1 & H3 & _). eapply out_step; [exact D1|].
  assert (E2 : env s1 = C (cell_of x)) by congruence.
  destruct (Hw _ _ _ H3 E2) as [_ Hx]. set (c1 := mkCell (init_ty i) (c_data (cell_of x))). destruct (Hx c1) as (s2 & D2 & H4 & E3). eapply out_step; [exact D2|].
  assert (K : outF (fconstruct i) s2 pl (made s2 (F c1 ++ lblocks L) (init_value i)) (fun _ => in_block i)).
  { assert (J : forall j, fconstruct j = lift (construct j) -> outF (fconstruct j) s2 pl (made s2 (F c1 ++ lblocks L) (init_value j)) (fun _ => in_block j)).
    { intros j Ej. rewrite Ej. destruct (construct_heap j s2 _ H4) as (s3 & y & D3 & V3 & E4 & H5). eapply out_lift; [exact D3|]. exists y. auto. }
    destruct i; try (apply J; reflexivity); cbn [fconstruct].
    - eapply out_seq; [eapply out_weak; [apply (fcreate_text s0 s2 pl _ H4)| |]|]; [intros s' p X; exact X|intros s' X; exact Logic.I|].
      intros s' p pl' [E4 H5]. apply out_ret. exists (GStr p s0). auto.
    - eapply out_seq; [eapply out_weak; [apply (fcreate_now (BArr 0 []) s2 pl _ H4)| |]|]; [intros s' p X; exact X|intros s' X; exact Logic.I|].
      intros s' p pl' [E4 H5]. apply out_ret. exists (GArr p 0 []). auto.
    - eapply out_seq; [eapply out_weak; [apply (fcreate_now (BObj []) s2 pl _ H4)| |]|]; [intros s' p X; exact X|intros s' X; exact Logic.I|].
      intros s' p pl' [E4 H5]. apply out_ret. exists (GObj p []). auto. }
  eapply out_seq; [exact K|]. intros s3 c pl3 (y & -> & Vy & E4 & H5).
  assert (H6 : heap_is (heap s3) (F c1 ++ blocks y ++ lblocks L)) by (eapply heap_is_perm; [|exact H5]; psolve).
  assert (E5 : env s3 = C c1) by congruence.
  destruct (Hw _ _ _ H6 E5) as [_ Hy]. destruct (Hy (cell_of y)) as (s4 & D4 & H7 & E6). eapply out_lift; [exact D4|]. exists y. split; [assumption|].
  destruct (P2 y) as [P3 E7]. split; [congruence|]. eapply heap_is_perm; [|exact H7]. rewrite P3. psolve.
Qed.

Lemma ilost_loses : forall i c S k, (c = New i \/ (exists a, c = SetTo a i) \/ exists a, c = PushNew a i) -> k <= ilost i -> loses c S k.
Proof. intros i c S k [->|[[a ->]|[a ->]]] H; destruct i; cbn [loses ilost] in *; lia. Qed.
Lemma zero_loses : forall i c S, (c = New i \/ (exists a, c = SetTo a i) \/ exists a, c = PushNew a i) -> loses c S 0.
Proof. intros i c S H. eapply ilost_loses; [eassumption|lia]. Qed.

Lemma raw_swap : forall K z L, Permutation (map raw K ++ z :: L) (z :: map raw K ++ L).
Proof. intros. symmetry. apply Permutation_middle. Qed.

Lemma fstep_ok : forall c S S' r, tstep c S S' r -> no_reset c -> forall s pl G L, rep s G L -> S = vals G -> does c s pl G L S' r.
Proof.
  intros c S S' r T. pose proof T as T0. destruct T as
    [i S|b S x Hb|b S x S1 Hb Hs|a b S x y S' Ha Hb Hs|a S x Ha|a b S x y S1 S' Nab Nb Ha Hb Hs1 Hs2|a S x Ha|a b S x y S1 S' Nab Nba Ha Hb Hs1 Hs2
    |a i S y S' Ha Hs|a i S y S' Ha Hs|a b S y l x0 S1 x S' Ha Al Hb Hs1 Hb1 Hs2|a b S y l x S1 y1 l1 S' Ha Al Hb Nb Hs1 Ha1 Al1 Hs2
    |a i S y l S' Ha Al Hs|c a S y Ha Na Hc|c a f S y y' r S' Hl Ha Hf Nr Hs|S1 v S2|c a b S e Hc Hf|c a b S y e Hc Ha Hf]; intros NR s pl G L H EG; try subst S.
  - (* New *) apply does_out. cbn [fexec]. eapply out_seq; [eapply out_weak; [apply (fconstruct_ok i _ _ _ _ H)| |]|].
    + intros s' a X. exact X.
    + intros s'. apply leak_fails. intros k. apply ilost_loses. auto.
    + intros s1 c pl1 (y & -> & V & H1). destruct (push_slot_ok _ _ _ _ H1) as (s2 & E2 & H2). eapply out_step; [exact E2|]. apply out_ret. split; [reflexivity|].
      exists (G ++ [Some y]). split; [assumption|]. rewrite vals_app. cbn [vals map option_map]. congruence.
  - (* NewCopy *) apply sget_walk in Hb. destruct Hb as (l & xb & W & V). apply does_out. cbn [fexec].
    eapply out_step; [apply (locate_ok _ _ _ _ _ _ H W)|]. eapply out_step; [apply (read_ok _ _ _ _ _ _ H W)|].
    eapply out_seq; [eapply out_weak; [apply (fcopy_at _ _ _ _ _ _ _ H W)| |]|].
    + intros s' a X. exact X.
    + intros s'. apply leak_fails. intros k Hk. cbn [loses]. exists (val_of xb). split; [apply (walk_sget _ _ _ _ W)|assumption].
    + intros s1 c pl1 (y & -> & Vy & H1). destruct (push_slot_ok _ _ _ _ H1) as (s2 & E2 & H2). eapply out_step; [exact E2|]. apply out_ret. split; [reflexivity|].
      exists (G ++ [Some y]). split; [assumption|]. rewrite vals_app. cbn [vals map option_map]. congruence.
  - apply does_lift; [reflexivity|]. eapply step_ok; [exact T0|exact H|reflexivity].
  - (* CopyTo *) apply sget_walk in Ha. destruct Ha as (la & xa & Wa & Va). apply sget_walk in Hb. destruct Hb as (lb & xb & Wb & Vb).
    apply does_out. cbn [fexec]. eapply out_step; [apply (locate_ok _ _ _ _ _ _ H Wa)|]. eapply out_step; [apply (locate_ok _ _ _ _ _ _ H Wb)|].
    apply out_unit. eapply out_weak; [apply (fassign_copy_ok _ _ _ _ _ _ _ _ _ _ H Wa Wb)| |].
    + intros s' u X. eapply sset_put; [exact Wa|exact Hs|]. rewrite <- Vb. exact X.
    + intros s'. apply leak_fails. intros k Hk. cbn [loses]. exists (val_of xb). split; [apply (walk_sget _ _ _ _ Wb)|assumption].
  - apply does_lift; [reflexivity|]. eapply step_ok; [exact T0|exact H|reflexivity].
  - apply does_lift; [reflexivity|]. eapply step_ok; [exact T0|exact H|reflexivity].
  - apply does_lift; [reflexivity|]. eapply step_ok; [exact T0|exact H|reflexivity].
  - apply does_lift; [reflexivity|]. eapply step_ok; [exact T0|exact H|reflexivity].
  - (* SetTo *) apply sget_walk in Ha. destruct Ha as (la & xa & Wa & Va). apply does_out. cbn [fexec]. eapply out_step; [apply (locate_ok _ _ _ _ _ _ H Wa)|].
    apply out_unit. eapply out_weak; [apply (fassign_new_ok i _ _ _ _ _ _ _ H Wa)| |].
    + intros s' u X. eapply sset_put; [exact Wa|exact Hs|exact X].
    + intros s'. apply leak_fails. intros k. apply ilost_loses. eauto.
  - (* ReplaceBy *) apply sget_walk in Ha. destruct Ha as (la & xa & Wa & Va). apply does_out. cbn [fexec]. eapply out_step; [apply (locate_ok _ _ _ _ _ _ H Wa)|].
    apply out_unit. eapply out_weak; [apply (freset_ok i _ _ _ _ _ _ _ H Wa)| |].
    + intros s' u X. eapply sset_put; [exact Wa|exact Hs|exact X].
    + intros s' X. cbn [no_reset] in NR. contradiction.
  - (* PushCopy *) apply sget_walk in Ha. destruct Ha as (la & xa & Wa & Va). apply sget_walk in Hb. destruct Hb as (lb & xb & Wb & Vb). rewrite <- Va in Al.
    apply does_out. cbn [fexec]. eapply out_step; [apply (locate_ok _ _ _ _ _ _ H Wa)|]. eapply out_step; [apply (locate_ok _ _ _ _ _ _ H Wb)|].
    apply out_unit. assert (Z : loses (PushCopy a b) (vals G) 0) by (exists (val_of xb); split; [apply (walk_sget _ _ _ _ Wb)|lia]).
    eapply out_weak; [apply (fpush_ok s pl G L a la xa l _ (fun s' => exists G', rep s' G' L /\ S' = vals G') (fails (PushCopy a b) G L) H Wa Al)|auto|auto].
    + intros s' q g gl El X R. eapply push_fails with (K := []); [reflexivity|exact Wa|eapply settled; eassumption|exact Z|exact R].
    + intros s' R. exists G, []. split; [exact R|]. split; [constructor|exact Z].
    + intros s1 pl1 q g gl El X R. pose proof (settled _ _ _ _ _ Al El X) as X'. subst l.
      rewrite (sset_to _ _ _ _ _ _ (GArr q g gl) Wa Hs1 eq_refl) in *. clear Hs1.
      destruct (fwalk_settle _ _ _ _ _ _ _ q g gl Wa Wb X) as (xb' & Wb').
      apply sget_walk in Hb1. destruct Hb1 as (lb2 & xb2 & Wb2 & Vb2). rewrite Wb' in Wb2. injection Wb2 as E2 E3. subst lb2 xb2.
      eapply out_step; [apply (read_ok _ _ _ _ _ _ R Wb')|]. eapply out_weak; [apply (fcopy_at _ _ _ _ _ _ _ R Wb')| |].
      * intros s2 c (y2 & -> & V2 & H2). exists y2. split; [reflexivity|]. exists (fput G a (GArr q g gl)), gl. split; [assumption|].
        split; [apply (fwalk_put_same _ _ _ _ _ Wa)|]. intros s3 H3. eexists. split; [exact H3|]. eapply sset_to; [|exact Hs2|].
        -- apply (fwalk_put_same _ _ _ _ _ Wa).
        -- cbn [val_of]. rewrite map_app. cbn [map]. congruence.
      * intros s2 (K & LK & H2). eapply push_fails; [reflexivity|exact Wa|exact X'| |exact H2]. exists (val_of xb). split; [apply (walk_sget _ _ _ _ Wb)|].
        pose proof (settle_height _ _ _ _ _ _ _ _ _ _ _ Wa Wb X' Wb'). lia.
  - (* PushMove *) apply sget_walk in Ha. destruct Ha as (la & xa & Wa & Va). apply sget_walk in Hb. destruct Hb as (lb & xb & Wb & Vb). rewrite <- Va in Al.
    apply does_out. cbn [fexec]. eapply out_step; [apply (locate_ok _ _ _ _ _ _ H Wa)|]. eapply out_step; [apply (locate_ok _ _ _ _ _ _ H Wb)|].
    apply out_unit. assert (Z : loses (PushMove a b) (vals G) 0) by reflexivity.
    eapply out_weak; [apply (fpush_ok s pl G L a la xa l _ (fun s' => exists G', rep s' G' L /\ S' = vals G') (fails (PushMove a b) G L) H Wa Al)|auto|auto].
    + intros s' q g gl El X R. eapply push_fails with (K := []); [reflexivity|exact Wa|eapply settled; eassumption|exact Z|exact R].
    + intros s' R. exists G, []. split; [exact R|]. split; [constructor|exact Z].
    + intros s1 pl1 q g gl El X R. subst l.
      destruct (move_room _ _ _ _ _ _ _ _ _ _ _ _ _ Wa Wb Nb Al X Hs1 Ha1 Al1) as (gl1 & -> & K1 & K2 & (l' & x' & K3) & K4).
      rewrite (sset_to _ _ _ _ _ _ GNull Wb Hs1 eq_refl) in *. clear Hs1.
      destruct (move_from_ok _ _ _ _ _ _ R K2) as (s2 & E2 & H2). eapply out_lift; [exact E2|]. exists xb. split; [reflexivity|].
      eexists _, gl1. split; [exact H2|]. split; [exact K1|]. intros s3 H3. rewrite K4 in H3. eexists. split; [exact H3|].
      eapply sset_to; [eassumption|eassumption|]. cbn [val_of]. rewrite map_app. cbn [map]. congruence.
  - (* PushNew *) apply sget_walk in Ha. destruct Ha as (la & xa & Wa & Va). rewrite <- Va in Al.
    apply does_out. cbn [fexec]. eapply out_step; [apply (locate_ok _ _ _ _ _ _ H Wa)|].
    eapply out_seq; [eapply out_weak; [apply (fconstruct_ok i _ _ _ _ H)| |]|].
    { intros s' u X. exact X. }
    { intros s'. apply leak_fails. intros k. apply ilost_loses. eauto. }
    intros s1 c pl1 (z & -> & Vz & H1). apply out_unit. assert (Z : loses (PushNew a i) (vals G) 0) by (apply (zero_loses i); eauto).
    pose proof (new_apart _ _ [] _ _ Wa) as P.
    eapply out_weak; [apply (ftemp_ok unit (fun t => fpush_back la (lift (move_from t))) s1 pl1 G L z (fun _ G' => S' = vals G')
        (fun G' L' => L' = L /\ exists q g gl, ((xa = GNull /\ gl = []) \/ xa = GArr q g gl) /\ (G' = G \/ G' = fput G a (GArr q g gl))) H1)| |].
    + intros s2 H2. pose proof (fwalk_grow _ [Some z] _ _ _ Wa) as Wa2.
      eapply (fpush_ok s2 pl1 (G ++ [Some z]) L a la xa l _ (fun s' => exists G' y', rep s' (G' ++ [Some y']) L /\ S' = vals G') _ H2 Wa2 Al).
      * intros s' q g gl El X R. pose proof (settled _ _ _ _ _ Al El X) as X'. rewrite (fput_grow _ _ _ _ _ _ Wa) in R.
        exists (fput G a (GArr q g gl)), z, L. split; [exact R|]. split; [reflexivity|]. exists q, g, gl. auto.
      * intros s' R. exists G, z, L. split; [exact R|]. split; [reflexivity|].
        destruct xa as [|b|zz|f|q t|q n xs|q m]; inversion Al; [exists 0, 0, []|exists q, n, xs]; auto.
      * intros s3 pl3 q g gl El X R. subst l.
        assert (Wt : fwalk (fput (G ++ [Some z]) a (GArr q g gl)) (length G, []) = Some (LSlot (length G), z)) by (rewrite fwalk_put_apart by assumption; apply last_slot).
        destruct (move_from_ok _ _ _ _ _ _ R Wt) as (s4 & E4 & H4). eapply out_lift; [exact E4|]. exists z. split; [reflexivity|].
        assert (Wa4 : fwalk (fput (fput (G ++ [Some z]) a (GArr q g gl)) (length G, []) GNull) a = Some (la, GArr q g gl)).
        { rewrite fwalk_put_apart by (apply fapart_sym; assumption). eapply fwalk_put_same. eassumption. }
        eexists _, gl. split; [exact H4|]. split; [exact Wa4|]. intros s5 H5.
        rewrite (fput_fput_apart _ _ _ _ _ (fapart_sym _ _ P)) in H5. rewrite (fput_fput_same _ _ _ _ _ _ Wa2) in H5.
        rewrite (fput_grow _ _ _ _ _ _ Wa) in H5. rewrite <- (length_fput G a (GArr q (Datatypes.S g) (gl ++ [z]))) in H5. rewrite fput_new in H5. cbn [gput] in H5.
        eexists _, _. split; [exact H5|]. eapply sset_to; [eassumption|eassumption|]. cbn [val_of]. rewrite map_app. cbn [map]. congruence.
    + intros s' u (G' & H' & V'). eauto.
    + intros s' (G' & L' & R & -> & q & g & gl & X & [->| ->]).
      * exists G, []. split; [exact R|]. split; [constructor|exact Z].
      * eapply push_fails with (K := []); [reflexivity|exact Wa|exact X|exact Z|exact R].
  - (* push on a non-array *) apply sget_walk in Ha. destruct Ha as (la & xa & Wa & Va). rewrite <- Va in Na.
    destruct Hc as [(b & x & [-> | ->] & Hb)|[i ->]].
    + apply sget_walk in Hb. destruct Hb as (lb & xb & Wb & Vb). eapply does_now; [|exact H|reflexivity]. cbn [fexec].
      rewrite (lift_seq _ _ _ _ _ _ _ _ (locate_ok _ _ _ _ _ _ H Wa)), (lift_seq _ _ _ _ _ _ _ _ (locate_ok _ _ _ _ _ _ H Wb)). unfold fseq at 1.
      rewrite (fpush_bad _ _ _ _ _ _ _ _ H Wa Na). reflexivity.
    + apply sget_walk in Hb. destruct Hb as (lb & xb & Wb & Vb). eapply does_now; [|exact H|reflexivity]. cbn [fexec].
      rewrite (lift_seq _ _ _ _ _ _ _ _ (locate_ok _ _ _ _ _ _ H Wa)), (lift_seq _ _ _ _ _ _ _ _ (locate_ok _ _ _ _ _ _ H Wb)). unfold fseq at 1.
      rewrite (fpush_bad _ _ _ _ _ _ _ _ H Wa Na). reflexivity.
    + destruct (fconstruct_ok i s pl G L H) as [(s1 & pl1 & c & E1 & P1 & z & -> & Vz & H1)|(s1 & pl1 & E1 & P1 & Lk)].
      * left. destruct (push_slot_ok _ _ _ _ H1) as (s2 & E2 & H2). destruct (pop_slot_ok _ _ _ _ H2) as (s3 & E3 & H3).
        exists s3, pl1, G. split; [|auto]. cbn [fexec]. rewrite (lift_seq _ _ _ _ _ _ _ _ (locate_ok _ _ _ _ _ _ H Wa)). unfold fseq at 1. rewrite E1.
        unfold fseq at 1. unfold ftemp. rewrite (lift_seq _ _ _ _ _ _ _ _ E2). unfold ffinally. rewrite (fpush_bad _ _ _ _ _ _ _ _ H2 (fwalk_grow _ _ _ _ _ Wa) Na).
        rewrite (lift_seq _ _ _ _ _ _ _ _ E3). reflexivity.
      * right. exists s1, pl1. split; [|split; [exact P1|]].
        -- cbn [fexec]. rewrite (lift_seq _ _ _ _ _ _ _ _ (locate_ok _ _ _ _ _ _ H Wa)). unfold fseq at 1. rewrite E1. reflexivity.
        -- eapply leak_fails; [|exact Lk]. intros k. apply ilost_loses. eauto.
  - (* local *) destruct c as [| | | | | | | | | | |a0 [i|k]|a0 k|a0 i|a0|]; cbn [local] in Hl; try discriminate;
      try (apply does_lift; [reflexivity|]; eapply step_ok; [exact T0|exact H|reflexivity]); injection Hl as <- <-;
      apply sget_walk in Ha; destruct Ha as (la & xa & Wa & Va); rewrite <- Va in Hf.
    + destruct (fsub_idx_ok s pl _ _ _ _ _ _ _ _ H Wa Hf Nr) as [[-> O]|(e & -> & -> & Ee)].
      * apply does_out. cbn [fexec]. eapply out_step; [apply (locate_ok _ _ _ _ _ _ H Wa)|]. apply out_unit. eapply out_weak; [exact O| |].
        -- intros s' l (z & Vz & H' & _). eapply sset_put; [exact Wa|exact Hs|]. exists z. auto.
        -- intros s' [R|(-> & z & Vz & R)]; [exists G, []|exists (fput G a0 z), []]; (split; [exact R|]); (split; [|reflexivity]); [constructor|].
           apply hf_idx; [apply (walk_sget _ _ _ _ Wa)|]. rewrite <- Vz. apply (walk_sset _ _ _ _ z Wa).
      * eapply does_now; [|exact H|rewrite (sset_to _ _ _ _ _ _ xa Wa Hs eq_refl), (fput_same _ _ _ _ Wa); reflexivity]. cbn [fexec].
        rewrite (lift_seq _ _ _ _ _ _ _ _ (locate_ok _ _ _ _ _ _ H Wa)). unfold fseq at 1. rewrite Ee. reflexivity.
    + destruct (fsub_key_ok s pl _ _ _ _ _ _ _ _ H Wa Hf) as [[-> O]|(e & -> & -> & Ee)].
      * apply does_out. cbn [fexec]. eapply out_step; [apply (locate_ok _ _ _ _ _ _ H Wa)|]. apply out_unit. eapply out_weak; [exact O| |].
        -- intros s' l (z & Vz & H' & _). eapply sset_put; [exact Wa|exact Hs|]. exists z. auto.
        -- intros s' [R|(-> & z & Vz & R)]; [exists G, []|exists (fput G a0 z), []]; (split; [exact R|]); (split; [|reflexivity]); [constructor|].
           apply hf_key; [apply (walk_sget _ _ _ _ Wa)|]. rewrite <- Vz. apply (walk_sset _ _ _ _ z Wa).
      * eapply does_now; [|exact H|rewrite (sset_to _ _ _ _ _ _ xa Wa Hs eq_refl), (fput_same _ _ _ _ Wa); reflexivity]. cbn [fexec].
        rewrite (lift_seq _ _ _ _ _ _ _ _ (locate_ok _ _ _ _ _ _ H Wa)). unfold fseq at 1. rewrite Ee. reflexivity.
  - apply does_lift; [reflexivity|]. eapply step_ok; [exact T0|exact H|assumption].
  - (* first place fails *) pose proof (locate_bad _ _ _ _ _ H Hf) as E.
    assert (X : forall B (k : loc -> F B), fseq (lift (locate a)) k (s, pl) = ((s, pl), Throw e)) by (intros; unfold fseq, lift; cbn [fst snd]; rewrite E; reflexivity).
    destruct c; cbn [two one] in Hc; destruct Hc as [Hc|Hc]; try discriminate; injection Hc as Hc; try (destruct Hc); subst;
      try (apply does_lift; [reflexivity|]; eapply step_ok; [exact T0|exact H|reflexivity]);
      (eapply does_now; [cbn [fexec]; apply X|exact H|reflexivity]).
  - (* second place fails *) apply sget_walk in Ha. destruct Ha as (la & xa & Wa & Va).
    pose proof (locate_ok _ _ _ _ _ _ H Wa) as E0. pose proof (locate_bad _ _ _ _ _ H Hf) as E.
    assert (X : forall B (k : loc -> F B), fseq (lift (locate b)) k (s, pl) = ((s, pl), Throw e)) by (intros; unfold fseq, lift; cbn [fst snd]; rewrite E; reflexivity).
    destruct c; cbn [two] in Hc; try discriminate; injection Hc as E1 E2; subst;
      try (apply does_lift; [reflexivity|]; eapply step_ok; [exact T0|exact H|reflexivity]);
      (eapply does_now; [cbn [fexec]; rewrite (lift_seq _ _ _ _ _ _ _ _ E0); apply X|exact H|reflexivity]).
Qed.
