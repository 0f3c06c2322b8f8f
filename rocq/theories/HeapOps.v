(** The memory operations on a memory that holds a forest of annotated trees
    and some loose ones. *)
From Coq Require Import Lia Permutation Arith.
From Verif Require Import Base Value ValueOps ObjFacts ValueProofs Heap SpecHeap HeapGhost HeapPaths.
Open Scope nat_scope.

Definition tblocks (t : option gt) : list (nat * block) := match t with Some g => blocks g | None => [] end.
Definition fblocks (G : forest) : list (nat * block) := flat_map tblocks G.
Definition lblocks (L : list gt) : list (nat * block) := flat_map blocks L.
Definition cells (G : forest) : list (option cell) := map (option_map cell_of) G.

Definition rep (s : hstate) (G : forest) (L : list gt) : Prop :=
  env s = cells G /\ heap_is (heap s) (fblocks G ++ lblocks L).

(** ** Permutations *)
Ltac pstep := match goal with
  | |- Permutation ?a ?a => apply Permutation_refl
  | |- Permutation (?a ++ _) (?a ++ _) => apply Permutation_app_head
  | |- Permutation (?x :: _) (?x :: _) => apply perm_skip
  | |- Permutation _ (_ :: _) => eapply Permutation_trans; [|apply Permutation_sym; apply Permutation_cons_append]; rewrite <- ?app_assoc; cbn [app]
  | |- Permutation _ (_ ++ _) => eapply Permutation_trans; [|apply Permutation_app_comm]; rewrite <- ?app_assoc; cbn [app]
  end.
Ltac psolve := rewrite <- ?app_assoc; cbn [app]; rewrite ?app_nil_r; do 60 (try pstep).

Lemma fblocks_app : forall G T, fblocks (G ++ T) = fblocks G ++ fblocks T.
Proof. intros. unfold fblocks. apply flat_map_app. Qed.

Lemma lblocks_perm : forall L L', Permutation L L' -> Permutation (lblocks L) (lblocks L').
Proof. intros. unfold lblocks. apply Permutation_flat_map. assumption. Qed.

Lemma rep_perm : forall s G L L', Permutation L L' -> rep s G L -> rep s G L'.
Proof.
  intros s G L L' P [E H]. split; [assumption|]. eapply heap_is_perm; [|exact H]. apply Permutation_app_head. apply lblocks_perm. assumption.
Qed.

Lemma rep_scalar : forall s G L y, blocks y = [] -> (rep s G L <-> rep s G (y :: L)).
Proof. intros s G L y E. unfold rep, lblocks. cbn [flat_map]. rewrite E. reflexivity. Qed.

(** ** Holes *)
Definition hole (l : loc) (q : nat) (b : cell -> block) : Prop := forall s c B, heap_is (heap s) ((q, b c) :: B) ->
  read_loc l s = (s, Ret c) /\ forall c', write_loc l c' s = (set_heap (set_nth q (Some (b c')) (heap s)) s, Ret tt).

Lemma hole_elem : forall q n l1 l2, hole (LElem q n (length l1)) q (fun c => BArr n (l1 ++ c :: l2)).
Proof.
  intros q n l1 l2 s c B H. unfold read_loc, write_loc, seqm. rewrite (get_block_ok _ _ _ _ H). rewrite Nat.eqb_refl, nth_mid. cbn [ret andb].
  split; [reflexivity|]. intro c'. assert (X : (length l1 <? length (l1 ++ c :: l2)) = true).
  { apply Nat.ltb_lt. rewrite app_length. cbn. lia. }
  rewrite X, set_mid. apply (set_block_ok _ _ _ _ _ H).
Qed.

Lemma hole_member : forall q k m1 m2, ~ In k (map fst m1) -> hole (LMember q k) q (fun c => BObj (m1 ++ (k, c) :: m2)).
Proof.
  intros q k m1 m2 N s c B H. unfold read_loc, write_loc, seqm. rewrite (get_block_ok _ _ _ _ H). rewrite find_mid by assumption. cbn [ret].
  split; [reflexivity|]. intro c'. rewrite upd_mid by assumption. apply (set_block_ok _ _ _ _ _ H).
Qed.

Lemma fm_mid : forall A B (f : A -> list B) l1 x l2, flat_map f (l1 ++ x :: l2) = flat_map f l1 ++ f x ++ flat_map f l2.
Proof. intros. rewrite flat_map_app. reflexivity. Qed.

Lemma walk_hole : forall p l g l' x, p <> [] -> walk l g p = Some (l', x) -> exists q b R, hole l' q b /\
  Permutation (blocks g) ((q, b (cell_of x)) :: blocks x ++ R) /\
  forall y, Permutation (blocks (gput p y g)) ((q, b (cell_of y)) :: blocks y ++ R).
Proof.
  induction p as [|s p IH]; intros l g l' x N H; [congruence|]. clear N.
  destruct s as [i|k]; cbn [walk] in H.
  - destruct g as [| | | | |q n xs|]; try discriminate. cbn [gput]. destruct (nth_error xs (N.to_nat i)) as [c|] eqn:E; [|discriminate].
    apply nth_error_split in E. destruct E as (l1 & l2 & -> & L). rewrite <- L in *. clear L.
    destruct p as [|s' p].
    + cbn [walk] in H. injection H as E1 E2. subst.
      exists q, (fun d => BArr n (map cell_of l1 ++ d :: map cell_of l2)), (flat_map blocks l1 ++ flat_map blocks l2).
      split; [rewrite <- (map_length cell_of l1); apply hole_elem|]. split.
      * cbn [blocks]. rewrite map_app, fm_mid. cbn [map]. apply perm_skip. psolve.
      * intro y. rewrite set_mid. cbn [blocks gput]. rewrite map_app, fm_mid. cbn [map]. apply perm_skip. psolve.
    + assert (Ne : s' :: p <> []) by discriminate. destruct (IH _ _ _ _ Ne H) as (r & b & R & Hh & P1 & P2). exists r, b.
      exists (R ++ (q, BArr n (map cell_of (l1 ++ c :: l2))) :: flat_map blocks l1 ++ flat_map blocks l2). split; [assumption|].
      split.
      * cbn [blocks]. rewrite fm_mid. rewrite P1. psolve.
      * intro y. rewrite set_mid. cbn [blocks]. rewrite fm_mid. rewrite (P2 y). rewrite !map_app. cbn [map]. rewrite cell_put by discriminate. psolve.
  - destruct g as [| | | | | |q m]; try discriminate. cbn [gput]. destruct (obj_find k m) as [c|] eqn:E; [|discriminate].
    apply find_split in E. destruct E as (m1 & m2 & -> & N).
    destruct p as [|s' p].
    + cbn [walk] in H. injection H as E1 E2. subst.
      exists q, (fun d => BObj (vmap cell_of m1 ++ (k, d) :: vmap cell_of m2)), (flat_map (fun kx => blocks (snd kx)) m1 ++ flat_map (fun kx => blocks (snd kx)) m2).
      split; [apply hole_member; rewrite vmap_fst; assumption|]. split.
      * cbn [blocks]. rewrite vmap_app, fm_mid. cbn [vmap map fst snd]. apply perm_skip. psolve.
      * intro y. rewrite upd_mid by assumption. cbn [blocks gput]. rewrite vmap_app, fm_mid. cbn [vmap map fst snd]. apply perm_skip. psolve.
    + assert (Ne : s' :: p <> []) by discriminate. destruct (IH _ _ _ _ Ne H) as (r & b & R & Hh & P1 & P2). exists r, b.
      exists (R ++ (q, BObj (vmap cell_of (m1 ++ (k, c) :: m2))) :: flat_map (fun kx => blocks (snd kx)) m1 ++ flat_map (fun kx => blocks (snd kx)) m2). split; [assumption|].
      split.
      * cbn [blocks]. rewrite fm_mid. cbn [snd]. rewrite P1. psolve.
      * intro y. rewrite upd_mid by assumption. cbn [blocks]. rewrite fm_mid. cbn [snd]. rewrite (P2 y). rewrite !vmap_app. cbn [vmap map fst snd].
        rewrite cell_put by discriminate. psolve.
Qed.

(** ** A place and what surrounds it *)
Lemma frame : forall G a l x, fwalk G a = Some (l, x) -> exists (F : cell -> list (nat * block)) (E : cell -> list (option cell)),
  Permutation (fblocks G) (blocks x ++ F (cell_of x)) /\ cells G = E (cell_of x) /\
  (forall y, Permutation (fblocks (fput G a y)) (blocks y ++ F (cell_of y)) /\ cells (fput G a y) = E (cell_of y)) /\
  forall s c B, heap_is (heap s) (F c ++ B) -> env s = E c -> read_loc l s = (s, Ret c) /\
    forall c', exists s', write_loc l c' s = (s', Ret tt) /\ heap_is (heap s') (F c' ++ B) /\ env s' = E c'.
Proof.
  intros G [n p] l x W. apply fwalk_at in W. destruct W as (g & N & W). cbn [fst snd] in *.
  unfold fput. cbn [fst snd]. rewrite N. apply nth_error_split in N. destruct N as (G1 & G2 & -> & Ln). rewrite <- Ln in *.
  destruct p as [|s0 p].
  - cbn [walk] in W. injection W as E1 E2. subst l x.
    exists (fun _ => fblocks G1 ++ fblocks G2), (fun c => cells G1 ++ Some c :: cells G2).
    split. { rewrite fblocks_app. cbn [fblocks flat_map tblocks]. fold (fblocks G2). psolve. }
    split. { unfold cells. rewrite map_app. reflexivity. }
    split.
    { intro y. cbn [gput]. rewrite set_mid. rewrite fblocks_app. cbn [fblocks flat_map tblocks]. fold (fblocks G2). split; [psolve|].
      unfold cells. rewrite map_app. reflexivity. }
    intros s c B H E. cbn [read_loc write_loc]. rewrite E. rewrite <- (map_length (option_map cell_of) G1). fold (cells G1). rewrite nth_mid.
    split; [reflexivity|]. intro c'. rewrite set_mid. eexists. split; [reflexivity|]. split; [assumption|reflexivity].
  - assert (Ne : s0 :: p <> []) by discriminate. destruct (walk_hole _ _ _ _ _ Ne W) as (q & b & R & Hh & P1 & P2).
    exists (fun c => (q, b c) :: R ++ fblocks G1 ++ fblocks G2), (fun _ => cells (G1 ++ Some g :: G2)).
    split. { rewrite fblocks_app. cbn [fblocks flat_map tblocks]. fold (fblocks G2). rewrite P1. psolve. }
    split. { reflexivity. }
    split.
    { intro y. rewrite set_mid. rewrite fblocks_app. cbn [fblocks flat_map tblocks]. fold (fblocks G2). split; [rewrite (P2 y); psolve|].
      unfold cells. rewrite !map_app. cbn [map option_map]. rewrite cell_put by discriminate. reflexivity. }
    intros s c B H E. cbn [app] in H. destruct (Hh _ _ _ H) as [Hr Hw]. split; [assumption|]. intro c'. eexists. split; [apply Hw|].
    split; [|assumption]. cbn [set_heap heap app]. apply (heap_set _ _ _ (b c')) in H. exact H.
Qed.

Lemma exchange : forall s G L y a l x, rep s G (y :: L) -> fwalk G a = Some (l, x) ->
  read_loc l s = (s, Ret (cell_of x)) /\ exists s', write_loc l (cell_of y) s = (s', Ret tt) /\ rep s' (fput G a y) (x :: L).
Proof.
  intros s G L y a l x [E H] W. destruct (frame _ _ _ _ W) as (F & C & P1 & E1 & P2 & Hw). destruct (P2 y) as [P3 E3].
  assert (H1 : heap_is (heap s) (F (cell_of x) ++ blocks x ++ blocks y ++ lblocks L)).
  { eapply heap_is_perm; [|exact H]. rewrite P1. cbn [lblocks flat_map]. fold (lblocks L). psolve. }
  destruct (Hw _ _ _ H1 (eq_trans E E1)) as [Hr Hx]. split; [assumption|]. destruct (Hx (cell_of y)) as (s' & Ew & H2 & E2).
  exists s'. split; [assumption|]. split; [congruence|]. eapply heap_is_perm; [|exact H2]. rewrite P3. cbn [lblocks flat_map]. fold (lblocks L). psolve.
Qed.

Lemma read_ok : forall s G L a l x, rep s G L -> fwalk G a = Some (l, x) -> read_loc l s = (s, Ret (cell_of x)).
Proof. intros s G L a l x H W. apply (proj1 (rep_scalar _ _ _ GNull eq_refl)) in H. apply (exchange _ _ _ _ _ _ _ H W). Qed.

Lemma focus : forall G a l x, fwalk G a = Some (l, x) -> exists R, Permutation (fblocks G) (blocks x ++ R) /\
  forall y, cell_of y = cell_of x -> Permutation (fblocks (fput G a y)) (blocks y ++ R) /\ cells (fput G a y) = cells G.
Proof.
  intros G a l x W. destruct (frame _ _ _ _ W) as (F & C & P1 & E1 & P2 & _). exists (F (cell_of x)). split; [assumption|].
  intros y Ey. destruct (P2 y) as [P3 E3]. rewrite Ey in *. split; congruence.
Qed.

(** the heap, seen from a place *)
Lemma rep_focus : forall s G L a l x, rep s G L -> fwalk G a = Some (l, x) -> exists R, heap_is (heap s) (blocks x ++ R).
Proof.
  intros s G L a l x [E H] W. destruct (focus _ _ _ _ W) as (R & P & _). exists (R ++ lblocks L). eapply heap_is_perm; [|exact H].
  rewrite P. psolve.
Qed.

(** changing the block of a place: the cell stays, the loose trees are what
    the blocks say *)
Lemma refocus : forall s G L a l x q b b' X X' y L', rep s G L -> fwalk G a = Some (l, x) ->
  blocks x = (q, b) :: X -> blocks y = (q, b') :: X' -> cell_of y = cell_of x -> Permutation (X ++ lblocks L) (X' ++ lblocks L') ->
  set_block q b' s = (set_heap (set_nth q (Some b') (heap s)) s, Ret tt) /\
  rep (set_heap (set_nth q (Some b') (heap s)) s) (fput G a y) L'.
Proof.
  intros s G L a l x q b b' X X' y L' [E H] W Bx By C P. destruct (focus _ _ _ _ W) as (R & P1 & P2). destruct (P2 y C) as [P3 P4].
  assert (H1 : heap_is (heap s) ((q, b) :: X ++ R ++ lblocks L)).
  { eapply heap_is_perm; [|exact H]. rewrite P1, Bx. psolve. }
  split; [eapply set_block_ok; exact H1|]. split; [cbn [set_heap env]; congruence|]. cbn [set_heap heap].
  apply (heap_set _ _ _ b') in H1. eapply heap_is_perm; [|exact H1]. rewrite P3, By. cbn [app]. apply perm_skip.
  transitivity (R ++ X ++ lblocks L); [psolve|]. rewrite P. psolve.
Qed.

Lemma get_at : forall s G L a l x q b X, rep s G L -> fwalk G a = Some (l, x) -> blocks x = (q, b) :: X -> get_block q s = (s, Ret b).
Proof.
  intros s G L a l x q b X H W Bx. destruct (rep_focus _ _ _ _ _ _ H W) as (R & Hh). rewrite Bx in Hh. eapply get_block_ok. exact Hh.
Qed.

(** ** Loose trees *)
Lemma construct_heap : forall i s B, heap_is (heap s) B -> exists s' y, construct i s = (s', Ret (cell_of y)) /\ val_of y = init_value i /\
  env s' = env s /\ heap_is (heap s') (blocks y ++ B).
Proof.
  intros i s B H. destruct i as [|b|z|f|t| |].
  - exists s, GNull. auto.
  - exists s, (GBool b). auto.
  - exists s, (GInt z). auto.
  - exists s, (GFlt f). auto.
  - eexists. exists (GStr (length (heap s)) t). split; [reflexivity|]. split; [reflexivity|]. split; [reflexivity|]. apply heap_new. assumption.
  - eexists. exists (GArr (length (heap s)) 0 []). split; [reflexivity|]. split; [reflexivity|]. split; [reflexivity|]. apply heap_new. assumption.
  - eexists. exists (GObj (length (heap s)) []). split; [reflexivity|]. split; [reflexivity|]. split; [reflexivity|]. apply heap_new. assumption.
Qed.

Lemma construct_ok : forall i s G L, rep s G L -> exists s' y, construct i s = (s', Ret (cell_of y)) /\ val_of y = init_value i /\ rep s' G (y :: L).
Proof.
  intros i s G L [E H]. destruct (construct_heap i s _ H) as (s' & y & Ec & V & En & H1). exists s', y. split; [assumption|]. split; [assumption|].
  split; [congruence|]. eapply heap_is_perm; [|exact H1]. cbn [lblocks flat_map]. fold (lblocks L). psolve.
Qed.

Lemma drop_ok : forall s G L x, rep s G (x :: L) -> exists s', destroy_cell (cell_of x) s = (s', Ret tt) /\ rep s' G L.
Proof.
  intros s G L x [E H]. assert (H1 : heap_is (heap s) (blocks x ++ fblocks G ++ lblocks L)).
  { eapply heap_is_perm; [|exact H]. cbn [lblocks flat_map]. fold (lblocks L). psolve. }
  destruct (destroy_cell_ok x s _ H1) as (s' & Ed & V & H2 & _). exists s'. split; [assumption|]. split; [congruence|assumption].
Qed.

Lemma drop_all : forall l s G L, rep s G (l ++ L) -> exists s', iterm destroy_cell (map cell_of l) s = (s', Ret tt) /\ rep s' G L.
Proof.
  induction l as [|x l IH]; intros s G L H; cbn [map iterm].
  - exists s. split; [reflexivity|assumption].
  - cbn [app] in H. destruct (drop_ok _ _ _ _ H) as (s1 & E1 & H1). destruct (IH _ _ _ H1) as (s2 & E2 & H2).
    exists s2. unfold seqm. rewrite E1. auto.
Qed.

Lemma copy_at : forall s G L a l x, rep s G L -> fwalk G a = Some (l, x) ->
  exists s' y, copy_cell (cell_of x) s = (s', Ret (cell_of y)) /\ val_of y = val_of x /\ rep s' G (y :: L).
Proof.
  intros s G L a l x [E H] W. destruct (focus _ _ _ _ W) as (R & P & _).
  destruct (copy_cell_ok x s _ (R ++ lblocks L) H) as (s' & y & Ec & V & En & H1); [rewrite P; psolve|].
  exists s', y. split; [assumption|]. split; [assumption|]. split; [congruence|]. eapply heap_is_perm; [|exact H1].
  cbn [lblocks flat_map]. fold (lblocks L). psolve.
Qed.

(** ** Slots *)
Lemma cells_len : forall G, length (cells G) = length G.
Proof. intros. apply map_length. Qed.

Lemma push_slot_ok : forall s G L y, rep s G (y :: L) -> exists s', push_slot (cell_of y) s = (s', Ret (length G)) /\ rep s' (G ++ [Some y]) L.
Proof.
  intros s G L y [E H]. unfold push_slot. rewrite E, cells_len. eexists. split; [reflexivity|]. split.
  - cbn [set_env env]. unfold cells. rewrite map_app. reflexivity.
  - cbn [set_env heap]. eapply heap_is_perm; [|exact H]. rewrite fblocks_app. cbn [fblocks flat_map tblocks lblocks]. fold (lblocks L). psolve.
Qed.

Lemma last_slot : forall G y, fwalk (G ++ [Some y]) (length G, []) = Some (LSlot (length G), y).
Proof. intros. apply fwalk_new. Qed.

Lemma pop_slot_ok : forall s G L y, rep s (G ++ [Some y]) L -> exists s', pop_slot s = (s', Ret tt) /\ rep s' G L.
Proof.
  intros s G L y H. pose proof H as [E Hh].
  assert (N : env s <> []). { rewrite E. unfold cells. rewrite map_app. cbn. intro X. apply app_eq_nil in X. destruct X. discriminate. }
  unfold pop_slot. destruct (env s) as [|e0 es] eqn:En; [congruence|]. rewrite <- En in *.
  assert (Le : pred (length (env s)) = length G). { rewrite E, cells_len, app_length. cbn. lia. }
  rewrite Le. unfold seqm. rewrite (read_ok _ _ _ _ _ _ H (last_slot G y)).
  assert (H1 : heap_is (heap s) (blocks y ++ fblocks G ++ lblocks L)).
  { eapply heap_is_perm; [|exact Hh]. rewrite fblocks_app. cbn [fblocks flat_map tblocks]. psolve. }
  destruct (destroy_cell_ok y s _ H1) as (s1 & E1 & V1 & H2 & _). rewrite E1. eexists. split; [reflexivity|]. split.
  - cbn [set_env env]. rewrite V1, E. unfold cells. rewrite map_app. cbn [map]. rewrite removelast_last. reflexivity.
  - assumption.
Qed.

Definition thrown {A} (o : outcome A) : Prop := match o with Ret _ | Throw _ => True | _ => False end.

Lemma with_temp_ok : forall A (m : loc -> M A) s G L y (o : outcome A) (Q : forest -> list gt -> Prop), thrown o -> rep s G (y :: L) ->
  (forall s1, rep s1 (G ++ [Some y]) L -> exists s2 G' y' L', m (LSlot (length G)) s1 = (s2, o) /\ rep s2 (G' ++ [Some y']) L' /\ Q G' L') ->
  exists s' G' L', with_temp (cell_of y) m s = (s', o) /\ rep s' G' L' /\ Q G' L'.
Proof.
  intros A m s G L y o Q T H Hm. unfold with_temp, seqm at 1. destruct (push_slot_ok _ _ _ _ H) as (s1 & E1 & H1). rewrite E1.
  destruct (Hm s1 H1) as (s2 & G' & y' & L' & E2 & H2 & HQ). destruct (pop_slot_ok _ _ _ _ H2) as (s3 & E3 & H3).
  exists s3, G', L'. split; [|auto]. unfold finally. rewrite E2. destruct o; try contradiction; unfold seqm; rewrite E3; reflexivity.
Qed.

(** ** Places have different locations *)
Definition flip (y : gt) : gt := match y with GNull => GBool true | _ => GNull end.
Lemma flip_cell : forall y, cell_of (flip y) <> cell_of y.
Proof. intros []; discriminate. Qed.
Lemma flip_blocks : forall y, blocks (flip y) = [].
Proof. intros []; reflexivity. Qed.

Lemma loc_diff1 : forall s G L a b la lb x y, rep s G L -> fwalk G a = Some (la, x) -> fwalk G b = Some (lb, y) -> ~ below a b -> la <> lb.
Proof.
  intros s G L a b la lb x y H Wa Wb N E. subst lb.
  pose proof (proj1 (rep_scalar _ _ _ (flip y) (flip_blocks y)) H) as H0.
  destruct (exchange _ _ _ _ _ _ _ H0 Wa) as (_ & s' & _ & H1).
  pose proof (read_ok _ _ _ _ _ _ H1 (fwalk_put_same _ _ (flip y) _ _ Wa)) as R1.
  destruct (places a b) as [P|[P|P]]; [| contradiction|].
  - rewrite <- (fwalk_put_apart G a b (flip y) P) in Wb. pose proof (read_ok _ _ _ _ _ _ H1 Wb) as R2. rewrite R1 in R2.
    injection R2 as R2. apply (flip_cell y). assumption.
  - apply below_ext in P. destruct P as [t ->]. destruct t as [|s0 t].
    + apply N. unfold ext. rewrite app_nil_r. rewrite <- surjective_pairing. apply below_refl.
    + pose proof (fwalk_put_below G b (s0 :: t) (flip y) _ _ Wb) as Wb'. pose proof (read_ok _ _ _ _ _ _ H1 Wb') as R2.
      rewrite R1 in R2. rewrite cell_put in R2 by discriminate. injection R2 as R2. apply (flip_cell y). assumption.
Qed.

Lemma loc_diff : forall s G L a b la lb x y, rep s G L -> fwalk G a = Some (la, x) -> fwalk G b = Some (lb, y) -> a <> b -> la <> lb.
Proof.
  intros s G L a b la lb x y H Wa Wb D. destruct (places a b) as [P|[P|P]].
  - eapply loc_diff1; try eassumption. apply fapart_not_below. assumption.
  - intro E. symmetry in E. revert E. eapply loc_diff1; try eassumption. intro Q. apply D. apply below_anti; assumption.
  - eapply loc_diff1; try eassumption. intro Q. apply D. apply below_anti; assumption.
Qed.

Lemma loc_eqb_iff : forall a b, loc_eqb a b = true <-> a = b.
Proof.
  intros [n|p g i|p k] [m|q h j|q k']; cbn [loc_eqb]; rewrite ?Bool.andb_true_iff, ?Nat.eqb_eq, ?str_eqb_iff; split; intro H; try discriminate; intuition congruence.
Qed.

Lemma loc_eqb_no : forall a b, a <> b -> loc_eqb a b = false.
Proof. intros a b H. destruct (loc_eqb a b) eqn:E; [|reflexivity]. apply loc_eqb_iff in E. contradiction. Qed.

(** ** Writes *)
Lemma block_cases : forall s q, (exists b, nth_error (heap s) q = Some (Some b)) \/ (get_block q s = (s, UB) /\ forall b, set_block q b s = (s, UB)).
Proof. intros s q. unfold get_block, set_block. destruct (nth_error (heap s) q) as [[b|]|]; eauto. Qed.

Lemma set_heap_env : forall h s, env (set_heap h s) = env s.
Proof. reflexivity. Qed.

(** what a successful write is *)
Inductive wrote : loc -> cell -> hstate -> hstate -> Prop :=
| wr_slot n c s c0 : nth_error (env s) n = Some (Some c0) -> wrote (LSlot n) c s (mkSt (set_nth n (Some c) (env s)) (heap s))
| wr_elem p g i c s l : nth_error (heap s) p = Some (Some (BArr g l)) -> i < length l ->
    wrote (LElem p g i) c s (mkSt (env s) (set_nth p (Some (BArr g (set_nth i c l))) (heap s)))
| wr_member p k c s m c0 : nth_error (heap s) p = Some (Some (BObj m)) -> obj_find k m = Some c0 ->
    wrote (LMember p k) c s (mkSt (env s) (set_nth p (Some (BObj (obj_upd k c m))) (heap s))).

Lemma write_iff : forall l c s s', write_loc l c s = (s', Ret tt) <-> wrote l c s s'.
Proof.
  intros l c s s'. split.
  - destruct l as [n|p g i|p k]; cbn [write_loc].
    + destruct (nth_error (env s) n) as [[c0|]|] eqn:E; intro H; try discriminate. injection H as <-. econstructor. eassumption.
    + unfold seqm, get_block. destruct (nth_error (heap s) p) as [[b|]|] eqn:E; try discriminate. destruct b as [|g' l|]; try discriminate.
      destruct (g =? g') eqn:Eg; cbn [andb]; [|discriminate]. apply Nat.eqb_eq in Eg. subst g'.
      destruct (i <? length l) eqn:Ei; [|discriminate]. apply Nat.ltb_lt in Ei. unfold set_block. rewrite E. intro H. injection H as <-.
      econstructor; eassumption.
    + unfold seqm, get_block. destruct (nth_error (heap s) p) as [[b|]|] eqn:E; try discriminate. destruct b as [| |m]; try discriminate.
      destruct (obj_find k m) as [c0|] eqn:F; [|discriminate]. unfold set_block. rewrite E. intro H. injection H as <-. econstructor; eassumption.
  - intros [n c1 s1 c0 E|p g i c1 s1 l1 E Li|p k c1 s1 m c0 E F]; cbn [write_loc].
    + rewrite E. reflexivity.
    + unfold seqm, get_block, set_block. rewrite E, Nat.eqb_refl. cbn [andb]. apply Nat.ltb_lt in Li. rewrite Li, E. reflexivity.
    + unfold seqm, get_block, set_block. rewrite E, F, E. reflexivity.
Qed.

Lemma wrote_collapse : forall l c c' s s1 s2, wrote l c s s1 -> wrote l c' s1 s2 -> wrote l c' s s2.
Proof.
  intros l c c' s s1 s2 H1 H2. destruct H1 as [n c s c0 E|p g i c s l E Li|p k c s m c0 E F].
  - remember (LSlot n) as l eqn:El. remember (mkSt (set_nth n (Some c) (env s)) (heap s)) as s0 eqn:Es. destruct H2 as [n' c' s' c1 E'|p' g' i' c' s' l' E' Li'|p' k' c' s' m' c1 E' F']; try discriminate.
    injection El as ->. subst. cbn [env heap] in *. rewrite set_set. econstructor. eassumption.
  - remember (LElem p g i) as l0 eqn:El. remember (mkSt (env s) (set_nth p (Some (BArr g (set_nth i c l))) (heap s))) as s0 eqn:Es.
    destruct H2 as [n' c' s' c1 E'|p' g' i' c' s' l' E' Li'|p' k' c' s' m' c1 E' F']; try discriminate.
    injection El as E1 E2 E3. subst. cbn [env heap] in *. rewrite nth_set_same in E' by (eapply nth_lt; eassumption).
    injection E' as <-. rewrite !set_set. econstructor; eassumption.
  - remember (LMember p k) as l0 eqn:El. remember (mkSt (env s) (set_nth p (Some (BObj (obj_upd k c m))) (heap s))) as s0 eqn:Es.
    destruct H2 as [n' c' s' c1 E'|p' g' i' c' s' l' E' Li'|p' k' c' s' m' c1 E' F']; try discriminate.
    injection El as E1 E2. subst. cbn [env heap] in *. rewrite nth_set_same in E' by (eapply nth_lt; eassumption).
    injection E' as <-. rewrite !set_set, upd_upd. econstructor; eassumption.
Qed.

Lemma wrote_commute : forall a b c d s s1 s2, a <> b -> wrote b d s s1 -> wrote a c s1 s2 -> exists s1', wrote a c s s1' /\ wrote b d s1' s2.
Proof.
  intros a b c d s s1 s2 D H1 H2.
  destruct H1 as [n d s d0 E|p g i d s l E Li|p k d s m d0 E F].
  - remember (mkSt (set_nth n (Some d) (env s)) (heap s)) as s0 eqn:Es.
    destruct H2 as [n' c s' c1 E'|p' g' i' c s' l' E' Li'|p' k' c s' m' c1 E' F']; subst; cbn [env heap] in *.
    + assert (X : n <> n') by congruence. rewrite nth_set_other in E' by assumption. eexists. split; [econstructor; eassumption|].
      rewrite set_comm by congruence. apply (wr_slot n d (mkSt (set_nth n' (Some c) (env s)) (heap s)) d0). cbn [env]. rewrite nth_set_other by congruence. eassumption.
    + eexists. split; [econstructor; eassumption|]. apply (wr_slot n d (mkSt (env s) _) d0). exact E.
    + eexists. split; [econstructor; eassumption|]. apply (wr_slot n d (mkSt (env s) _) d0). exact E.
  - remember (mkSt (env s) (set_nth p (Some (BArr g (set_nth i d l))) (heap s))) as s0 eqn:Es.
    destruct H2 as [n' c s' c1 E'|p' g' i' c s' l' E' Li'|p' k' c s' m' c1 E' F']; subst; cbn [env heap] in *.
    + eexists. split; [econstructor; eassumption|]. apply (wr_elem p g i d (mkSt _ (heap s))); assumption.
    + destruct (Nat.eq_dec p p') as [<-|X].
      * rewrite nth_set_same in E' by (eapply nth_lt; eassumption). injection E' as E1 E2. subst.
        assert (Y : i <> i') by congruence. rewrite length_set in Li'. eexists. split; [econstructor; eassumption|].
        rewrite set_set, set_comm by congruence.
        pose proof (wr_elem p g' i d (mkSt (env s) (set_nth p (Some (BArr g' (set_nth i' c l))) (heap s))) (set_nth i' c l)) as K.
        cbn [env heap] in K. rewrite set_set in K. apply K; [apply nth_set_same; eapply nth_lt; eassumption|rewrite length_set; assumption].
      * rewrite nth_set_other in E' by assumption. eexists. split; [econstructor; eassumption|].
        rewrite set_comm by congruence. apply (wr_elem p g i d (mkSt _ (set_nth p' _ (heap s)))); [|assumption]. cbn [heap]. rewrite nth_set_other by congruence. assumption.
    + destruct (Nat.eq_dec p p') as [<-|X].
      * rewrite nth_set_same in E' by (eapply nth_lt; eassumption). discriminate.
      * rewrite nth_set_other in E' by assumption. eexists. split; [econstructor; eassumption|].
        rewrite set_comm by congruence. apply (wr_elem p g i d (mkSt _ (set_nth p' _ (heap s)))); [|assumption]. cbn [heap]. rewrite nth_set_other by congruence. assumption.
  - remember (mkSt (env s) (set_nth p (Some (BObj (obj_upd k d m))) (heap s))) as s0 eqn:Es.
    destruct H2 as [n' c s' c1 E'|p' g' i' c s' l' E' Li'|p' k' c s' m' c1 E' F']; subst; cbn [env heap] in *.
    + eexists. split; [econstructor; eassumption|]. apply (wr_member p k d (mkSt _ (heap s)) m d0); assumption.
    + destruct (Nat.eq_dec p p') as [<-|X].
      * rewrite nth_set_same in E' by (eapply nth_lt; eassumption). discriminate.
      * rewrite nth_set_other in E' by assumption. eexists. split; [econstructor; eassumption|].
        rewrite set_comm by congruence. apply (wr_member p k d (mkSt _ (set_nth p' _ (heap s))) m d0); [|assumption]. cbn [heap]. rewrite nth_set_other by congruence. assumption.
    + destruct (Nat.eq_dec p p') as [<-|X].
      * rewrite nth_set_same in E' by (eapply nth_lt; eassumption). injection E' as E1. subst.
        assert (Y : k <> k') by congruence. rewrite find_upd_other in F' by congruence. eexists. split; [econstructor; eassumption|].
        rewrite set_set, upd_comm by congruence.
        pose proof (wr_member p k d (mkSt (env s) (set_nth p (Some (BObj (obj_upd k' c m))) (heap s))) (obj_upd k' c m) d0) as K.
        cbn [env heap] in K. rewrite set_set in K. apply K; [apply nth_set_same; eapply nth_lt; eassumption|rewrite find_upd_other by assumption; assumption].
      * rewrite nth_set_other in E' by assumption. eexists. split; [econstructor; eassumption|].
        rewrite set_comm by congruence. apply (wr_member p k d (mkSt _ (set_nth p' _ (heap s))) m d0); [|assumption]. cbn [heap]. rewrite nth_set_other by congruence. assumption.
Qed.

(** ** swap *)
Lemma swap_ok : forall s G L a b la lb x y, rep s G L -> fwalk G a = Some (la, x) -> fwalk G b = Some (lb, y) -> fapart a b ->
  exists s', swap la lb s = (s', Ret tt) /\ rep s' (fput (fput G a y) b x) L.
Proof.
  intros s G L a b la lb x y H Wa Wb P.
  assert (D : la <> lb) by (eapply loc_diff1; try eassumption; apply fapart_not_below; assumption).
  pose proof (proj1 (rep_scalar _ _ _ GNull eq_refl) H) as H0.
  destruct (exchange _ _ _ _ _ _ _ H0 Wb) as (Rb & s1 & E1 & H1).
  pose proof Wa as Wa1. rewrite <- (fwalk_put_apart G b a GNull (fapart_sym _ _ P)) in Wa1.
  destruct (exchange _ _ _ _ _ _ _ H1 Wa1) as (_ & s2 & E2 & H2).
  pose proof (fwalk_put_same _ _ GNull _ _ Wb) as Wb2. rewrite <- (fwalk_put_apart _ a b y P) in Wb2.
  destruct (exchange _ _ _ _ _ _ _ H2 Wb2) as (_ & s3 & E3 & H3).
  apply (proj2 (rep_scalar _ _ _ GNull eq_refl)) in H3. exists s3. split.
  - apply write_iff in E1. apply write_iff in E2. apply write_iff in E3.
    destruct (wrote_commute _ _ _ _ _ _ _ D E1 E2) as (s1' & F1 & F2). pose proof (wrote_collapse _ _ _ _ _ _ F2 E3) as F3.
    apply write_iff in F1. apply write_iff in F3. unfold swap, seqm. rewrite (read_ok _ _ _ _ _ _ H Wa), Rb, F1. exact F3.
  - rewrite <- (fput_fput_apart G a b y GNull P) in H3.
    pose proof Wb as Wb'. rewrite <- (fwalk_put_apart G a b y P) in Wb'.
    rewrite (fput_fput_same _ _ _ _ _ _ Wb') in H3. exact H3.
Qed.

Lemma swap_self : forall s G L a l x, rep s G L -> fwalk G a = Some (l, x) -> swap l l s = (s, Ret tt).
Proof.
  intros s G L a l x H W. unfold swap, seqm. rewrite (read_ok _ _ _ _ _ _ H W), (read_ok _ _ _ _ _ _ H W).
  assert (E : write_loc l (cell_of x) s = (s, Ret tt)).
  { pose proof (read_ok _ _ _ _ _ _ H W) as R. destruct l as [n|p g i|p k]; cbn [read_loc write_loc] in *.
    - destruct (nth_error (env s) n) as [[c|]|] eqn:E; try discriminate. injection R as ->. rewrite set_same by assumption. destruct s; reflexivity.
    - unfold seqm, get_block, set_block in *. destruct (nth_error (heap s) p) as [[b|]|] eqn:E; try discriminate.
      destruct b as [|g' l|]; try discriminate. destruct (g =? g'); [|discriminate]. destruct (nth_error l i) as [c|] eqn:F; [|discriminate].
      cbn [ret] in R. injection R as ->. cbn [andb]. assert (X : (i <? length l) = true) by (apply Nat.ltb_lt; eapply nth_lt; eassumption).
      rewrite X, E. rewrite (set_same _ l) by assumption. rewrite set_same by assumption. destruct s; reflexivity.
    - unfold seqm, get_block, set_block in *. destruct (nth_error (heap s) p) as [[b|]|] eqn:E; try discriminate.
      destruct b as [| |m]; try discriminate. destruct (obj_find k m) as [c|] eqn:F; [|discriminate].
      cbn [ret] in R. injection R as ->. rewrite E, (upd_same _ k (cell_of x) m) by assumption. rewrite set_same by assumption. destruct s; reflexivity. }
  rewrite E. exact E.
Qed.

(** ** Moves and assignment *)
Lemma move_from_ok : forall s G L a l x, rep s G L -> fwalk G a = Some (l, x) ->
  exists s', move_from l s = (s', Ret (cell_of x)) /\ rep s' (fput G a GNull) (x :: L).
Proof.
  intros s G L a l x H W. apply (proj1 (rep_scalar _ _ _ GNull eq_refl)) in H. destruct (exchange _ _ _ _ _ _ _ H W) as (R & s' & E & H1).
  exists s'. split; [|assumption]. unfold move_from, seqm. rewrite R. change (mkCell TNull WZero) with (cell_of GNull). rewrite E.
  cbn [ret]. destruct (cell_of x); reflexivity.
Qed.

Lemma new_apart : forall G a t l x, fwalk G a = Some (l, x) -> fapart a (length G, t).
Proof. intros G a t l x H. left. cbn [fst]. apply fwalk_lt in H. lia. Qed.

Lemma place_dec : forall a b : place, a = b \/ a <> b.
Proof. intros [n p] [m r]. destruct (Nat.eq_dec n m); [destruct (list_eq_dec sel_dec p r)|]; [left|right|right]; congruence. Qed.

Lemma assign_copy_ok : forall s G L a b la lb x y, rep s G L -> fwalk G a = Some (la, x) -> fwalk G b = Some (lb, y) ->
  exists s' y', assign_copy la lb s = (s', Ret tt) /\ val_of y' = val_of y /\ rep s' (fput G a y') L.
Proof.
  intros s G L a b la lb x y H Wa Wb. unfold assign_copy.
  destruct (loc_eqb la lb) eqn:E.
  - apply loc_eqb_iff in E. subst lb. exists s, x. split; [reflexivity|]. rewrite (fput_same _ _ _ _ Wa). split; [|assumption].
    destruct (place_dec a b) as [<-|D]; [congruence|]. exfalso. apply (loc_diff _ _ _ _ _ _ _ _ _ H Wa Wb D). reflexivity.
  - unfold seqm at 1. rewrite (read_ok _ _ _ _ _ _ H Wb). destruct (copy_at _ _ _ _ _ _ H Wb) as (s1 & y' & E1 & V & H1).
    unfold seqm. rewrite E1.
    destruct (with_temp_ok unit (fun t => swap la t) s1 G L y' (Ret tt) (fun G' L' => G' = fput G a y' /\ L' = L) Logic.I H1) as (s' & G' & L' & E2 & H2 & [-> ->]).
    + intros s2 H2. destruct (swap_ok _ _ _ a (length G, []) _ _ _ _ H2 (fwalk_grow _ _ _ _ _ Wa) (last_slot G y') (new_apart _ _ _ _ _ Wa)) as (s3 & E3 & H3).
      rewrite (fput_grow _ _ _ _ _ _ Wa) in H3. rewrite <- (length_fput G a y') in H3. rewrite fput_new in H3.
      exists s3, (fput G a y'), x, L. auto.
    + exists s', y'. auto.
Qed.

Lemma assign_move_self : forall l s, assign_move l l s = (s, Ret tt).
Proof. intros l s. unfold assign_move. rewrite (proj2 (loc_eqb_iff l l) eq_refl). reflexivity. Qed.

Lemma assign_move_ok : forall s G L a b la lb x y, rep s G L -> fwalk G a = Some (la, x) -> fwalk G b = Some (lb, y) -> ~ below b a ->
  exists s', assign_move la lb s = (s', Ret tt) /\ rep s' (fput (fput G b GNull) a y) L.
Proof.
  intros s G L a b la lb x y H Wa Wb N. assert (D : a <> b) by (intros ->; apply N; apply below_refl).
  unfold assign_move. rewrite (loc_eqb_no la lb) by (eapply loc_diff; eassumption).
  destruct (move_from_ok _ _ _ _ _ _ H Wa) as (s1 & E1 & H1). unfold seqm at 1. rewrite E1.
  destruct (with_temp_ok unit (fun _ => swap la lb) s1 (fput G a GNull) L x (Ret tt) (fun G' L' => G' = fput (fput G b GNull) a y /\ L' = L) Logic.I H1) as (s' & G' & L' & E2 & H2 & [-> ->]); [|eauto].
  intros s2 H2. pose proof (fwalk_put_same _ _ GNull _ _ Wa) as Wa2.
  destruct (places a b) as [P|[P|P]]; [| |contradiction].
  - pose proof Wb as Wb2. rewrite <- (fwalk_put_apart G a b GNull P) in Wb2.
    destruct (swap_ok _ _ _ a b _ _ _ _ H2 (fwalk_grow _ _ _ _ _ Wa2) (fwalk_grow _ _ _ _ _ Wb2) P) as (s3 & E3 & H3).
    exists s3, (fput (fput G b GNull) a y), x, L. split; [assumption|]. split; [|auto].
    rewrite (fput_grow _ _ _ _ _ _ Wa2) in H3.
    rewrite (fput_grow _ _ b GNull lb y) in H3 by (rewrite fwalk_put_apart by assumption; assumption).
    rewrite (fput_fput_same _ _ _ _ _ _ Wa) in H3. rewrite (fput_fput_apart _ _ _ _ _ P) in H3. exact H3.
  - apply below_ext in P. destruct P as [t ->]. assert (T : t <> []).
    { intros ->. apply D. unfold ext. rewrite app_nil_r. apply surjective_pairing. }
    assert (Wt : fwalk (fput G a GNull ++ [Some x]) (length (fput G a GNull), t) = Some (lb, y)).
    { rewrite fwalk_new. rewrite (fwalk_ext _ _ _ _ _ Wa) in Wb. rewrite (walk_free _ _ la) by assumption. assumption. }
    destruct (swap_ok _ _ _ a (length (fput G a GNull), t) _ _ _ _ H2 (fwalk_grow _ _ _ _ _ Wa2) Wt (new_apart _ _ _ _ _ Wa2)) as (s3 & E3 & H3).
    exists s3, (fput (fput G (ext a t) GNull) a y), (gput t GNull x), L. split; [assumption|]. split; [|auto].
    rewrite (fput_grow _ _ _ _ _ _ Wa2) in H3. rewrite (fput_fput_same _ _ _ _ _ _ Wa) in H3.
    rewrite (length_fput G a GNull), <- (length_fput G a y) in H3. rewrite fput_new in H3. rewrite (fput_fput_pre _ _ _ _ _ _ _ Wa). exact H3.
Qed.

Lemma assign_new_ok : forall i s G L a la x, rep s G L -> fwalk G a = Some (la, x) ->
  exists s' y, assign_new la i s = (s', Ret tt) /\ val_of y = init_value i /\ rep s' (fput G a y) L.
Proof.
  intros i s G L a la x H Wa. unfold assign_new. destruct (construct_ok i _ _ _ H) as (s1 & y & E1 & V & H1). unfold seqm at 1. rewrite E1.
  destruct (with_temp_ok unit (fun t => assign_move la t) s1 G L y (Ret tt) (fun G' L' => G' = fput G a y /\ L' = L) Logic.I H1) as (s' & G' & L' & E2 & H2 & [-> ->]); [|eauto].
  intros s2 H2. pose proof (new_apart _ _ [] _ _ Wa) as P.
  destruct (assign_move_ok _ _ _ a (length G, []) _ _ _ _ H2 (fwalk_grow _ _ _ _ _ Wa) (last_slot G y)) as (s3 & E3 & H3).
  { apply fapart_not_below. apply fapart_sym. assumption. }
  exists s3, (fput G a y), GNull, L. split; [assumption|]. split; [|auto]. rewrite fput_new in H3. cbn [gput] in H3.
  rewrite (fput_grow _ _ _ _ _ _ Wa) in H3. exact H3.
Qed.

Lemma replace_ok : forall i s G L a la x, rep s G L -> fwalk G a = Some (la, x) ->
  exists s' y, replace_with la i s = (s', Ret tt) /\ val_of y = init_value i /\ rep s' (fput G a y) L.
Proof.
  intros i s G L a la x [E H] W. destruct (frame _ _ _ _ W) as (F & C & P1 & E1 & P2 & Hw).
  assert (H1 : heap_is (heap s) (F (cell_of x) ++ blocks x ++ lblocks L)) by (eapply heap_is_perm; [|exact H]; rewrite P1; psolve).
  destruct (Hw _ _ _ H1 (eq_trans E E1)) as [Hr _]. unfold replace_with, seqm. rewrite Hr.
  assert (H2 : heap_is (heap s) (blocks x ++ F (cell_of x) ++ lblocks L)) by (eapply heap_is_perm; [|exact H1]; psolve).
  destruct (destroy_cell_ok x s _ H2) as (s1 & D1 & V1 & H3 & _). rewrite D1.
  destruct (construct_heap i s1 _ H3) as (s2 & y & D2 & Vy & V2 & H4). rewrite D2.
  assert (H5 : heap_is (heap s2) (F (cell_of x) ++ blocks y ++ lblocks L)) by (eapply heap_is_perm; [|exact H4]; psolve).
  assert (E2 : env s2 = C (cell_of x)) by congruence.
  destruct (Hw _ _ _ H5 E2) as [_ Hx]. destruct (Hx (cell_of y)) as (s3 & D3 & H6 & E3). exists s3, y. split; [assumption|]. split; [assumption|].
  destruct (P2 y) as [P3 E4]. split; [congruence|]. eapply heap_is_perm; [|exact H6]. rewrite P3. psolve.
Qed.
