(** Making values from C++ objects: all of it, or std::bad_alloc and a bounded
    loss. *)
From Coq Require Import Lia Permutation Arith Sorted.
From Verif Require Import Base Value ValueOps SpecGrammar ObjFacts SpecText SpecValue ValueProofs Cpp Convert SpecConv ConvOrder ConvTo
  Heap SpecHeap HeapGhost HeapPaths HeapOps HeapProofs Alloc SpecAlloc AllocRules AllocProofs AllocMain ConvHeap SpecConvHeap.
Open Scope nat_scope.

Lemma needs_count : forall v, needs v = count v.
Proof. reflexivity. Qed.

Lemma height_needs : forall v, height v <= needs v.
Proof.
  assert (M : forall l, list_max l <= list_sum l).
  { induction l as [|x l IH]; cbn; [lia|]. unfold list_max, list_sum in IH. lia. }
  assert (S1 : forall A (f g : A -> nat) l, (forall x, In x l -> f x <= g x) -> list_max (map f l) <= list_sum (map g l)).
  { intros A f g l H. etransitivity; [apply M|]. induction l as [|x l IH]; cbn; [lia|]. unfold list_sum in IH.
    pose proof (H x (or_introl eq_refl)). specialize (IH (fun y Hy => H y (or_intror Hy))). lia. }
  intro v. induction v as [| | | | |l IH|m IH] using value_deep; cbn [height needs]; try lia.
  - apply le_n_S. apply S1. assumption.
  - apply le_n_S. apply S1. intros [k x] I. apply (IH k). assumption.
Qed.

(** ** Copies of values outside the heap *)
Lemma fconstruct_heap : forall i s pl B, heap_is (heap s) B -> outF (fconstruct i) s pl (made s B (init_value i)) (lost s B (ilost i)).
Proof.
  intros i s pl B H.
  assert (J : forall j, fconstruct j = lift (construct j) -> outF (fconstruct j) s pl (made s B (init_value j)) (lost s B (ilost j))).
  { intros j Ej. rewrite Ej. destruct (construct_heap j s _ H) as (s3 & y & D3 & V3 & E4 & H5). eapply out_lift; [exact D3|]. exists y. auto. }
  destruct i; try (apply J; reflexivity); cbn [fconstruct].
  - eapply out_seq; [apply (fcreate_text s0 s pl _ H)|]. intros s' p pl' [E4 H5]. apply out_ret. exists (GStr p s0). auto.
  - eapply out_seq; [apply (fcreate_now (BArr 0 []) s pl _ H)|]. intros s' p pl' [E4 H5]. apply out_ret. exists (GArr p 0 []). auto.
  - eapply out_seq; [apply (fcreate_now (BObj []) s pl _ H)|]. intros s' p pl' [E4 H5]. apply out_ret. exists (GObj p []). auto.
Qed.

Lemma fmap_new : forall A C (f : A -> F C) (undo : C -> M unit) (mk : A -> cell -> C) (val : A -> value) n l,
  (forall a c, undo (mk a c) = destroy_cell c) ->
  (forall x, In x l -> forall s pl B, heap_is (heap s) B ->
     outF (f x) s pl (fun s' r => exists y, r = mk x (cell_of y) /\ val_of y = val x /\ env s' = env s /\ heap_is (heap s') (blocks y ++ B)) (lost s B n)) ->
  forall s pl B, heap_is (heap s) B ->
  outF (fmapm f undo l) s pl (fun s' r => exists ys, r = map (fun xy => mk (fst xy) (cell_of (snd xy))) (combine l ys) /\ length ys = length l /\
    map val_of ys = map val l /\ env s' = env s /\ heap_is (heap s') (flat_map blocks ys ++ B)) (lost s B n).
Proof.
  intros A C f undo mk val n l U. induction l as [|x l IH]; intros Hf s pl B H; cbn [fmapm].
  - apply out_ret. exists []. cbn. auto.
  - eapply out_seq; [apply (Hf x (or_introl eq_refl) s pl B H)|]. intros s1 r pl1 (y & -> & V1 & N1 & H1).
    eapply out_seq.
    + eapply out_throw; [apply (IH (fun z Hz => Hf z (or_intror Hz)) s1 pl1 (blocks y ++ B) H1)|].
      intros s2 (K & L & E & Hh). rewrite U.
      assert (H2 : heap_is (heap s2) (blocks y ++ raws K ++ B)) by (eapply heap_is_perm; [|exact Hh]; psolve).
      destruct (destroy_cell_ok y s2 _ H2) as (s3 & E3 & V3 & H3 & _). exists s3. split; [exact E3|]. exists K. split; [exact L|]. split; [congruence|exact H3].
    + intros s2 r pl2 (ys & -> & L2 & V2 & N2 & H2). apply out_ret. exists (y :: ys). split; [reflexivity|]. split; [cbn; congruence|].
      split; [cbn [map]; congruence|]. split; [congruence|]. eapply heap_is_perm; [|exact H2]. cbn [flat_map]. psolve.
Qed.

Lemma each_arr : forall l, (fix each (l : list value) : F (list cell) :=
   match l with
   | [] => fret []
   | x :: l' => let! y <- fbuild x; let! ys <- on_throw (each l') (destroy_cell y); fret (y :: ys)
   end) l = fmapm fbuild destroy_cell l.
Proof. induction l as [|x l IH]; [reflexivity|]. cbn [fmapm]. rewrite <- IH. reflexivity. Qed.

Definition build_entry (kv : str * value) : F (str * cell) := let! _ <- alloc; let! _ <- alloc; let! y <- fbuild (snd kv); fret (fst kv, y).

Lemma fseq_assoc : forall A B C (m : F A) (f : A -> F B) (g : B -> F C) s, fseq (fseq m f) g s = fseq m (fun x => fseq (f x) g) s.
Proof. intros. unfold fseq. destruct (m s) as [s1 []]; reflexivity. Qed.
Lemma fseq_ext : forall A B (m : F A) (f g : A -> F B) s, (forall a s', f a s' = g a s') -> fseq m f s = fseq m g s.
Proof. intros. unfold fseq. destruct (m s) as [s1 []]; auto. Qed.

Lemma each_obj : forall m s, (fix each (m : list (str * value)) : F (list (str * cell)) :=
   match m with
   | [] => fret []
   | (k, x) :: m' => let! _ <- alloc; let! _ <- alloc; let! y <- fbuild x; let! ys <- on_throw (each m') (destroy_cell y); fret ((k, y) :: ys)
   end) m s = fmapm build_entry (fun kc => destroy_cell (snd kc)) m s.
Proof.
  induction m as [|[k x] m IH]; intro s; [reflexivity|]. cbn [fmapm]. unfold build_entry at 1. cbn [fst snd].
  rewrite fseq_assoc. apply fseq_ext. intros [] s1. rewrite fseq_assoc. apply fseq_ext. intros [] s2. rewrite fseq_assoc. apply fseq_ext. intros y s3.
  unfold fseq at 3, fret at 4. unfold fseq. cbn [snd]. unfold on_throw. rewrite IH. reflexivity.
Qed.

Lemma fbuild_ok : forall v s pl B, heap_is (heap s) B -> outF (fbuild v) s pl (made s B v) (lost s B (height v)).
Proof.
  intro v. induction v as [| | | | |l IH|m IH] using value_deep; intros s0 pl B H; cbn [fbuild].
  - apply (fconstruct_heap INull); assumption.
  - apply (fconstruct_heap (IInt z)); assumption.
  - apply (fconstruct_heap (IFloat f)); assumption.
  - apply (fconstruct_heap (IStr s)); assumption.
  - apply (fconstruct_heap (IBool b)); assumption.
  - rewrite each_arr. eapply out_seq.
    + apply (fcreate_ok _ s0 pl B (fun b C => exists ys, b = BArr 0 (map cell_of ys) /\ C = flat_map blocks ys /\ map val_of ys = l)
        (list_max (map height l)) H). intros s1 q pl1 E1 H1.
      eapply out_seq with (ok1 := fun s' _ => s' = s1); [apply out_alloc; [reflexivity|apply lost_none; assumption]|]. intros s' a pl2 ->.
      eapply out_seq.
      * apply (fmap_new value cell fbuild destroy_cell (fun _ c => c) (fun v => v) (list_max (map height l)) l) with (B := (q, BStr []) :: B).
        -- reflexivity.
        -- intros y Hy s2 pl3 B2 H2. eapply out_weak; [apply (IH y Hy _ _ _ H2)| |].
           ++ intros s3 c (y' & -> & R). exists y'. auto.
           ++ intros s3. apply lost_mono. apply (in_max _ height). assumption.
        -- assumption.
      * intros s2 r pl3 (ys & -> & L & V & N & Hh). apply out_ret. exists (flat_map blocks ys). split; [|split; [congruence|exact Hh]].
        exists ys. rewrite map_id in V. split; [|auto]. f_equal. rewrite <- (map_map snd cell_of). rewrite combine_snd by assumption. reflexivity.
    + intros s2 q pl2 (b & C & (ys & -> & -> & V) & E2 & H2). apply out_ret. exists (GArr q 0 ys). split; [reflexivity|]. split; [cbn [val_of]; congruence|]. auto.
  - assert (Hh : forall y, In y m -> height (snd y) <= list_max (map (fun kv => height (snd kv)) m)) by (intros y Hy; apply (in_max _ (fun kx : str * value => height (snd kx))); assumption).
    eapply out_seq.
    + change (height (VObj m)) with (S (list_max (map (fun kv => height (snd kv)) m))).
      apply (fcreate_ok _ s0 pl B (fun b C => exists m', b = BObj (vmap cell_of m') /\ C = flat_map (fun kx => blocks (snd kx)) m' /\ vmap val_of m' = m)
        (list_max (map (fun kv => height (snd kv)) m)) H). intros s1 q pl1 E1 H1.
      eapply out_seq.
      * eapply outF_ext; [intro; symmetry; apply each_obj|].
        apply (fmap_new (str * value) (str * cell) build_entry (fun kc => destroy_cell (snd kc)) (fun kx c => (fst kx, c)) snd (list_max (map (fun kv => height (snd kv)) m)) m) with (B := (q, BStr []) :: B).
        -- reflexivity.
        -- intros [k y] Hy s2 pl3 B2 H2. unfold build_entry. cbn [fst snd].
           eapply out_seq with (ok1 := fun s' _ => s' = s2); [apply out_alloc; [reflexivity|apply lost_none; assumption]|]. intros s' a pl4 ->.
           eapply out_seq with (ok1 := fun s' _ => s' = s2); [apply out_alloc; [reflexivity|apply lost_none; assumption]|]. intros s' a' pl5 ->.
           eapply out_seq; [eapply out_weak; [apply (IH k y Hy _ _ _ H2)| |]|].
           ++ intros s3 c X. exact X.
           ++ intros s3. apply lost_mono. apply (Hh _ Hy).
           ++ intros s3 c pl6 (y' & -> & R). apply out_ret. exists y'. auto.
        -- assumption.
      * intros s2 r pl3 (ys & -> & L & V & N & Hq). apply out_ret. exists (flat_map blocks ys). split; [|split; [congruence|exact Hq]].
        exists (combine (map fst m) ys). clear - V L. split; [|split].
        -- f_equal. unfold vmap. revert ys V L. induction m as [|[k x] m IHm]; intros [|y ys] V L; try discriminate; [reflexivity|]. cbn [combine map fst snd]. injection V as _ V. injection L as L.
           f_equal. apply IHm; assumption.
        -- revert ys V L. induction m as [|[k x] m IHm]; intros [|y ys] V L; try discriminate; [reflexivity|]. cbn [combine map fst snd flat_map]. injection V as _ V. injection L as L. rewrite (IHm ys V L). reflexivity.
        -- unfold vmap. revert ys V L. induction m as [|[k x] m IHm]; intros [|y ys] V L; try discriminate; [reflexivity|]. cbn [combine map fst snd]. cbn [map snd] in V. injection V as V0 V. injection L as L.
           rewrite (IHm ys V L), V0. reflexivity.
    + intros s2 q pl2 (b & C & (ys & -> & -> & V) & E2 & H2). apply out_ret. exists (GObj q ys). split; [reflexivity|]. split; [rewrite val_obj; congruence|]. auto.
Qed.

(** ** Temporaries *)

(** the last slot holds an unfinished object; at least lo and at most hi blocks
    are out of reach once it is forgotten *)
Definition gone (G : forest) (L : list gt) (lo hi : nat) (s : hstate) : Prop :=
  exists c K, env s = cells G ++ [c] /\ heap_is (heap s) (fblocks G ++ lblocks (K ++ L)) /\ lo <= length (lblocks K) <= hi.
Definition leaked (G : forest) (L : list gt) (lo hi : nat) (s : hstate) : Prop :=
  exists K, rep s G (K ++ L) /\ lo <= length (lblocks K) <= hi.

Lemma gone_leaked : forall G L lo hi s, gone G L lo hi s -> exists s', forget_slot s = (s', Ret tt) /\ leaked G L lo hi s'.
Proof.
  intros G L lo hi s (c & K & E & H & N). eexists. split; [apply (forget_ok _ _ _ E)|]. exists K. split; [|exact N]. split; [reflexivity|exact H].
Qed.

Lemma lblocks_app : forall A B, lblocks (A ++ B) = lblocks A ++ lblocks B.
Proof. intros. unfold lblocks. apply flat_map_app. Qed.
Lemma lost_gone : forall G L n s s' c, env s = cells G ++ [c] -> lost s (fblocks G ++ lblocks L) n s' -> gone G L 0 n s'.
Proof.
  intros G L n s s' c E (K & LK & E' & H). exists c, (map raw K). split; [congruence|]. split.
  - eapply heap_is_perm; [|exact H]. rewrite lblocks_raw. psolve.
  - rewrite <- (app_nil_r (map raw K)), lblocks_raw. unfold raws. cbn. rewrite app_nil_r, map_length. lia.
Qed.
Lemma rep_gone : forall G L g K s lo hi, rep s (G ++ [Some g]) (K ++ L) -> lo <= length (blocks g) + length (lblocks K) <= hi -> gone G L lo hi s.
Proof.
  intros G L g K s lo hi [E H] N. exists (Some (cell_of g)), (g :: K). split; [rewrite E; unfold cells; rewrite map_app; reflexivity|]. split.
  - eapply heap_is_perm; [|exact H]. rewrite fblocks_app. cbn [fblocks flat_map tblocks lblocks app]. fold (lblocks (K ++ L)). psolve.
  - cbn [lblocks flat_map]. fold (lblocks K). rewrite app_length. lia.
Qed.
Lemma leak_leaked : forall G L n s, leak G L n s -> leaked G L 0 n s.
Proof.
  intros G L n s (K & LK & H). exists (map raw K). split; [exact H|]. rewrite <- (app_nil_r (map raw K)), lblocks_raw. unfold raws. cbn. rewrite app_nil_r, map_length. lia.
Qed.
Lemma gone_mono : forall G L lo hi lo' hi' s, lo' <= lo -> hi <= hi' -> gone G L lo hi s -> gone G L lo' hi' s.
Proof. intros G L lo hi lo' hi' s A B (c & K & E & H & N). exists c, K. split; [exact E|]. split; [exact H|lia]. Qed.

(** conv makes v in a fresh slot *)
Definition makes (conv : loc -> F unit) (v : value) : Prop := forall s pl G L, rep s (G ++ [Some GNull]) L ->
  outF (conv (LSlot (length G))) s pl (fun s' _ => exists g, val_of g = v /\ rep s' (G ++ [Some g]) L) (gone G L 0 (needs v)).

Lemma push_null : forall s G L, rep s G L -> exists s', push_slot null_cell s = (s', Ret (length G)) /\ rep s' (G ++ [Some GNull]) L.
Proof.
  intros s G L H. assert (H0 : rep s G (GNull :: L)) by (apply (rep_scalar _ _ _ GNull); [reflexivity|assumption]). apply (push_slot_ok _ _ _ _ H0).
Qed.

Lemma fmake_ok : forall A (conv : loc -> F unit) v (k : loc -> F A) s pl G L (ok : hstate -> A -> Prop) bad, makes conv v -> rep s G L ->
  (forall s1 pl1 g, val_of g = v -> rep s1 (G ++ [Some g]) L ->
     outF (k (LSlot (length G))) s1 pl1 (fun s2 a => exists s3, pop_slot s2 = (s3, Ret tt) /\ ok s3 a) (fun s2 => exists s3, pop_slot s2 = (s3, Ret tt) /\ bad s3)) ->
  (forall s', leaked G L 0 (needs v) s' -> bad s') ->
  outF (fmake conv k) s pl ok bad.
Proof.
  intros A conv v k s pl G L ok bad M H Hk Hb. unfold fmake. destruct (push_null _ _ _ H) as (s1 & E1 & H1). eapply out_step; [exact E1|].
  eapply out_seq.
  - eapply out_throw; [apply (M _ _ _ _ H1)|]. intros s' X. apply gone_leaked in X. destruct X as (s2 & E2 & X). exists s2. split; [exact E2|]. apply Hb. exact X.
  - intros s2 u pl2 (g & Vg & H2). eapply out_finally; [apply (Hk _ _ _ Vg H2)|auto|auto].
Qed.

Lemma rep_nil : forall s T L, rep s (T ++ []) L <-> rep s T L.
Proof. intros. rewrite app_nil_r. reflexivity. Qed.

Lemma none_leaked : forall s G1 L n, rep s G1 L -> leaked G1 L 0 n s.
Proof. intros s G1 L n H. exists []. split; [exact H|cbn; lia]. Qed.

(** <dest> = y, where dest makes some forest out of G and finds b in it *)
Section Set_.
Variable lf : bool.
Variables (G : forest) (b : place) (E B : forest -> Prop) (dest : F loc).
Hypothesis Hlen : forall G1, E G1 \/ B G1 -> length G1 = length G.
Hypothesis Hdest : forall T s pl L, rep s (G ++ T) L ->
  outF dest s pl (fun s' l => exists G1 x, E G1 /\ rep s' (G1 ++ T) L /\ fwalk G1 b = Some (l, x)) (fun s' => exists G1, B G1 /\ rep s' (G1 ++ T) L).

Definition set_bad (L : list gt) (hi : nat) (s : hstate) : Prop := exists G1, (G1 = G \/ E G1 \/ B G1) /\ leaked G1 L 0 hi s.
Definition set_good (L : list gt) (v : value) (s : hstate) : Prop := exists G1 g l x, E G1 /\ fwalk G1 b = Some (l, x) /\ val_of g = v /\ rep s (fput G1 b g) L.

Lemma move_in : forall G1 l x g s L, fwalk G1 b = Some (l, x) -> rep s (G1 ++ [Some g]) L ->
  exists s2, assign_move l (LSlot (length G1)) s = (s2, Ret tt) /\ exists s3, pop_slot s2 = (s3, Ret tt) /\ rep s3 (fput G1 b g) L.
Proof.
  intros G1 l x g s L W H. pose proof (new_apart _ _ [] _ _ W) as P.
  destruct (assign_move_ok _ _ _ b (length G1, []) _ _ _ _ H (fwalk_grow _ _ _ _ _ W) (last_slot G1 g)) as (s2 & E2 & H2).
  { apply fapart_not_below. apply fapart_sym. assumption. }
  exists s2. split; [exact E2|]. rewrite fput_new in H2. cbn [gput] in H2. rewrite (fput_grow _ _ _ _ _ _ W) in H2. apply (pop_slot_ok _ _ _ _ H2).
Qed.

Lemma fset_conv : forall conv v s pl L, makes conv v -> rep s G L ->
  outF (if lf then let! l <- dest; fmake conv (fun t => lift (assign_move l t)) else fmake conv (fun t => let! l <- dest; lift (assign_move l t)))
    s pl (fun s' _ => set_good L v s') (set_bad L (needs v)).
Proof.
  intros conv v s pl L M H. destruct lf.
  - assert (H0 : rep s (G ++ []) L) by (apply rep_nil; assumption).
    eapply out_seq; [eapply out_weak; [apply (Hdest [] s pl L H0)| |]|].
    + intros s' l X. exact X.
    + intros s' (G1 & HB & R). apply (proj1 (rep_nil _ _ _)) in R. exists G1. split; [auto|]. apply none_leaked. assumption.
    + intros s1 l pl1 (G1 & x & HE & R & W). apply (proj1 (rep_nil _ _ _)) in R. eapply fmake_ok; [exact M|exact R| |].
      * intros s2 pl2 g Vg R2. destruct (move_in _ _ _ _ _ _ W R2) as (s3 & E3 & s4 & E4 & R4). eapply out_lift; [exact E3|]. exists s4. split; [exact E4|]. exists G1, g, l, x. auto.
      * intros s' X. exists G1. auto.
  - eapply fmake_ok; [exact M|exact H| |].
    + intros s1 pl1 g Vg R1. eapply out_seq; [eapply out_weak; [apply (Hdest _ _ pl1 _ R1)| |]|].
      * intros s' l X. exact X.
      * intros s' (G1 & HB & R). destruct (pop_slot_ok _ _ _ _ R) as (s3 & E3 & R3). exists s3. split; [exact E3|]. exists G1. split; [auto|]. apply none_leaked. assumption.
      * intros s2 l pl2 (G1 & x & HE & R2 & W). destruct (move_in _ _ _ _ _ _ W R2) as (s3 & E3 & s4 & E4 & R4). rewrite (Hlen G1) in E3 by auto.
        eapply out_lift; [exact E3|]. exists s4. split; [exact E4|]. exists G1, g, l, x. auto.
    + intros s' X. exists G. auto.
Qed.

Lemma fset_json : forall v s pl L, rep s G L ->
  outF (let! l <- dest; let! c <- fbuild v; ftemp c (fun t => lift (swap l t))) s pl (fun s' _ => set_good L v s') (set_bad L (needs v)).
Proof.
  intros v s pl L H. assert (H0 : rep s (G ++ []) L) by (apply rep_nil; assumption).
  eapply out_seq; [eapply out_weak; [apply (Hdest [] s pl L H0)| |]|].
  - intros s' l X. exact X.
  - intros s' (G1 & HB & R). apply (proj1 (rep_nil _ _ _)) in R. exists G1. split; [auto|]. apply none_leaked. assumption.
  - intros s1 l pl1 (G1 & x & HE & R & W). apply (proj1 (rep_nil _ _ _)) in R. pose proof R as [_ Rh].
    eapply out_seq; [eapply out_weak; [apply (fbuild_ok v s1 pl1 _ Rh)| |]|].
    + intros s' c X. exact X.
    + intros s' X. exists G1. split; [auto|]. apply leak_leaked. apply (lost_leak s1); [assumption|]. eapply lost_mono; [|exact X]. apply height_needs.
    + intros s2 c pl2 X. apply (made_built s1 G1 L v s2 c R) in X. destruct X as (y & -> & Vy & R2).
      eapply out_weak; [apply (ftemp_ok unit (fun t => lift (swap l t)) s2 pl2 G1 L y (fun _ G' => G' = fput G1 b y) (fun _ _ => False) R2)| |].
      * intros s3 R3. destruct (swap_ok _ _ _ b (length G1, []) _ _ _ _ R3 (fwalk_grow _ _ _ _ _ W) (last_slot G1 y) (new_apart _ _ _ _ _ W)) as (s4 & E4 & R4).
        rewrite (fput_grow _ _ _ _ _ _ W) in R4. rewrite <- (length_fput G1 b y) in R4. rewrite fput_new in R4.
        eapply out_lift; [exact E4|]. exists (fput G1 b y), x. auto.
      * intros s' u (G' & R' & ->). exists G1, y, l, x. auto.
      * intros s' (G' & L' & _ & []).
Qed.

Lemma fset_ok : forall t conv y v s pl L, (t <> TyJson -> makes (conv y) v) -> (forall w, t = TyJson -> y = CJson w -> v = w) -> (t = TyJson -> exists w, y = CJson w) -> rep s G L ->
  outF (fset lf t conv y dest) s pl (fun s' _ => set_good L v s') (set_bad L (needs v)).
Proof.
  intros t conv y v s pl L M J J' H. unfold fset.
  destruct t; try (apply fset_conv; [apply M; discriminate|assumption]).
  destruct (J' eq_refl) as (w & ->). rewrite (J w eq_refl eq_refl). apply fset_json. assumption.
Qed.
End Set_.

(** ** Elements and members *)
Lemma fwalk_less : forall G T a, fst a < length G -> fwalk (G ++ T) a = fwalk G a.
Proof. intros G T a H. unfold fwalk. rewrite nth_error_app1 by assumption. reflexivity. Qed.

Lemma new_len : forall (G : forest) z, length (G ++ [Some z]) = S (length G).
Proof. intros. rewrite app_length. cbn. lia. Qed.

Lemma append_at : forall l, via_idx (N.of_nat (length l)) idf (VArr l) = (VArr (l ++ [VNull]), Ret RUnit).
Proof.
  intros l. cbn [via_idx]. unfold len. rewrite N.leb_refl.
  replace (N.to_nat (u64 (N.of_nat (length l) + 18446744073709551616 - N.of_nat (length l) + 1))) with 1.
  - cbn [repeat]. unfold in_elem. rewrite Nat2N.id, nth_mid. cbn [idf]. rewrite set_mid. reflexivity.
  - replace (N.of_nat (length l) + 18446744073709551616 - N.of_nat (length l) + 1)%N with 18446744073709551617%N by lia. reflexivity.
Qed.

(** c[i], one past the end *)
Definition idx_found (G : forest) (done : list value) (G1 : forest) : Prop := exists z, G1 = G ++ [Some z] /\ val_of z = VArr (done ++ [VNull]).
Lemma dest_idx : forall G g done, val_of g = VArr done -> forall T s pl L, rep s ((G ++ [Some g]) ++ T) L ->
  outF (fsub_loc (LSlot (length G)) (Idx (N.of_nat (length done)))) s pl
    (fun s' l => exists G1 x, idx_found G done G1 /\ rep s' (G1 ++ T) L /\ fwalk G1 (length G, [Idx (N.of_nat (length done))]) = Some (l, x))
    (fun s' => exists G1, G1 = G ++ [Some g] /\ rep s' (G1 ++ T) L).
Proof.
  intros G g done V T s pl L H. pose proof (fwalk_grow _ T _ _ _ (last_slot G g)) as W.
  assert (Ev : via_idx (N.of_nat (length done)) idf (val_of g) = (VArr (done ++ [VNull]), Ret RUnit)) by (rewrite V; apply append_at).
  destruct (fsub_idx_ok s pl _ _ _ _ _ _ _ _ H W Ev) as [(_ & O)|(er & X & _)]; [discriminate| |discriminate].
  eapply out_weak; [exact O| |].
  - intros s' l (z & Vz & R & x & Wx). rewrite (fput_grow _ _ _ _ _ _ (last_slot G g)), fput_new in R, Wx. cbn [gput] in R, Wx.
    exists (G ++ [Some z]), x. split; [exists z; auto|]. split; [exact R|]. rewrite fwalk_less in Wx; [exact Wx|]. cbn [ext fst]. rewrite new_len. lia.
  - intros s' [R|(X & _)]; [eauto|]. subst g. discriminate.
Qed.

(** c[key] *)
Definition as_object (v : value) (m : list (str * value)) : Prop := v = VNull /\ m = [] \/ v = VObj m.
Definition key_found (G : forest) (k : str) (m : list (str * value)) (G1 : forest) : Prop := exists z, G1 = G ++ [Some z] /\ val_of z = VObj (obj_emplace k VNull m).
Definition key_not (G : forest) (g : gt) (G1 : forest) : Prop := G1 = G ++ [Some g] \/ val_of g = VNull /\ exists z, G1 = G ++ [Some z] /\ val_of z = VObj [].
Lemma dest_key : forall G g k m, as_object (val_of g) m -> forall T s pl L, rep s ((G ++ [Some g]) ++ T) L ->
  outF (fsub_loc (LSlot (length G)) (Key k)) s pl
    (fun s' l => exists G1 x, key_found G k m G1 /\ rep s' (G1 ++ T) L /\ fwalk G1 (length G, [Key k]) = Some (l, x))
    (fun s' => exists G1, key_not G g G1 /\ rep s' (G1 ++ T) L).
Proof.
  intros G g k m V T s pl L H. pose proof (fwalk_grow _ T _ _ _ (last_slot G g)) as W.
  assert (Ev : touch k (val_of g) = (VObj (obj_emplace k VNull m), Ret RUnit)) by (destruct V as [[-> ->]| ->]; reflexivity).
  destruct (fsub_key_ok s pl _ _ _ _ _ _ _ _ H W Ev) as [(_ & O)|(er & X & _)]; [|discriminate].
  eapply out_weak; [exact O| |].
  - intros s' l (z & Vz & R & x & Wx). rewrite (fput_grow _ _ _ _ _ _ (last_slot G g)), fput_new in R, Wx. cbn [gput] in R, Wx.
    exists (G ++ [Some z]), x. split; [exists z; auto|]. split; [exact R|]. rewrite fwalk_less in Wx; [exact Wx|]. cbn [ext fst]. rewrite new_len. lia.
  - intros s' [R|(-> & z & Vz & R)]; [exists (G ++ [Some g]); split; [left; reflexivity|exact R]|].
    rewrite (fput_grow _ _ _ _ _ _ (last_slot G GNull)), fput_new in R. cbn [gput] in R. exists (G ++ [Some z]). split; [|exact R]. right. eauto.
Qed.

Definition sets (set : F loc -> F unit) (v : value) : Prop := forall G b (E B : forest -> Prop) dest,
  (forall G1, E G1 \/ B G1 -> length G1 = length G) ->
  (forall T s pl L, rep s (G ++ T) L ->
    outF dest s pl (fun s' l => exists G1 x, E G1 /\ rep s' (G1 ++ T) L /\ fwalk G1 b = Some (l, x)) (fun s' => exists G1, B G1 /\ rep s' (G1 ++ T) L)) ->
  forall s pl L, rep s G L -> outF (set dest) s pl (fun s' _ => set_good b E L v s') (set_bad G E B L (needs v)).

Lemma fset_sets : forall lf t conv y v, (t <> TyJson -> makes (conv y) v) -> (forall w, t = TyJson -> y = CJson w -> v = w) -> (t = TyJson -> exists w, y = CJson w) ->
  sets (fset lf t conv y) v.
Proof. intros lf t conv y v M J J' G b E B dest Hl Hd s pl L H. apply fset_ok; assumption. Qed.

Lemma sum_app : forall a b, list_sum (a ++ b) = list_sum a + list_sum b.
Proof. intros a b. unfold list_sum. rewrite fold_right_app. induction a as [|x a IH]; cbn; [reflexivity|]. rewrite IH. lia. Qed.
Lemma needs_app : forall l r, needs (VArr (l ++ r)) = needs (VArr l) + list_sum (map needs r).
Proof. intros. cbn [needs]. rewrite map_app, sum_app. lia. Qed.

Lemma step_idx : forall set v done G g s pl L, sets set v -> val_of g = VArr done -> rep s (G ++ [Some g]) L ->
  outF (set (fsub_loc (LSlot (length G)) (Idx (N.of_nat (length done))))) s pl
    (fun s' _ => exists g', val_of g' = VArr (done ++ [v]) /\ rep s' (G ++ [Some g']) L) (gone G L 1 (needs (VArr (done ++ [v])))).
Proof.
  intros set v done G g s pl L Hs V H.
  eapply out_weak; [apply (Hs (G ++ [Some g]) (length G, [Idx (N.of_nat (length done))]) (idx_found G done) (fun G1 => G1 = G ++ [Some g]) _) with (L := L)| |].
  - intros G1 [(z & -> & _)| ->]; [|reflexivity]. rewrite !new_len. reflexivity.
  - intros T s0 pl0 L0 H0. apply (dest_idx G g done V T s0 pl0 L0 H0).
  - exact H.
  - intros s' u (G1 & gy & l & x & (z & -> & Vz) & W & Vy & R). rewrite fput_new in R. apply gt_arr in Vz. destruct Vz as (q & n & zs & -> & Ez).
    unfold fwalk in W. cbn [fst snd] in W. rewrite nth_mid in W. cbn [walk] in W. rewrite Nat2N.id in W. cbn [gput] in R. rewrite Nat2N.id in R.
    destruct (nth_error zs (length done)) as [w|] eqn:Ew; [|discriminate]. cbn [gput] in R. eexists. split; [|exact R].
    cbn [val_of]. rewrite <- set_map, <- Ez, set_mid, Vy. reflexivity.
  - intros s' (G1 & HG & K & R & N).
    assert (X : exists z, G1 = G ++ [Some z] /\ length (blocks z) = needs (VArr done)).
    { destruct HG as [->|[(z & -> & Vz)| ->]]; [exists g|exists z|exists g]; (split; [reflexivity|]); rewrite count_blocks, <- needs_count; [rewrite V; reflexivity| |rewrite V; reflexivity].
      rewrite Vz, needs_app. cbn. lia. }
    destruct X as (z & -> & Lz). eapply rep_gone; [exact R|]. rewrite Lz, needs_app. cbn [needs map list_sum fold_right]. cbn [needs] in Lz. lia.
Qed.

Lemma fput_seq_ok : forall set l vs, Forall2 (fun y v => sets (set y) v) l vs -> forall done s pl G L g, rep s (G ++ [Some g]) L -> val_of g = VArr done ->
  outF (fput_seq set (LSlot (length G)) (N.of_nat (length done)) l) s pl
    (fun s' _ => exists g', val_of g' = VArr (done ++ vs) /\ rep s' (G ++ [Some g']) L) (gone G L 1 (needs (VArr (done ++ vs)))).
Proof.
  intros set l vs F. induction F as [|y v l vs Hy _ IH]; intros done s pl G L g H V; cbn [fput_seq].
  - apply out_ret. exists g. rewrite app_nil_r. auto.
  - eapply out_seq; [eapply out_weak; [apply (step_idx (set y) v done G g s pl L Hy V H)| |]|].
    + intros s' u X. exact X.
    + intros s'. apply gone_mono; [lia|]. change (v :: vs) with ([v] ++ vs). rewrite app_assoc, (needs_app (done ++ [v])). lia.
    + intros s1 u pl1 (g' & V' & R). replace (done ++ v :: vs) with ((done ++ [v]) ++ vs) by (rewrite <- app_assoc; reflexivity).
      replace (N.of_nat (length done) + 1)%N with (N.of_nat (length (done ++ [v]))) by (rewrite app_length; cbn; lia).
      eapply IH; eassumption.
Qed.

Lemma upd_emplace : forall A k (v d : A) m, obj_upd k v (obj_emplace k d m) = obj_set k v m.
Proof.
  intros A k v d m. induction m as [|[j w] m IH]; cbn [obj_emplace obj_set obj_upd]; [rewrite str_eqb_refl; reflexivity|].
  destruct (str_ltb k j); [cbn [obj_upd]; rewrite str_eqb_refl; reflexivity|]. destruct (str_eqb k j) eqn:Q; cbn [obj_upd]; rewrite Q; [reflexivity|]. rewrite IH. reflexivity.
Qed.

Definition msum (m : list (str * value)) : nat := list_sum (map (fun kv => needs (snd kv)) m).
Lemma msum_emplace : forall k m, msum (obj_emplace k VNull m) = msum m.
Proof.
  intros k m. unfold msum. induction m as [|[j w] m IH]; cbn [obj_emplace]; [reflexivity|]. destruct (str_ltb k j); [reflexivity|]. destruct (str_eqb k j); [reflexivity|].
  cbn. unfold list_sum in IH. rewrite IH. reflexivity.
Qed.
Lemma msum_set : forall k v m, ~ In k (map fst m) -> msum (obj_set k v m) = msum m + needs v.
Proof.
  intros k v m. unfold msum. induction m as [|[j w] m IH]; cbn [obj_set map fst In]; intro N; [cbn; lia|]. destruct (str_ltb k j); [cbn; lia|].
  destruct (str_eqb k j) eqn:Q; [apply str_eqb_iff in Q; subst j; tauto|]. cbn. unfold list_sum in IH. rewrite IH by tauto. lia.
Qed.
Lemma set_in : forall A k (v : A) m j, In j (map fst (obj_set k v m)) -> j = k \/ In j (map fst m).
Proof. intros. eapply set_keys; eassumption. Qed.
Lemma msum_all : forall qs m, NoDup (map fst qs) -> (forall k, In k (map fst qs) -> ~ In k (map fst m)) -> msum (set_all qs m) = msum m + msum qs.
Proof.
  induction qs as [|[k v] qs IH]; intros m N D; [change (set_all [] m) with m; change (msum []) with 0; lia|]. cbn [set_all fold_left fst snd]. change (fold_left _ qs (obj_set k v m)) with (set_all qs (obj_set k v m)).
  inversion N as [|? ? Nk Nd]; subst. rewrite IH.
  - rewrite msum_set by (apply D; left; reflexivity). change (msum ((k, v) :: qs)) with (needs v + msum qs). lia.
  - assumption.
  - intros j Hj X. apply set_in in X. destruct X as [->|X]; [contradiction|]. apply (D j); [right; assumption|assumption].
Qed.

Lemma step_key : forall set v k m G g s pl L lo, sets set v -> as_object (val_of g) m -> ~ In k (map fst m) -> lo <= length (blocks g) -> rep s (G ++ [Some g]) L ->
  outF (set (fsub_loc (LSlot (length G)) (Key k))) s pl
    (fun s' _ => exists g', val_of g' = VObj (obj_set k v m) /\ rep s' (G ++ [Some g']) L) (gone G L lo (needs (VObj (obj_set k v m)))).
Proof.
  intros set v k m G g s pl L lo Hs V N Hlo H.
  eapply out_weak; [apply (Hs (G ++ [Some g]) (length G, [Key k]) (key_found G k m) (key_not G g) _) with (L := L)| |].
  - intros G1 [(z & -> & _)|[->|(_ & z & -> & _)]]; rewrite !new_len; reflexivity.
  - intros T s0 pl0 L0 H0. apply (dest_key G g k m V T s0 pl0 L0 H0).
  - exact H.
  - intros s' u (G1 & gy & l & x & (z & -> & Vz) & W & Vy & R). rewrite fput_new in R. apply gt_obj in Vz. destruct Vz as (q & zs & -> & Ez).
    unfold fwalk in W. cbn [fst snd] in W. rewrite nth_mid in W. cbn [walk] in W. cbn [gput] in R.
    destruct (obj_find k zs) as [w|] eqn:Ew; [|discriminate]. cbn [gput] in R. eexists. split; [|exact R].
    rewrite val_obj, <- upd_vmap, <- Ez, upd_emplace, Vy. reflexivity.
  - intros s' (G1 & HG & K & R & Nk).
    assert (X : exists z, G1 = G ++ [Some z] /\ lo <= length (blocks z) <= needs (VObj m)).
    { assert (Lg : lo <= length (blocks g) <= needs (VObj m)).
      { split; [assumption|]. rewrite count_blocks, <- needs_count. destruct V as [[-> ->]| ->]; cbn; lia. }
      assert (Lz : forall z m', val_of z = VObj m' -> msum m' = msum m -> length (blocks z) = needs (VObj m)).
      { intros z m' Vz Em. rewrite count_blocks, <- needs_count, Vz. cbn [needs]. unfold msum in Em. lia. }
      destruct HG as [->|[(z & -> & Vz)|[->|(Vg & z & -> & Vz)]]]; [exists g; auto| |exists g; auto|]; exists z; (split; [reflexivity|]).
      - rewrite (Lz z _ Vz (msum_emplace k m)). lia.
      - destruct V as [[_ ->]|V]; [|congruence]. rewrite (Lz z _ Vz eq_refl). rewrite count_blocks, Vg in Hlo. cbn in Hlo. cbn. lia. }
    destruct X as (z & -> & Lz). eapply rep_gone; [exact R|]. cbn [needs] in *. pose proof (msum_set k v m N) as Q. unfold msum in Q. lia.
Qed.

Lemma fput_map_ok : forall set ps qs, Forall2 (fun p q => fst p = fst q /\ sets (set (snd p)) (snd q)) ps qs -> forall m s pl G L g,
  rep s (G ++ [Some g]) L -> val_of g = VObj m -> NoDup (map fst qs) -> (forall k, In k (map fst qs) -> ~ In k (map fst m)) ->
  outF (fput_map set (LSlot (length G)) ps) s pl
    (fun s' _ => exists g', val_of g' = VObj (set_all qs m) /\ rep s' (G ++ [Some g']) L) (gone G L 1 (needs (VObj (set_all qs m)))).
Proof.
  intros set ps qs F. induction F as [|[k y] [k' v] ps qs [Ek Hy] _ IH]; intros m s pl G L g H V N D; cbn [fput_map].
  - apply out_ret. exists g. auto.
  - cbn [fst snd] in *. subst k'. cbn [map fst] in N, D. inversion N as [|? ? Nk Nd]; subst.
    assert (D' : forall j, In j (map fst qs) -> ~ In j (map fst (obj_set k v m))).
    { intros j Hj X. apply set_in in X. destruct X as [->|X]; [contradiction|]. apply (D j); [right; assumption|assumption]. }
    cbn [set_all fold_left fst snd]. change (fold_left _ qs (obj_set k v m)) with (set_all qs (obj_set k v m)).
    eapply out_seq; [eapply out_weak; [apply (step_key (set y) v k m G g s pl L 1 Hy (or_intror V) (D k (or_introl eq_refl)))| |]|].
    + rewrite count_blocks, V. cbn. lia.
    + exact H.
    + intros s' u X. exact X.
    + intros s'. apply gone_mono; [lia|]. cbn [needs]. pose proof (msum_all qs (obj_set k v m) Nd D') as Q. unfold msum in Q. lia.
    + intros s1 u pl1 (g' & V' & R). eapply IH; eassumption.
Qed.

(** value_constructor::reset on a new slot *)
Lemma freset_null : forall i s pl G L, rep s (G ++ [Some GNull]) L ->
  outF (freset (LSlot (length G)) i) s pl (fun s' _ => exists g, val_of g = init_value i /\ rep s' (G ++ [Some g]) L) (gone G L 0 (ilost i)).
Proof.
  intros i s pl G L H. unfold freset. eapply out_step; [apply (read_ok _ _ _ _ _ _ H (last_slot G GNull))|]. eapply out_step; [reflexivity|].
  set (c := mkCell (init_ty i) (c_data (cell_of GNull))). pose proof H as [Ee Eh].
  assert (En : env s = cells G ++ [Some (cell_of GNull)]) by (rewrite Ee; unfold cells; rewrite map_app; reflexivity).
  assert (Wr : forall s0 c0 c1, env s0 = cells G ++ [Some c0] -> write_loc (LSlot (length G)) c1 s0 = (set_env (cells G ++ [Some c1]) s0, Ret tt)).
  { intros s0 c0 c1 E0. cbn [write_loc]. rewrite E0, <- (cells_len G), nth_mid, set_mid. reflexivity. }
  eapply out_step; [apply (Wr _ _ _ En)|].
  set (s2 := set_env (cells G ++ [Some c]) s).
  assert (H2 : heap_is (heap s2) (fblocks G ++ lblocks L)).
  { unfold s2. cbn [set_env heap]. eapply heap_is_perm; [|exact Eh]. rewrite fblocks_app. cbn [fblocks flat_map tblocks]. rewrite !app_nil_r. reflexivity. }
  eapply out_seq; [eapply out_weak; [apply (fconstruct_heap i s2 pl _ H2)| |]|].
  - intros s' c' X. exact X.
  - intros s' X. eapply lost_gone; [|exact X]. reflexivity.
  - intros s3 c' pl3 (y & -> & Vy & E3 & H3). eapply out_lift; [apply (Wr _ c); rewrite E3; reflexivity|]. exists y. split; [assumption|]. split.
    + cbn [set_env env]. unfold cells. rewrite map_app. reflexivity.
    + cbn [set_env heap]. eapply heap_is_perm; [|exact H3]. rewrite fblocks_app. cbn [fblocks flat_map tblocks]. psolve.
Qed.

(** ** to_value *)
Section To.
Variable e : Convert.env.
Variable lf : bool.
Hypothesis He : fair e.

Definition good_ty (t : cty) : Prop := wf_ty t -> forall x v, typed t x -> to_val e t x VNull = (v, Ret tt) -> t <> TyJson -> makes (fto e lf t x) v.

Lemma elem_sets : forall t y v, good_ty t -> wf_ty t -> typed t y -> to_val e t y VNull = (v, Ret tt) -> sets (fset lf t (fto e lf t) y) v.
Proof.
  intros t y v Gt W T V. apply fset_sets.
  - intro N. apply Gt; assumption.
  - intros w -> ->. cbn [to_val] in V. congruence.
  - intros ->. inversion T; subst. eauto.
Qed.

Lemma elems_val : forall t l, wf_ty t -> Forall (typed t) l -> exists vs, Forall2 (fun y v => to_val e t y VNull = (v, Ret tt) /\ typed t y) l vs.
Proof.
  intros t l W F. apply Forall_ex. eapply Forall_impl; [|exact F]. intros y Ty. destruct (to_image e t He W y Ty) as (v & Ev & _). exists v. auto.
Qed.

Lemma reset_then : forall i (k : F unit) s pl G L v lo hi, rep s (G ++ [Some GNull]) L -> ilost i <= hi -> lo = 0 ->
  (forall s1 pl1 g, val_of g = init_value i -> rep s1 (G ++ [Some g]) L -> outF k s1 pl1 (fun s' _ => exists g', val_of g' = v /\ rep s' (G ++ [Some g']) L) (gone G L 1 hi)) ->
  outF (let! _ <- freset (LSlot (length G)) i; k) s pl (fun s' _ => exists g', val_of g' = v /\ rep s' (G ++ [Some g']) L) (gone G L lo hi).
Proof.
  intros i k s pl G L v lo hi H Hi -> Hk. eapply out_seq; [eapply out_weak; [apply (freset_null i s pl G L H)| |]|].
  - intros s' u X. exact X.
  - intros s'. apply gone_mono; [lia|assumption].
  - intros s1 u pl1 (g & Vg & R). eapply out_weak; [apply (Hk _ _ _ Vg R)|auto|]. intros s'. apply gone_mono; lia.
Qed.

Lemma seq_fill : forall t l v s pl G L g, good_ty t -> wf_ty t -> Forall (typed t) l -> put_seq (fun y => to_val e t y VNull) 0 l (VArr []) = (v, Ret tt) ->
  val_of g = VArr [] -> rep s (G ++ [Some g]) L ->
  outF (fput_seq (fset lf t (fto e lf t)) (LSlot (length G)) 0 l) s pl (fun s' _ => exists g', val_of g' = v /\ rep s' (G ++ [Some g']) L) (gone G L 1 (needs v)).
Proof.
  intros t l v s pl G L g Gt W F P Vg R. destruct (elems_val t l W F) as (vs & Fv).
  assert (X : put_seq (fun y => to_val e t y VNull) (len (@nil value)) l (VArr []) = (VArr ([] ++ vs), Ret tt)).
  { apply put_seq_all. eapply Forall2_impl'; [|exact Fv]. cbn beta. tauto. }
  change (len (@nil value)) with 0%N in X. rewrite P in X. injection X as ->.
  apply (fput_seq_ok _ l vs) with (done := []) (g := g); [|assumption|assumption].
  eapply Forall2_impl'; [|exact Fv]. intros y v [Ev Ty]. apply elem_sets; assumption.
Qed.

Lemma map_fill : forall t m v s pl G L g, good_ty t -> wf_ty t -> Forall (fun p => typed t (snd p)) m -> NoDup (map fst m) ->
  put_map (fun y => to_val e t y VNull) m (VObj []) = (v, Ret tt) -> val_of g = VObj [] -> rep s (G ++ [Some g]) L ->
  outF (fput_map (fset lf t (fto e lf t)) (LSlot (length G)) m) s pl (fun s' _ => exists g', val_of g' = v /\ rep s' (G ++ [Some g']) L) (gone G L 1 (needs v)).
Proof.
  intros t m v s pl G L g Gt W F Nd P Vg R.
  destruct (Forall_ex _ _ (fun p q => fst p = fst q /\ (to_val e t (snd p) VNull = (snd q, Ret tt) /\ typed t (snd p))) m) as (o & Fo).
  { eapply Forall_impl; [|exact F]. intros [k y] Ty. cbn [fst snd] in *. destruct (to_image e t He W y Ty) as (w & Ew & _). exists (k, w). cbn [fst snd]. auto. }
  assert (X : put_map (fun y => to_val e t y VNull) m (VObj []) = (VObj (set_all o []), Ret tt)).
  { apply put_map_all; [constructor|]. eapply Forall2_impl'; [|exact Fo]. cbn beta. tauto. }
  rewrite P in X. injection X as ->.
  apply (fput_map_ok _ m o) with (g := g); [|assumption|assumption| |].
  - eapply Forall2_impl'; [|exact Fo]. intros p q (E1 & Ev & Ty). split; [assumption|]. apply elem_sets; assumption.
  - rewrite <- (Forall2_keys _ _ (fun a b => to_val e t a VNull = (b, Ret tt) /\ typed t a) m o Fo). assumption.
  - intros k _ [].
Qed.

(** array_type and object_type *)
Lemma raw_items : forall l, (forall w, In w l -> ordered w) -> Forall (typed TyJson) (map CJson l).
Proof. intros l H. apply Forall_forall. intros y Hy. apply in_map_iff in Hy. destruct Hy as (w & <- & Hw). constructor. auto. Qed.
Lemma raw_seq : forall l, put_seq (fun y => to_val e TyJson y VNull) 0 (map CJson l) (VArr []) = (VArr l, Ret tt).
Proof.
  intro l. change 0%N with (len (@nil value)). rewrite (put_seq_all _ (map CJson l) l []); [reflexivity|].
  induction l; constructor; [reflexivity|assumption].
Qed.
Lemma raw_map : forall m, sorted m -> put_map (fun y => to_val e TyJson y VNull) (map (fun p => (fst p, CJson (snd p))) m) (VObj []) = (VObj m, Ret tt).
Proof.
  intros m S. rewrite (put_map_all _ _ m []); [|constructor|].
  - rewrite (set_all_perm m m); [reflexivity|assumption|apply Permutation_refl].
  - clear S. induction m as [|[k w] m IH]; constructor; [split; reflexivity|assumption].
Qed.
Lemma raw_fput_seq : forall conv a l i, fput_seq (fset lf TyJson conv) a i (map CJson l) = fput_seq (fset lf TyJson (fto e lf TyJson)) a i (map CJson l).
Proof. intros conv a. induction l as [|w l IH]; intro i; [reflexivity|]. cbn [map fput_seq]. rewrite IH. reflexivity. Qed.
Lemma raw_fput_map : forall conv a m, fput_map (fset lf TyJson conv) a (map (fun p => (fst p, CJson (snd p))) m) =
  fput_map (fset lf TyJson (fto e lf TyJson)) a (map (fun p => (fst p, CJson (snd p))) m).
Proof. intros conv a. induction m as [|w m IH]; [reflexivity|]. cbn [map fput_map]. rewrite IH. reflexivity. Qed.

Theorem fto_ok : forall t, good_ty t.
Proof.
  destruct He as [Fs Fm].
  intro t. induction t as [|w sg| | | | |raw|t IH|n t IH|k t IH|h t IH|fs IH] using cty_deep; intros W x v T V NJ s pl G L H; inversion T; subst; cbn [fto].
  - injection V as <-. apply (freset_null (IBool b) s pl G L H).
  - injection V as <-. apply (freset_null (IInt _) s pl G L H).
  - injection V as <-. apply (freset_null (IFloat f) s pl G L H).
  - injection V as <-. apply (freset_null (IFloat _) s pl G L H).
  - injection V as <-. apply (freset_null (IStr s0) s pl G L H).
  - congruence.
  - cbn [to_val] in V. injection V as <-. apply (reset_then IArr); [exact H|cbn; lia|reflexivity|]. intros s1 pl1 g Vg R.
    rewrite raw_fput_seq. apply (seq_fill TyJson (map CJson l)) with (g := g); try assumption; [intros ? ? ? ? ? X; destruct X; reflexivity|constructor|apply raw_items; inversion H1; assumption|].
    apply raw_seq.
  - cbn [to_val] in V. injection V as <-. apply (reset_then IObj); [exact H|cbn; lia|reflexivity|]. intros s1 pl1 g Vg R. inversion H1; subst.
    rewrite raw_fput_map. apply (map_fill TyJson (map (fun p => (fst p, CJson (snd p))) m)) with (g := g); try assumption; [intros ? ? ? ? ? X; destruct X; reflexivity|constructor|..].
    + apply Forall_forall. intros p Hp. apply in_map_iff in Hp. destruct Hp as ([k w] & <- & Hp). constructor. eauto.
    + rewrite map_map. cbn [fst]. apply sorted_nodup. assumption.
    + apply raw_map. assumption.
  - injection V as <-. eapply out_weak; [apply (fassign_new_ok INull s pl _ _ _ _ _ H (last_slot G GNull))| |].
    + intros s' u (y & Vy & R). rewrite fput_new in R. eauto.
    + intros s' (K & LK & R). destruct K; [|cbn in LK; lia]. apply (rep_gone G L GNull [] s'); [exact R|cbn; lia].
  - inversion W; subst. cbn [to_val] in V. destruct (to_image e t He ltac:(assumption) x0 ltac:(assumption)) as (w & Ew & _).
    rewrite Ew in V. unfold Convert.put, run in V. cbn in V. injection V as <-.
    eapply out_weak; [apply (elem_sets t x0 w IH ltac:(assumption) ltac:(assumption) Ew (G ++ [Some GNull]) (length G, []) (fun G1 => G1 = G ++ [Some GNull]) (fun _ => False)) with (L := L)| |].
    + intros G1 [->|[]]. reflexivity.
    + intros T0 s0 pl0 L0 H0. apply out_ret. exists (G ++ [Some GNull]), GNull. split; [reflexivity|]. split; [exact H0|apply last_slot].
    + exact H.
    + intros s' u (G1 & g & l & x & -> & _ & Vg & R). rewrite fput_new in R. cbn [gput] in R. eauto.
    + intros s' (G1 & HG & K & R & Nk). destruct HG as [->|[->|[]]]; (eapply rep_gone; [exact R|cbn; lia]).
  - inversion W; subst. cbn [to_val of_type] in V. apply (reset_then IArr); [exact H|cbn; lia|reflexivity|]. intros s1 pl1 g Vg R. eapply seq_fill; eassumption.
  - inversion W as [| | | | | | | | |? ? Wt _ _| |]; subst.
    assert (A : forall l0, Forall (typed t) l0 -> put_seq (fun y => to_val e t y VNull) 0 l0 (VArr []) = (v, Ret tt) ->
      outF (let! _ <- freset (LSlot (length G)) IArr; fput_seq (fset lf t (fto e lf t)) (LSlot (length G)) 0 l0) s pl
        (fun s' _ => exists g', val_of g' = v /\ rep s' (G ++ [Some g']) L) (gone G L 0 (needs v))).
    { intros l0 F0 P0. apply (reset_then IArr); [exact H|cbn; lia|reflexivity|]. intros s1 pl1 g Vg R. eapply seq_fill; eassumption. }
    destruct k; try (apply A; assumption). apply A; [|assumption]. eapply Permutation_Forall; [apply Permutation_sym, Fs|assumption].
  - inversion W; subst.
    assert (Nd : NoDup (map fst m)) by (apply sorted_nodup, ss_sorted; assumption).
    assert (A : forall m0, Forall (fun p => typed t (snd p)) m0 -> NoDup (map fst m0) -> put_map (fun y => to_val e t y VNull) m0 (VObj []) = (v, Ret tt) ->
      outF (let! _ <- freset (LSlot (length G)) IObj; fput_map (fset lf t (fto e lf t)) (LSlot (length G)) m0) s pl
        (fun s' _ => exists g', val_of g' = v /\ rep s' (G ++ [Some g']) L) (gone G L 0 (needs v))).
    { intros m0 F0 N0 P0. apply (reset_then IObj); [exact H|cbn; lia|reflexivity|]. intros s1 pl1 g Vg R. eapply map_fill; eassumption. }
    destruct h; apply A; try assumption.
    + eapply Permutation_Forall; [apply Permutation_sym, Fm|assumption].
    + eapply Permutation_NoDup; [apply Permutation_map, Permutation_sym, Fm|assumption].
  - inversion W as [| | | | | | | | | | |? Nd Wf]; subst. clear W T NJ. cbn [to_val] in V.
    match type of V with ?g fs l VNull = _ => set (go := g) in * end.
    match goal with |- outF (?g fs l) _ _ _ _ => set (fgo := g) end.
    assert (Q : forall c m g s pl L, go fs l c = (v, Ret tt) -> as_object c m -> sorted m -> (forall k, In k (map (fun f => fst (fst f)) fs) -> ~ In k (map fst m)) ->
      val_of g = c -> rep s (G ++ [Some g]) L ->
      needs c <= needs v /\ outF (fgo fs l) s pl (fun s' _ => exists g', val_of g' = v /\ rep s' (G ++ [Some g']) L) (gone G L 0 (needs v))).
    { clear s pl L H V. revert l H1. induction fs as [|[[n req] t] fs IHfs]; intros l H1 c m g s pl L V C Sm D Vg R.
      - inversion H1; subst. cbn [go] in V. injection V as V. split; [rewrite V; lia|]. cbn [fgo]. apply out_ret. exists g. split; [congruence|assumption].
      - inversion H1 as [|? y ? l' Ty Tl]; subst. inversion IH as [|? ? IHt IHr]; inversion Wf as [|? ? Wt Wr]; inversion Nd as [|? ? Nn Nd']; subst. cbn [fst snd map] in *.
        specialize (IHfs IHr Nd' Wr l' Tl). destruct (to_image e t He Wt y Ty) as (w & Ew & _).
        cbn [go] in V. cbn [fgo]. fold go in V. fold fgo.
        assert (Nn' : ~ In n (map fst m)) by (apply D; left; reflexivity).
        destruct (req || negb (ceqb y (dflt t))).
        + rewrite Ew in V.
          assert (Pc : Convert.put [RefKey n] (w, Ret tt) (val_of g) = (VObj (obj_set n w m), Ret tt)).
          { destruct C as [[-> ->]| ->]; [apply put_first|apply put_member; assumption]. }
          rewrite Pc in V. cbn [seq_] in V.
          assert (D' : forall k, In k (map (fun f => fst (fst f)) fs) -> ~ In k (map fst (obj_set n w m))).
          { intros j Hj X. apply set_in in X. destruct X as [->|X]; [contradiction|]. apply (D j); [right; assumption|assumption]. }
          assert (Sm' : sorted (obj_set n w m)) by (apply set_sorted; assumption).
          assert (B : needs (val_of g) <= needs (VObj (obj_set n w m))).
          { cbn [needs]. pose proof (msum_set n w m Nn') as Q. unfold msum in Q. destruct C as [[-> ->]| ->]; cbn [needs]; lia. }
          assert (B2 : needs (VObj (obj_set n w m)) <= needs v).
          { assert (X : exists g' s', val_of g' = VObj (obj_set n w m) /\ rep s' (G ++ [Some g']) L).
            { destruct (step_key _ w n m G g s [] L 0 (elem_sets t y w IHt Wt Ty Ew) C Nn' ltac:(lia) R) as [(s' & _ & _ & _ & _ & g' & Vg' & R')|(s' & pl' & _ & (u & Eu & _) & _)]; [eauto|].
              destruct u; discriminate. }
            destruct X as (g' & s' & Vg' & R'). apply (IHfs (VObj (obj_set n w m)) (obj_set n w m) g' s' [] L V (or_intror eq_refl) Sm' D' Vg' R'). }
          split; [lia|]. eapply out_seq; [eapply out_weak; [apply (step_key _ w n m G g s pl L 0 (elem_sets t y w IHt Wt Ty Ew) C Nn' ltac:(lia) R)| |]|].
          * intros s' u X. exact X.
          * intros s'. apply gone_mono; lia.
          * intros s1 u pl1 (g' & Vg' & R'). apply (IHfs (VObj (obj_set n w m)) (obj_set n w m) g' s1 pl1 L V (or_intror eq_refl) Sm' D' Vg' R').
        + cbn [seq_] in V. destruct (IHfs (val_of g) m g s pl L V C Sm (fun k Hk => D k (or_intror Hk)) eq_refl R) as [B _]. split; [exact B|].
          eapply out_seq with (ok1 := fun s' _ => s' = s); [apply out_ret; reflexivity|]. intros s' u pl' ->.
          apply (IHfs (val_of g) m g s pl' L V C Sm (fun k Hk => D k (or_intror Hk)) eq_refl R). }
    apply (Q VNull [] GNull s pl L V (or_introl (conj eq_refl eq_refl)) ltac:(constructor) ltac:(intros k _ []) eq_refl H).
Qed.
End To.

(** ** The public operations *)
Section Ops.
Variable e : Convert.env.
Variable lf : bool.
Hypothesis He : fair e.
Variables (t : cty) (x : cval) (v : value).
Hypothesis Hw : wf_ty t.
Hypothesis Hx : typed t x.
Hypothesis Hv : of_cpp e t x = Ret v.

Lemma of_to : to_val e t x VNull = (v, Ret tt).
Proof. unfold of_cpp in Hv. destruct (to_val e t x VNull) as [w [[]| | | |]]; try discriminate. cbn in Hv. congruence. Qed.

Lemma fof_ok : forall s pl G L, rep s G L -> outF (fof e lf t x) s pl (built G L v) (leaked G L 0 (needs v)).
Proof.
  intros s pl G L H.
  assert (C : t <> TyJson -> outF (let! n <- lift (push_slot null_cell); let! _ <- on_throw (fto e lf t x (LSlot n)) forget_slot; let! c <- lift (read_loc (LSlot n)); let! _ <- lift forget_slot; fret c)
    s pl (built G L v) (leaked G L 0 (needs v))).
  { intro N. destruct (push_null _ _ _ H) as (s1 & E1 & H1). eapply out_step; [exact E1|]. eapply out_seq.
    - eapply out_throw; [apply (fto_ok e lf He t Hw x v Hx of_to N _ _ _ _ H1)|]. intros s' X. apply gone_leaked in X. exact X.
    - intros s2 u pl2 (g & Vg & R). eapply out_step; [apply (read_ok _ _ _ _ _ _ R (last_slot G g))|]. pose proof R as [En Hh].
      unfold cells in En. rewrite map_app in En. cbn [map option_map] in En. fold (cells G) in En.
      eapply out_step; [apply (forget_ok _ _ _ En)|]. apply out_ret. exists g. split; [reflexivity|]. split; [assumption|]. split; [reflexivity|]. cbn [set_env heap].
      eapply heap_is_perm; [|exact Hh]. rewrite fblocks_app. cbn [fblocks flat_map tblocks lblocks]. fold (lblocks L). psolve. }
  pose proof of_to as V. clear Hv. unfold fof. destruct t; try (apply C; discriminate). inversion Hx; subst. cbn [to_val] in V. injection V as <-.
  pose proof H as [_ Hh]. eapply out_weak; [apply (fbuild_ok v0 s pl _ Hh)| |].
  - intros s' c. apply made_built. assumption.
  - intros s' X. apply leak_leaked. apply (lost_leak s); [assumption|]. eapply lost_mono; [|exact X]. apply height_needs.
Qed.

Lemma leaked_but : forall G L lo hi s, leaked G L lo hi s -> exists ks, holds_but s (vals G) (ks ++ map fst (lblocks L)) /\ lo <= length ks <= hi.
Proof.
  intros G L lo hi s (K & R & N). exists (map fst (lblocks K)). rewrite map_length. split; [|exact N]. rewrite <- map_app, <- lblocks_app. apply rep_but. exact R.
Qed.

Lemma new_from : forall s S pl qs, holds_but s S qs -> exists s' pl',
  (fnew_from e lf t x (s, pl) = ((s', pl'), Ret tt) /\ granted pl pl' /\ holds_but s' (S ++ [Some v]) qs) \/
  (exists ks, fnew_from e lf t x (s, pl) = ((s', pl'), Throw EAlloc) /\ refused pl pl' /\ holds_but s' S (ks ++ qs) /\ length ks <= needs v).
Proof.
  intros s S pl qs H. apply but_rep in H. destruct H as (G & L & H & -> & ->).
  assert (O : outF (fnew_from e lf t x) s pl (fun s' _ => exists g, val_of g = v /\ rep s' (G ++ [Some g]) L) (leaked G L 0 (needs v))).
  { unfold fnew_from. eapply out_seq; [apply (fof_ok s pl G L H)|]. intros s1 c pl1 (y & -> & Vy & R).
    destruct (push_slot_ok _ _ _ _ R) as (s2 & E2 & R2). eapply out_step; [exact E2|]. apply out_ret. eauto. }
  destruct O as [(s' & pl' & [] & E & P & g & Vg & R)|(s' & pl' & E & P & X)]; exists s', pl'; [left|right].
  - split; [exact E|]. split; [exact P|]. rewrite <- Vg. change [Some (val_of g)] with (vals [Some g]). rewrite <- vals_app. apply rep_but. assumption.
  - apply leaked_but in X. destruct X as (ks & B & N). exists ks. split; [exact E|]. split; [exact P|]. split; [exact B|lia].
Qed.

Lemma set_from : forall a S S' y s pl qs, sget S a y -> sset S a v S' -> holds_but s S qs -> exists s' pl',
  (fset_from e lf a t x (s, pl) = ((s', pl'), Ret tt) /\ granted pl pl' /\ holds_but s' S' qs) \/
  (exists ks, fset_from e lf a t x (s, pl) = ((s', pl'), Throw EAlloc) /\ refused pl pl' /\ holds_but s' S (ks ++ qs) /\ length ks <= needs v).
Proof.
  intros a S S' y s pl qs Ha Hs H. apply but_rep in H. destruct H as (G & L & H & -> & ->). apply sget_walk in Ha. destruct Ha as (la & xa & Wa & Va).
  assert (O : outF (fset_from e lf a t x) s pl (fun s' _ => exists g, val_of g = v /\ rep s' (fput G a g) L) (leaked G L 0 (needs v))).
  { unfold fset_from. eapply out_step; [apply (locate_ok _ _ _ _ _ _ H Wa)|].
    eapply out_weak; [apply (elem_sets e lf t x v (fto_ok e lf He t) Hw Hx of_to G a (fun G1 => G1 = G) (fun _ => False)) with (L := L)| |].
    - intros G1 [->|[]]. reflexivity.
    - intros T0 s0 pl0 L0 H0. apply out_ret. exists G, xa. auto.
    - exact H.
    - intros s' u (G1 & g & l & x0 & -> & _ & Vg & R). eauto.
    - intros s' (G1 & [->|[->|[]]] & X); exact X. }
  destruct O as [(s' & pl' & [] & E & P & g & Vg & R)|(s' & pl' & E & P & X)]; exists s', pl'; [left|right].
  - split; [exact E|]. split; [exact P|]. rewrite (sset_to _ _ _ _ _ _ g Wa Hs Vg). apply rep_but. assumption.
  - apply leaked_but in X. destruct X as (ks & B & N). exists ks. split; [exact E|]. split; [exact P|]. split; [exact B|lia].
Qed.

Lemma push_from : forall a S S1 S' y l s pl qs, sget S a y -> as_array y l -> sset S a (VArr l) S1 -> sset S a (VArr (l ++ [v])) S' -> holds_but s S qs -> exists s' pl',
  (fpush_from e lf a t x (s, pl) = ((s', pl'), Ret tt) /\ granted pl pl' /\ holds_but s' S' qs) \/
  (exists ks Sx, fpush_from e lf a t x (s, pl) = ((s', pl'), Throw EAlloc) /\ refused pl pl' /\ (Sx = S \/ Sx = S1) /\ holds_but s' Sx (ks ++ qs) /\ length ks <= needs v).
Proof.
  intros a S S1 S' y l s pl qs Ha Al Hs1 Hs H. apply but_rep in H. destruct H as (G & L & H & -> & ->). apply sget_walk in Ha. destruct Ha as (la & xa & Wa & <-).
  set (bad := fun s' => exists G1, (vals G1 = vals G \/ vals G1 = S1) /\ leaked G1 L 0 (needs v) s').
  assert (O : outF (fpush_from e lf a t x) s pl (fun s' _ => holds_but s' S' (map fst (lblocks L))) bad).
  { unfold fpush_from. eapply out_step; [apply (locate_ok _ _ _ _ _ _ H Wa)|].
    assert (Ev : forall q g gl, l = map val_of gl -> S1 = vals (fput G a (GArr q g gl))).
    { intros q g gl El. apply (sset_to _ _ _ _ _ _ (GArr q g gl) Wa Hs1). cbn [val_of]. congruence. }
    apply (fpush_ok s pl G L a la xa l (fof e lf t x) (fun s' => holds_but s' S' (map fst (lblocks L))) bad H Wa Al).
    - intros s' q g gl El X R. exists (fput G a (GArr q g gl)). split; [right; symmetry; apply Ev; assumption|]. apply none_leaked. assumption.
    - intros s' R. exists G. split; [left; reflexivity|]. apply none_leaked. assumption.
    - intros s1 pl1 q g gl El X R. eapply out_weak; [apply (fof_ok s1 pl1 _ _ R)| |].
      + intros s2 c (y & -> & Vy & R2). exists y. split; [reflexivity|]. exists (fput G a (GArr q g gl)), gl. split; [exact R2|]. split; [apply (fwalk_put_same _ _ _ _ _ Wa)|].
        intros s3 R3. rewrite (fput_fput_same _ _ _ _ _ _ Wa) in R3. rewrite (sset_to _ _ _ _ _ _ (GArr q (Datatypes.S g) (gl ++ [y])) Wa Hs).
        * apply rep_but. exact R3.
        * cbn [val_of]. rewrite map_app. cbn [map]. congruence.
      + intros s' X'. exists (fput G a (GArr q g gl)). split; [right; symmetry; apply Ev; assumption|]. exact X'. }
  destruct O as [(s' & pl' & [] & E & P & R)|(s' & pl' & E & P & G1 & HG & X)]; exists s', pl'; [left; auto|right].
  apply leaked_but in X. destruct X as (ks & B & N). exists ks, (vals G1). split; [exact E|]. split; [exact P|]. split; [exact HG|]. split; [exact B|lia].
Qed.

(** *** What containers lose *)
Lemma fcreate_one : forall b s pl s' pl' er, fcreate (fret b) (s, pl) = ((s', pl'), Throw er) -> pl = true :: pl'.
Proof.
  intros b s pl s' pl' er H. unfold fcreate, fseq, alloc, lift, create, fret, set_block in H. cbn [fst snd] in H.
  destruct pl as [|[|] pl]; cbn [fst snd heap set_heap] in H; try (rewrite nth_error_app2, Nat.sub_diag in H by lia; discriminate). congruence.
Qed.

Lemma freset_one : forall i s pl G L s' pl' er, (i = IArr \/ i = IObj) -> rep s (G ++ [Some GNull]) L -> freset (LSlot (length G)) i (s, pl) = ((s', pl'), Throw er) -> pl = true :: pl'.
Proof.
  intros i s pl G L s' pl' er Hi H X. unfold freset in X. rewrite (lift_seq _ _ _ _ _ _ _ _ (read_ok _ _ _ _ _ _ H (last_slot G GNull))) in X.
  assert (D : destroy_cell (cell_of GNull) s = (s, Ret tt)) by reflexivity. rewrite (lift_seq _ _ _ _ _ _ _ _ D) in X. unfold fseq at 1 in X.
  destruct (lift (write_loc (LSlot (length G)) (mkCell (init_ty i) (c_data (cell_of GNull)))) (s, pl)) as [[s1 pl1] o1] eqn:E1.
  assert (Y : pl1 = pl /\ (o1 = Ret tt \/ o1 = UB)).
  { unfold lift in E1. cbn [fst snd write_loc] in E1. destruct (nth_error (env s) (length G)) as [[?|]|]; injection E1 as _ <- <-; auto. }
  destruct Y as [-> [-> | ->]]; [|discriminate]. unfold fseq at 1 in X. destruct (fconstruct i (s1, pl)) as [[s2 pl2] o2] eqn:E2. destruct o2; try discriminate.
  - unfold lift in X. cbn [fst snd write_loc] in X. destruct (nth_error (env s2) (length G)) as [[?|]|]; discriminate.
  - injection X as -> -> ->. destruct Hi as [-> | ->]; cbn [fconstruct] in E2; unfold fseq at 1 in E2.
    + destruct (fcreate (fret (BArr 0 [])) (s1, pl)) as [[s3 pl3] []] eqn:E3; try discriminate. injection E2 as -> -> ->. apply (fcreate_one _ _ _ _ _ _ E3).
    + destruct (fcreate (fret (BObj [])) (s1, pl)) as [[s3 pl3] []] eqn:E3; try discriminate. injection E2 as -> -> ->. apply (fcreate_one _ _ _ _ _ _ E3).
Qed.
Lemma freset_yes : forall i s (pl : plan) G L s' pl' (pl0 : plan), (i = IArr \/ i = IObj) -> rep s (G ++ [Some GNull]) L -> freset (LSlot (length G)) i (s, pl) = ((s', pl'), Ret tt) -> pl <> true :: pl0.
Proof.
  intros i s pl G L s' pl' pl0 Hi H X Q. unfold freset in X. rewrite (lift_seq _ _ _ _ _ _ _ _ (read_ok _ _ _ _ _ _ H (last_slot G GNull))) in X.
  assert (D : destroy_cell (cell_of GNull) s = (s, Ret tt)) by reflexivity. rewrite (lift_seq _ _ _ _ _ _ _ _ D) in X. unfold fseq at 1 in X.
  destruct (lift (write_loc (LSlot (length G)) (mkCell (init_ty i) (c_data (cell_of GNull)))) (s, pl)) as [[s1 pl1] o1] eqn:E1.
  assert (Y : pl1 = pl /\ (o1 = Ret tt \/ o1 = UB)).
  { unfold lift in E1. cbn [fst snd write_loc] in E1. destruct (nth_error (env s) (length G)) as [[?|]|]; injection E1 as _ <- <-; auto. }
  destruct Y as [-> [-> | ->]]; [|discriminate X]. rewrite Q in X. unfold fseq in X.
  destruct Hi as [-> | ->]; cbn [fconstruct] in X; unfold fcreate, fseq, alloc in X; cbn [fst snd] in X; discriminate X.
Qed.

Lemma fto_container : container t -> exists i (k : loc -> F unit), (i = IArr \/ i = IObj) /\ (forall a, fto e lf t x a = (let! _ <- freset a i; k a)) /\
  forall s pl G L g, val_of g = init_value i -> rep s (G ++ [Some g]) L ->
    outF (k (LSlot (length G))) s pl (fun s' _ => exists g', val_of g' = v /\ rep s' (G ++ [Some g']) L) (gone G L 1 (needs v)).
Proof.
  intro C. pose proof of_to as V. destruct He as [Fs Fm]. clear Hv. destruct t as [| | | | | | | |n t0|k t0|h t0|]; try contradiction; inversion Hx; subst.
  - inversion Hw; subst. exists IArr. eexists. split; [auto|]. split; [intro a; reflexivity|]. intros s pl G L g Vg R. cbn [to_val of_type] in V.
    eapply seq_fill; try eassumption. apply fto_ok; assumption.
  - inversion Hw as [| | | | | | | | |? ? Wt _ _| |]; subst. exists IArr.
    assert (A : forall l0, Forall (typed t0) l0 -> put_seq (fun y => to_val e t0 y VNull) 0 l0 (VArr []) = (v, Ret tt) -> forall s pl G L g, val_of g = VArr [] -> rep s (G ++ [Some g]) L ->
      outF (fput_seq (fset lf t0 (fto e lf t0)) (LSlot (length G)) 0 l0) s pl
        (fun s' _ => exists g', val_of g' = v /\ rep s' (G ++ [Some g']) L) (gone G L 1 (needs v))).
    { intros l0 F0 P0 s pl G L g Vg R. eapply seq_fill; try eassumption. apply fto_ok; assumption. }
    destruct k; (eexists; split; [auto|]; split; [intro a; reflexivity|]; cbn [to_val of_type] in V; apply A; try assumption).
    eapply Permutation_Forall; [apply Permutation_sym, Fs|assumption].
  - inversion Hw; subst. exists IObj. assert (Nd : NoDup (map fst m)) by (apply sorted_nodup, ss_sorted; assumption).
    assert (A : forall m0, Forall (fun p => typed t0 (snd p)) m0 -> NoDup (map fst m0) -> put_map (fun y => to_val e t0 y VNull) m0 (VObj []) = (v, Ret tt) ->
      forall s pl G L g, val_of g = VObj [] -> rep s (G ++ [Some g]) L ->
      outF (fput_map (fset lf t0 (fto e lf t0)) (LSlot (length G)) m0) s pl
        (fun s' _ => exists g', val_of g' = v /\ rep s' (G ++ [Some g']) L) (gone G L 1 (needs v))).
    { intros m0 F0 N0 P0 s pl G L g Vg R. eapply map_fill; try eassumption. apply fto_ok; assumption. }
    destruct h; (eexists; split; [auto|]; split; [intro a; reflexivity|]; cbn [to_val of_type] in V; apply A; try assumption).
    + eapply Permutation_Forall; [apply Permutation_sym, Fm|assumption].
    + eapply Permutation_NoDup; [apply Permutation_map, Permutation_sym, Fm|assumption].
Qed.

Lemma container_new : container t -> forall s S pl qs s' pl' er, holds_but s S qs -> fnew_from e lf t x (s, pl) = ((s', pl'), Throw er) ->
  exists ks, holds_but s' S (ks ++ qs) /\ length ks <= needs v /\ (ks = [] <-> pl = true :: pl').
Proof.
  intros C s S pl qs s' pl' er H X. apply but_rep in H. destruct H as (G & L & H & -> & ->).
  destruct (fto_container C) as (i & k & Hi & Ek & Hk). destruct (push_null _ _ _ H) as (s1 & E1 & H1).
  unfold fnew_from in X. unfold fseq at 1 in X.
  assert (Ef : fof e lf t x (s, pl) = (let! n <- lift (push_slot null_cell); let! _ <- on_throw (fto e lf t x (LSlot n)) forget_slot; let! c <- lift (read_loc (LSlot n)); let! _ <- lift forget_slot; fret c) (s, pl)).
  { unfold fof. destruct t; try contradiction; reflexivity. }
  rewrite Ef in X. rewrite (lift_seq _ _ _ _ _ _ _ _ E1) in X. unfold fseq at 1 in X. unfold on_throw in X. rewrite Ek in X. unfold fseq at 1 in X.
  pose proof (freset_null i s1 pl G L H1) as O. destruct O as [(s2 & pl2 & [] & E2 & P2 & g & Vg & R2)|(s2 & pl2 & E2 & P2 & Bad)].
  - rewrite E2 in X. destruct (Hk s2 pl2 G L g Vg R2) as [(s3 & pl3 & [] & E3 & P3 & g3 & Vg3 & R3)|(s3 & pl3 & E3 & P3 & Bad)].
    + exfalso. rewrite E3 in X. rewrite (lift_seq _ _ _ _ _ _ _ _ (read_ok _ _ _ _ _ _ R3 (last_slot G g3))) in X. pose proof R3 as [En Hh].
      unfold cells in En. rewrite map_app in En. cbn [map option_map] in En. fold (cells G) in En. rewrite (lift_seq _ _ _ _ _ _ _ _ (forget_ok _ _ _ En)) in X. discriminate.
    + rewrite E3 in X. apply gone_leaked in Bad. destruct Bad as (s4 & E4 & Bad). rewrite (lift_seq _ _ _ _ _ _ _ _ E4) in X. cbn in X. injection X as <- <- <-.
      apply leaked_but in Bad. destruct Bad as (ks & B & N). exists ks. split; [exact B|]. split; [lia|]. split.
      * intros ->. cbn in N. lia.
      * intro Q. exfalso. eapply freset_yes; eassumption.
  - rewrite E2 in X. assert (Z : ilost i = 0) by (destruct Hi as [-> | ->]; reflexivity). rewrite Z in Bad.
    apply gone_leaked in Bad. destruct Bad as (s4 & E4 & Bad). rewrite (lift_seq _ _ _ _ _ _ _ _ E4) in X. cbn in X. injection X as <- <- <-.
    apply leaked_but in Bad. destruct Bad as (ks & B & N). exists ks. split; [exact B|]. split; [lia|]. split.
    + intros _. eapply freset_one; eassumption.
    + intros _. destruct ks; [reflexivity|cbn in N; lia].
Qed.
End Ops.
