(** Reasoning about computations that may run out of memory; copying. *)
From Coq Require Import Lia Permutation Arith.
From Verif Require Import Base Value ValueOps ObjFacts ValueProofs Heap SpecHeap HeapGhost HeapPaths HeapOps HeapProofs Alloc SpecAlloc.
Open Scope nat_scope.

(** ** Plans *)
Lemma granted_refl : forall pl, granted pl pl.
Proof. intro pl. exists []. auto. Qed.
Lemma granted_trans : forall a b c, granted a b -> granted b c -> granted a c.
Proof. intros a b c (u & -> & U) (v & -> & V). exists (u ++ v). rewrite app_assoc. split; [reflexivity|]. apply Forall_app. auto. Qed.
Lemma granted_refused : forall a b c, granted a b -> refused b c -> refused a c.
Proof. intros a b c (u & -> & U) (v & -> & V). exists (u ++ v). rewrite app_assoc. split; [reflexivity|]. apply Forall_app. auto. Qed.

(** ** Either it succeeds with ok, or it throws std::bad_alloc with bad *)
Definition outF {A} (m : F A) (s : hstate) (pl : plan) (ok : hstate -> A -> Prop) (bad : hstate -> Prop) : Prop :=
  (exists s' pl' a, m (s, pl) = ((s', pl'), Ret a) /\ granted pl pl' /\ ok s' a) \/
  (exists s' pl', m (s, pl) = ((s', pl'), Throw EAlloc) /\ refused pl pl' /\ bad s').

Lemma out_ret : forall A (a : A) s pl (ok : hstate -> A -> Prop) bad, ok s a -> outF (fret a) s pl ok bad.
Proof. intros. left. exists s, pl, a. split; [reflexivity|]. split; [apply granted_refl|assumption]. Qed.

Lemma out_lift : forall A (m : M A) s s' a pl (ok : hstate -> A -> Prop) bad, m s = (s', Ret a) -> ok s' a -> outF (lift m) s pl ok bad.
Proof. intros A m s s' a pl ok bad E H. left. exists s', pl, a. unfold lift. cbn [fst snd]. rewrite E. split; [reflexivity|]. split; [apply granted_refl|assumption]. Qed.

Lemma out_alloc : forall s pl (ok : hstate -> unit -> Prop) (bad : hstate -> Prop), ok s tt -> bad s -> outF alloc s pl ok bad.
Proof.
  intros s [|[|] pl] ok bad H B; unfold alloc, outF; cbn [fst snd].
  - left. exists s, [], tt. split; [reflexivity|]. split; [apply granted_refl|assumption].
  - right. exists s, pl. split; [reflexivity|]. split; [|assumption]. exists []. auto.
  - left. exists s, pl, tt. split; [reflexivity|]. split; [|assumption]. exists [false]. auto.
Qed.

Lemma out_seq : forall A B (m : F A) (k : A -> F B) s pl ok1 ok bad, outF m s pl ok1 bad ->
  (forall s' a pl', ok1 s' a -> outF (k a) s' pl' ok bad) -> outF (fseq m k) s pl ok bad.
Proof.
  intros A B m k s pl ok1 ok bad [(s1 & p1 & a & E & P & H)|(s1 & p1 & E & P & H)] K.
  - destruct (K s1 a p1 H) as [(s2 & p2 & b & E2 & P2 & H2)|(s2 & p2 & E2 & P2 & H2)]; [left|right].
    + exists s2, p2, b. unfold fseq. rewrite E. split; [exact E2|]. split; [eapply granted_trans; eassumption|assumption].
    + exists s2, p2. unfold fseq. rewrite E. split; [exact E2|]. split; [eapply granted_refused; eassumption|assumption].
  - right. exists s1, p1. unfold fseq. rewrite E. auto.
Qed.

Lemma out_weak : forall A (m : F A) s pl (ok ok' : hstate -> A -> Prop) (bad bad' : hstate -> Prop), outF m s pl ok bad ->
  (forall s' a, ok s' a -> ok' s' a) -> (forall s', bad s' -> bad' s') -> outF m s pl ok' bad'.
Proof.
  intros A m s pl ok ok' bad bad' [(s1 & p1 & a & E & P & H)|(s1 & p1 & E & P & H)] K1 K2; [left; exists s1, p1, a; auto|right; exists s1, p1; auto].
Qed.


Lemma lift_seq : forall A B (m : M A) (k : A -> F B) s s1 a pl, m s = (s1, Ret a) -> fseq (lift m) k (s, pl) = k a (s1, pl).
Proof. intros A B m k s s1 a pl E. unfold fseq, lift. cbn [fst snd]. rewrite E. reflexivity. Qed.

Lemma out_step : forall A B (m : M A) (k : A -> F B) s s1 a pl ok bad, m s = (s1, Ret a) -> outF (k a) s1 pl ok bad -> outF (fseq (lift m) k) s pl ok bad.
Proof. intros A B m k s s1 a pl ok bad E H. unfold outF in *. rewrite (lift_seq _ _ _ _ _ _ _ _ E). exact H. Qed.

Lemma out_throw : forall A (m : F A) (k : M unit) s pl ok bad bad', outF m s pl ok bad ->
  (forall s', bad s' -> exists s2, k s' = (s2, Ret tt) /\ bad' s2) -> outF (on_throw m k) s pl ok bad'.
Proof.
  intros A m k s pl ok bad bad' [(s1 & p1 & a & E & P & H)|(s1 & p1 & E & P & H)] K.
  - left. exists s1, p1, a. unfold on_throw. rewrite E. auto.
  - right. destruct (K s1 H) as (s2 & E2 & B2). exists s2, p1. unfold on_throw. rewrite E. rewrite (lift_seq _ _ _ _ _ _ _ _ E2). auto.
Qed.

Lemma out_finally : forall A (m : F A) (k : M unit) s pl ok ok' bad bad', outF m s pl ok bad ->
  (forall s' a, ok s' a -> exists s2, k s' = (s2, Ret tt) /\ ok' s2 a) ->
  (forall s', bad s' -> exists s2, k s' = (s2, Ret tt) /\ bad' s2) -> outF (ffinally m k) s pl ok' bad'.
Proof.
  intros A m k s pl ok ok' bad bad' [(s1 & p1 & a & E & P & H)|(s1 & p1 & E & P & H)] K1 K2.
  - left. destruct (K1 s1 a H) as (s2 & E2 & B2). exists s2, p1, a. unfold ffinally. rewrite E. rewrite (lift_seq _ _ _ _ _ _ _ _ E2). auto.
  - right. destruct (K2 s1 H) as (s2 & E2 & B2). exists s2, p1. unfold ffinally. rewrite E. rewrite (lift_seq _ _ _ _ _ _ _ _ E2). auto.
Qed.

(** ** Storage without an object *)
Definition raw (p : nat) : gt := GStr p [].
Definition raws (K : list nat) : list (nat * block) := map (fun p => (p, BStr [])) K.

(** lost: K; everything else as before *)
Definition lost (s : hstate) (B : list (nat * block)) (n : nat) (s' : hstate) : Prop :=
  exists K, length K <= n /\ env s' = env s /\ heap_is (heap s') (raws K ++ B).
Definition made (s : hstate) (B : list (nat * block)) (v : value) (s' : hstate) (c : cell) : Prop :=
  exists y, c = cell_of y /\ val_of y = v /\ env s' = env s /\ heap_is (heap s') (blocks y ++ B).

Lemma lost_none : forall s B n, heap_is (heap s) B -> lost s B n s.
Proof. intros s B n H. exists []. split; [cbn; lia|]. auto. Qed.
Lemma lost_mono : forall s B n m s', n <= m -> lost s B n s' -> lost s B m s'.
Proof. intros s B n m s' L (K & A & R). exists K. split; [lia|exact R]. Qed.

Lemma fcreate_ok : forall (build : F block) s pl B (Q : block -> list (nat * block) -> Prop) n, heap_is (heap s) B ->
  (forall s1 p pl1, env s1 = env s -> heap_is (heap s1) ((p, BStr []) :: B) ->
    outF build s1 pl1 (fun s2 b => exists C, Q b C /\ env s2 = env s /\ heap_is (heap s2) (C ++ (p, BStr []) :: B))
      (lost s1 ((p, BStr []) :: B) n)) ->
  outF (fcreate build) s pl (fun s3 p => exists b C, Q b C /\ env s3 = env s /\ heap_is (heap s3) ((p, b) :: C ++ B)) (lost s B (S n)).
Proof.
  intros build s pl B Q n H Hb. unfold fcreate. eapply out_seq with (ok1 := fun s' _ => s' = s); [apply out_alloc; [reflexivity|apply lost_none; assumption]|].
  intros s' a pl' ->. eapply out_step; [reflexivity|]. set (s1 := set_heap (heap s ++ [Some (BStr [])]) s). set (p := length (heap s)).
  assert (H1 : heap_is (heap s1) ((p, BStr []) :: B)) by (apply heap_new; assumption).
  eapply out_seq; [eapply out_weak; [apply (Hb s1 p pl' eq_refl H1)| |]|].
  - intros s2 b X. exact X.
  - intros s2 (K & L & E & Hh). exists (p :: K). split; [cbn; lia|]. split; [exact E|]. eapply heap_is_perm; [|exact Hh]. cbn [raws map app]. fold (raws K).
    symmetry. apply Permutation_middle.
  - intros s2 b pl2 (C & Hq & E2 & H2).
    assert (H2' : heap_is (heap s2) ((p, BStr []) :: C ++ B)) by (eapply heap_is_perm; [|exact H2]; symmetry; apply Permutation_middle).
    eapply out_step; [apply (set_block_ok _ _ _ b _ H2')|]. apply out_ret. exists b, C.
    split; [exact Hq|]. split; [exact E2|]. apply (heap_set _ _ _ b _ H2').
Qed.

Lemma fcreate_now : forall b s pl B, heap_is (heap s) B ->
  outF (fcreate (fret b)) s pl (fun s3 p => env s3 = env s /\ heap_is (heap s3) ((p, b) :: B)) (lost s B 0).
Proof.
  intros b s pl B H. unfold fcreate. eapply out_seq with (ok1 := fun s' _ => s' = s); [apply out_alloc; [reflexivity|apply lost_none; assumption]|].
  intros s' a pl' ->. eapply out_step; [reflexivity|]. set (s1 := set_heap (heap s ++ [Some (BStr [])]) s). set (p := length (heap s)).
  assert (H1 : heap_is (heap s1) ((p, BStr []) :: B)) by (apply heap_new; assumption).
  eapply out_seq with (ok1 := fun s' b' => s' = s1 /\ b' = b); [apply out_ret; auto|]. intros s2 b' pl2 [-> ->].
  eapply out_step; [apply (set_block_ok _ _ _ b _ H1)|]. apply out_ret. split; [reflexivity|]. apply (heap_set _ _ _ b _ H1).
Qed.

Lemma fcreate_text : forall t s pl B, heap_is (heap s) B ->
  outF (fcreate (let! _ <- alloc; fret (BStr t))) s pl (fun s3 p => env s3 = env s /\ heap_is (heap s3) ((p, BStr t) :: B)) (lost s B 1).
Proof.
  intros t s pl B H. eapply out_weak.
  - apply (fcreate_ok _ s pl B (fun b C => b = BStr t /\ C = []) 0 H). intros s1 p pl1 E H1.
    eapply out_seq with (ok1 := fun s' _ => s' = s1); [apply out_alloc; [reflexivity|apply lost_none; assumption]|].
    intros s' a pl' ->. apply out_ret. exists []. auto.
  - intros s' p (b & C & [-> ->] & E & Hh). auto.
  - intros s' X. exact X.
Qed.

(** ** Copies *)
Definition fcopies (f : cell -> F cell) (x : gt) : Prop := forall s pl B, heap_is (heap s) B -> incl (blocks x) B ->
  outF (f (cell_of x)) s pl (made s B (val_of x)) (lost s B (height (val_of x))).

Lemma fmapm_ok : forall A (cl : A -> gt) C (f : A -> F C) (undo : C -> M unit) (mk : A -> cell -> C) n l,
  (forall a c, undo (mk a c) = destroy_cell c) ->
  (forall x, In x l -> forall s pl B, heap_is (heap s) B -> incl (blocks (cl x)) B ->
     outF (f x) s pl (fun s' r => exists y, r = mk x (cell_of y) /\ val_of y = val_of (cl x) /\ env s' = env s /\ heap_is (heap s') (blocks y ++ B)) (lost s B n)) ->
  forall s pl B, heap_is (heap s) B -> incl (flat_map (fun x => blocks (cl x)) l) B ->
  outF (fmapm f undo l) s pl (fun s' r => exists ys, r = map (fun xy => mk (fst xy) (cell_of (snd xy))) (combine l ys) /\ length ys = length l /\
    map val_of ys = map (fun x => val_of (cl x)) l /\ env s' = env s /\ heap_is (heap s') (flat_map blocks ys ++ B)) (lost s B n).
Proof.
  intros A cl C f undo mk n l U. induction l as [|x l IH]; intros Hf s pl B H I; cbn [fmapm].
  - apply out_ret. exists []. cbn. auto.
  - cbn [flat_map] in I. assert (I1 : incl (blocks (cl x)) B) by (intros e He; apply I; apply in_or_app; auto).
    assert (I2 : incl (flat_map (fun x => blocks (cl x)) l) B) by (intros e He; apply I; apply in_or_app; auto).
    eapply out_seq; [apply (Hf x (or_introl eq_refl) s pl B H I1)|]. intros s1 r pl1 (y & -> & V1 & N1 & H1).
    eapply out_seq.
    + eapply out_throw; [apply (IH (fun z Hz => Hf z (or_intror Hz)) s1 pl1 (blocks y ++ B) H1)|].
      * intros e He. apply in_or_app. right. apply I2. assumption.
      * intros s2 (K & L & E & Hh). rewrite U.
        assert (H2 : heap_is (heap s2) (blocks y ++ raws K ++ B)) by (eapply heap_is_perm; [|exact Hh]; rewrite !app_assoc; apply Permutation_app_tail; apply Permutation_app_comm).
        destruct (destroy_cell_ok y s2 _ H2) as (s3 & E3 & V3 & H3 & _). exists s3. split; [exact E3|]. exists K. split; [exact L|]. split; [congruence|exact H3].
    + intros s2 r pl2 (ys & -> & L2 & V2 & N2 & H2). apply out_ret. exists (y :: ys). split; [reflexivity|]. split; [cbn; congruence|].
      split; [cbn [map]; congruence|]. split; [congruence|]. eapply heap_is_perm; [|exact H2]. cbn [flat_map].
      rewrite <- app_assoc. rewrite !app_assoc. apply Permutation_app_tail. apply Permutation_app_comm.
Qed.

Lemma fmapm_map : forall A B C (f : B -> F C) undo (g : A -> B) l s, fmapm (fun x => f (g x)) undo l s = fmapm f undo (map g l) s.
Proof.
  intros A B C f undo g l. induction l as [|x l IH]; intro s; cbn [map fmapm]; [reflexivity|]. unfold fseq at 1 3.
  destruct (f (g x) s) as [s1 []]; try reflexivity. unfold fseq, on_throw. rewrite IH. reflexivity.
Qed.

Lemma outF_ext : forall A (m m' : F A) s pl ok bad, (forall s, m s = m' s) -> outF m s pl ok bad -> outF m' s pl ok bad.
Proof. intros A m m' s pl ok bad E H. unfold outF in *. rewrite <- E. exact H. Qed.

Lemma val_height : forall x l, In x l -> height (val_of x) <= list_max (map height (map val_of l)).
Proof. intros x l H. rewrite map_map. apply (in_max _ (fun x => height (val_of x))). assumption. Qed.

Lemma fcopy_ok : forall x fuel, hgt x <= fuel -> fcopies (fcopy fuel) x.
Proof.
  intro x. induction x as [|b|z|f|p s0|p g l IH|p m IH] using gt_deep; intros fuel Hf s pl B H I;
    (destruct fuel as [|fuel]; [cbn in Hf; lia|]); cbn [fcopy cell_of c_ty].
  - apply out_ret. exists GNull. auto.
  - apply out_ret. exists (GBool b). auto.
  - apply out_ret. exists (GInt z). auto.
  - apply out_ret. exists (GFlt f). auto.
  - eapply out_step; [reflexivity|]. eapply out_step; [apply (get_block_in _ p (BStr s0) B H); apply I; left; reflexivity|].
    eapply out_seq; [apply (fcreate_text s0 s pl B H)|]. intros s1 q pl1 [E1 H1]. apply out_ret. exists (GStr q s0). auto.
  - eapply out_step; [reflexivity|]. eapply out_step; [apply (get_block_in _ p (BArr g (map cell_of l)) B H); apply I; left; reflexivity|].
    eapply out_seq.
    + apply (fcreate_ok _ s pl B (fun b C => exists ys, b = BArr 0 (map cell_of ys) /\ C = flat_map blocks ys /\ map val_of ys = map val_of l)
        (list_max (map height (map val_of l))) H). intros s1 q pl1 E1 H1.
      eapply out_seq with (ok1 := fun s' _ => s' = s1); [apply out_alloc; [reflexivity|apply lost_none; assumption]|]. intros s' a pl2 ->.
      eapply out_seq.
      * eapply outF_ext; [apply fmapm_map|].
        apply (fmapm_ok gt (fun x => x) cell (fun x => fcopy fuel (cell_of x)) destroy_cell (fun _ c => c) (list_max (map height (map val_of l))) l) with (B := (q, BStr []) :: B).
        -- reflexivity.
        -- intros y Hy s2 pl3 B2 H2 I2. rewrite Forall_forall in IH. eapply out_weak; [apply (IH y Hy fuel); [|eassumption|eassumption]| |].
           ++ cbn [hgt] in Hf. pose proof (in_max _ hgt l y Hy). lia.
           ++ intros s3 c (y' & -> & R). exists y'. auto.
           ++ intros s3. apply lost_mono. apply val_height. assumption.
        -- assumption.
        -- intros e He. right. apply I. right. assumption.
      * intros s2 r pl3 (ys & -> & L & V & N & Hh). apply out_ret. exists (flat_map blocks ys). split; [|split; [congruence|exact Hh]].
        exists ys. split; [|auto]. f_equal. rewrite <- (map_map snd cell_of). rewrite combine_snd by assumption. reflexivity.
    + intros s2 q pl2 (b & C & (ys & -> & -> & V) & E2 & H2). apply out_ret. exists (GArr q 0 ys). split; [reflexivity|]. split; [cbn [val_of]; congruence|]. auto.
  - eapply out_step; [reflexivity|]. eapply out_step; [apply (get_block_in _ p (BObj (vmap cell_of m)) B H); apply I; left; reflexivity|].
    assert (Hh : forall y, In y m -> height (val_of (snd y)) <= list_max (map (fun kv => height (snd kv)) (vmap val_of m))).
    { intros y Hy. unfold vmap. rewrite map_map. cbn [snd]. apply (in_max _ (fun kx : str * gt => height (val_of (snd kx)))). assumption. }
    eapply out_seq.
    + change (height (val_of (GObj p m))) with (S (list_max (map (fun kv => height (snd kv)) (vmap val_of m)))).
      apply (fcreate_ok _ s pl B (fun b C => exists m', b = BObj (vmap cell_of m') /\ C = flat_map (fun kx => blocks (snd kx)) m' /\ vmap val_of m' = vmap val_of m)
        (list_max (map (fun kv => height (snd kv)) (vmap val_of m))) H). intros s1 q pl1 E1 H1.
      eapply out_seq.
      * eapply outF_ext; [apply fmapm_map|].
        apply (fmapm_ok (str * gt) snd (str * cell) (fun kx => (fun kc => let! _ <- alloc; let! _ <- alloc; let! c' <- fcopy fuel (snd kc); fret (fst kc, c')) (fst kx, cell_of (snd kx)))
          (fun kc => destroy_cell (snd kc)) (fun kx c => (fst kx, c)) (list_max (map (fun kv => height (snd kv)) (vmap val_of m))) m) with (B := (q, BStr []) :: B).
        -- reflexivity.
        -- intros y Hy s2 pl3 B2 H2 I2. rewrite Forall_forall in IH. cbn [fst snd].
           do 2 (eapply out_seq with (ok1 := fun s' _ => s' = s2); [apply out_alloc; [reflexivity|apply lost_none; assumption]|]; intros ? ? ? ->).
           eapply out_seq; [eapply out_weak; [apply (IH y Hy fuel); [|eassumption|eassumption]| |]|].
           ++ cbn [hgt] in Hf. pose proof (in_max _ (fun kx : str * gt => hgt (snd kx)) m y Hy). cbn beta in *. lia.
           ++ intros s3 c X. exact X.
           ++ intros s3. apply lost_mono. apply Hh. assumption.
           ++ intros s3 c pl4 (y' & -> & R). apply out_ret. exists y'. auto.
        -- assumption.
        -- intros e He. right. apply I. right. assumption.
      * intros s2 r pl3 (ys & -> & L & V & N & Hx). apply out_ret. exists (flat_map blocks ys). split; [|split; [congruence|exact Hx]].
        exists (combine (map fst m) ys). split; [|split].
        -- f_equal. clear -L. revert ys L. induction m as [|[k x] m IHm]; intros [|y ys] L; cbn in *; try discriminate; [reflexivity|]. f_equal. apply IHm. lia.
        -- clear -L. revert ys L. induction m as [|[k x] m IHm]; intros [|y ys] L; cbn in *; try discriminate; [reflexivity|]. f_equal. apply IHm. lia.
        -- clear -L V. revert ys L V. induction m as [|[k x] m IHm]; intros [|y ys] L V; cbn in *; try discriminate; [reflexivity|].
           injection V as V1 V2. rewrite V1. f_equal. apply IHm; [lia|assumption].
    + intros s2 q pl2 (b & C & (m' & -> & -> & V) & E2 & H2). apply out_ret. exists (GObj q m'). split; [reflexivity|]. split; [cbn [val_of]; f_equal; exact V|]. auto.
Qed.

Lemma fcopy_cell_ok : forall x s pl B R, heap_is (heap s) B -> Permutation B (blocks x ++ R) ->
  outF (fcopy_cell (cell_of x)) s pl (made s B (val_of x)) (lost s B (height (val_of x))).
Proof.
  intros x s pl B R H P.
  assert (X : outF (fcopy (budget s) (cell_of x)) s pl (made s B (val_of x)) (lost s B (height (val_of x)))).
  { apply fcopy_ok; [|assumption|].
    - eapply hgt_budget. eapply heap_is_perm; eassumption.
    - intros e He. eapply Permutation_in; [apply Permutation_sym; exact P|]. apply in_or_app. auto. }
  exact X.
Qed.
