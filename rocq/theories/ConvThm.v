(** The theorems about conversions. *)
From Coq Require Import Sorted Permutation Floats.SpecFloat Lia ZifyBool ZifyNat ZifyN.
From Verif Require Import Base Value Compare ValueOps Iterator SpecGrammar SpecText ObjFacts SpecValue ValueProofs SpecIter IterProofs
  SpecCompare CompareProofs Cpp Convert SpecConv ConvOrder ConvFloat ConvTo ConvFrom ConvRead ConvSafe ConvMain ConvRound.
Open Scope N_scope.

(** ** The value an object converts to can be read *)
Lemma each_image : forall t l vs w, Forall (typed t) l -> Forall2 (image t) l vs -> In w vs -> exists x, In x l /\ typed t x /\ image t x w.
Proof.
  intros t l vs w T F Hw. apply flip_in with (P := typed t) (R := fun v x => typed t x /\ image t x v) in F; [|assumption|auto].
  destruct (all_in _ _ _ _ _ w F Hw) as (a & Ia & Ta & Im). eauto.
Qed.
Lemma seq_image : forall k t l v, Forall (typed t) l -> image (TySeq k t) (CSeq l) v ->
  exists vs, v = VArr vs /\ forall w, In w vs -> exists x, In x l /\ typed t x /\ image t x w.
Proof.
  intros k t l v T I. inversion I; subst.
  - exists vs. split; [reflexivity|]. intros w Hw. eapply each_image; eassumption.
  - exists vs. split; [reflexivity|]. intros w Hw.
    match goal with Pm : Permutation l l', F : Forall2 _ l' vs |- _ => destruct (each_image t l' vs w (Permutation_Forall Pm T) F Hw) as (x & Ix & Hx);
      exists x; split; [apply (Permutation_in x (Permutation_sym Pm) Ix)|assumption] end.
Qed.
Lemma map_image : forall h t m v, Forall (fun p => typed t (snd p)) m -> image (TyMap h t) (CMap m) v ->
  exists o, v = VObj o /\ map fst m = map fst o /\ forall k w, In (k, w) o -> exists x, typed t x /\ image t x w.
Proof.
  intros h t m v T I. inversion I; subst. exists o. split; [reflexivity|]. split; [eapply Forall2_keys; eassumption|].
  intros k w Hw. match goal with F : Forall2 _ m o |- _ => apply flip_in with (P := fun p => typed t (snd p)) (R := fun q p => typed t (snd p) /\ image t (snd p) (snd q)) in F;
        [|assumption|tauto]; destruct (all_in _ _ _ _ _ (k, w) F Hw) as (a & _ & Ta & Ia) end. eauto.
Qed.
Lemma struct_image : forall fs l v, Forall2 (fun f x => typed (snd f) x) fs l -> image (TyStruct fs) (CRec l) v ->
  v = VNull \/ exists o, v = VObj o /\ sorted o /\ forall n w, In (n, w) o -> exists req t x, In (n, req, t) fs /\ typed t x /\ image t x w.
Proof.
  intros fs l v T I. inversion I as [| | | | | | | | | | | | | |? ? ws ? M Hn Ho]; subst.
  destruct ws as [|w0 ws]; [left; auto|right]. destruct Ho as (o & -> & Mo); [discriminate|]. exists o. split; [reflexivity|]. split; [apply Mo|].
  intros n w Hw. apply (map_of_in _ _ _ _ _ Mo) in Hw. clear - T M Hw.
  induction M as [|n' req t fs x l w' ws' Q I M IH|n' t fs x l ws' Q M IH]; [destruct Hw| |]; inversion T; subst; cbn [snd] in *.
  - destruct Hw as [E|Hw].
    + injection E as -> ->. exists req, t, x. split; [left; reflexivity|auto].
    + destruct (IH ltac:(assumption) Hw) as (r & t' & x' & Hf & R). exists r, t', x'. split; [right; assumption|assumption].
  - destruct (IH ltac:(assumption) Hw) as (r & t' & x' & Hf & R). exists r, t', x'. split; [right; assumption|assumption].
Qed.

Lemma image_ordered : forall t x v, typed t x -> image t x v -> ordered v.
Proof.
  induction t as [|w sg| | | | |raw|t IH|n t IH|k t IH|h t IH|fs IH] using cty_deep; intros x v T I.
  - inversion I; subst. constructor.
  - inversion I; subst. constructor.
  - inversion I; subst. constructor.
  - inversion I; subst. constructor.
  - inversion I; subst. constructor.
  - inversion I; subst. inversion T; subst. assumption.
  - inversion I; subst; inversion T; subst; assumption.
  - inversion I; subst; [constructor|]. inversion T; subst. eapply IH; eassumption.
  - inversion I; subst. inversion T; subst. constructor. intros w Hw.
    match goal with F : Forall2 (image t) l vs |- _ => destruct (each_image t l vs w ltac:(assumption) F Hw) as (y & _ & Ty & Iy) end. eapply IH; eassumption.
  - inversion T; subst. destruct (seq_image k t l v) as (vs & -> & E); try assumption. constructor. intros w Hw.
    destruct (E w Hw) as (y & _ & Ty & Iy). eapply IH; eassumption.
  - inversion T as [| | | | | | | | | | | |h' t' m Tm Ts|]; subst. apply ss_sorted in Ts. destruct (map_image h t m v) as (o & -> & K & E); try assumption. constructor.
    + eapply sorted_keys; eassumption.
    + intros k w Hw. destruct (E k w Hw) as (y & Ty & Iy). eapply IH; eassumption.
  - inversion T; subst. destruct (struct_image fs l v) as [->|(o & -> & So & E)]; try assumption; [constructor|]. constructor; [assumption|].
    intros k w Hw. destruct (E k w Hw) as (req & t & y & Hf & Ty & Iy). rewrite Forall_forall in IH. eapply (IH _ Hf); eassumption.
Qed.

Lemma double_number : forall f, f <> S754_nan -> to_double f <> S754_nan.
Proof.
  intros [s|s| |s m e] H; try assumption; try discriminate. unfold to_double. rewrite recast_finite.
  unfold binary_round. destruct (shl_align m e _) as [m' e']. apply round_aux_number. lia.
Qed.
Lemma self_image : forall t, ordered_ty t -> forall x w, typed t x -> image t x w -> ceqb x x = true -> nan_free w.
Proof.
  intros t H. induction H as [|w sg| | | |n t Ht IH|k t Hk Ht IH]; intros x v T I E.
  - inversion I; subst. constructor.
  - inversion I; subst. constructor. exact Logic.I.
  - inversion I; subst. constructor. apply feqb_nan. exact E.
  - inversion I; subst. constructor. apply double_number, feqb_nan. exact E.
  - inversion I; subst. constructor.
  - inversion I; subst. inversion T; subst. rewrite self_seq, Forall_forall in E. constructor. intros w Hw.
    match goal with F : Forall2 (image t) l vs |- _ => destruct (each_image t l vs w ltac:(assumption) F Hw) as (y & Hy & Ty & Iy) end. eapply IH; eauto.
  - inversion T; subst. destruct (seq_image k t l v) as (vs & -> & Ex); try assumption. rewrite self_seq, Forall_forall in E. constructor. intros w Hw.
    destruct (Ex w Hw) as (y & Hy & Ty & Iy). eapply IH; eauto.
Qed.

Lemma items_arr : forall vs us, seq_items (VArr vs) us -> us = vs.
Proof. intros vs us H. inversion H. reflexivity. Qed.

Lemma image_safe : forall t, wf_ty t -> forall x v, typed t x -> image t x v -> ~ nan_in_set t v.
Proof.
  induction t as [|w sg| | | | |raw|t IH|n t IH|k t IH|h t IH|fs IH] using cty_deep; intros W x v T I N; try (inversion N; fail).
  - inversion W; subst. inversion N; subst. inversion I; subst.
    + match goal with X : nan_in_set t VNull |- _ => revert X end. assert (D : typed t (dflt t)) by (apply dflt_typed; assumption). intro X.
      clear - X. remember VNull as v eqn:E. induction X; subst; try discriminate; auto; try (match goal with S : seq_items VNull _ |- _ => inversion S; subst; contradiction end).
      match goal with S : elements VNull _ |- _ => inversion S; subst; contradiction end.
    + inversion T; subst. eapply IH; eassumption.
  - inversion W; subst. inversion I; subst. inversion T; subst. inversion N; subst.
    match goal with Q : seq_items (VArr vs) _ |- _ => apply items_arr in Q; subst end.
    match goal with F : Forall2 (image t) l vs, Hw : In ?w vs |- _ => destruct (each_image t l vs w ltac:(assumption) F Hw) as (y & Hy & Ty & Iy) end.
    eapply IH; eassumption.
  - inversion W as [| | | | | | | | |? ? Wt Ws Wu| |]; subst. inversion T as [| | | | | | | | | | |k' t' l Tl Ts| |]; subst.
    destruct (seq_image k t l v) as (vs & -> & Ex); try assumption. inversion N; subst;
      (match goal with Q : seq_items (VArr vs) _ |- _ => apply items_arr in Q; subst end);
      match goal with Hw : In ?w vs |- _ => destruct (Ex w Hw) as (y & Hy & Ty & Iy) end.
    + match goal with X : ~ nan_free _ |- _ => apply X end. destruct (Ts (or_introl eq_refl)) as [_ Se]. rewrite Forall_forall in Se.
      eapply (self_image t); eauto.
    + eapply IH; eassumption.
  - inversion W; subst. inversion T as [| | | | | | | | | | | |h' t' m Tm Ts|]; subst.
    destruct (map_image h t m v) as (o & -> & K & Ex); try assumption. inversion N; subst.
    match goal with El : elements (VObj o) _ |- _ => inversion El; subst end.
    match goal with Hw : In _ (map _ o) |- _ => apply in_map_iff in Hw; destruct Hw as ([k' w'] & E & Hw') end. injection E as _ <-.
    destruct (Ex k' w' Hw') as (y & Ty & Iy). eapply IH; eassumption.
  - inversion W as [| | | | | | | | | | |fs' Nd Wf]; subst. inversion T; subst. destruct (struct_image fs l v) as [->|(o & -> & So & Ex)]; try assumption; [inversion N|].
    inversion N; subst. match goal with Hw : In (n, w) o |- _ => destruct (Ex n w Hw) as (r & t' & y & Hf & Ty & Iy) end.
    match goal with Hf' : In (n, req, t) fs |- _ => assert (Eq : (n, r, t') = (n, req, t)); [|injection Eq as -> ->; rewrite Forall_forall in IH, Wf; eapply (IH _ Hf'); eauto; apply (Wf _ Hf')] end.
    match goal with Hf' : In (n, req, t) fs |- _ => revert Hf Hf' Nd end. clear. intros A B Nd.
    induction fs as [|[[n0 r0] t0] fs IHf]; [destruct A|]. cbn [map fst] in Nd. inversion Nd as [|? ? N0 Nd0]; subst.
    destruct A as [A|A]; destruct B as [B|B].
    + congruence.
    + injection A as -> -> ->. destruct N0. apply in_map_iff. exists (n, req, t). auto.
    + injection B as -> -> ->. destruct N0. apply in_map_iff. exists (n, r, t'). auto.
    + auto.
Qed.

Lemma nan_free_safe : forall t v, nan_free v -> ~ nan_in_set t v.
Proof.
  intros t v F N. induction N.
  - apply H2. eapply nan_items; eassumption.
  - apply IHN. eapply nan_items; eassumption.
  - apply IHN. eapply nan_items; eassumption.
  - auto.
  - apply IHN. eapply elem_nan; eassumption.
  - apply IHN. inversion F; subst. match goal with X : forall k x, In (k, x) o -> _ |- _ => exact (X _ _ H0) end.
Qed.

(** ** To a value and back *)
Theorem to_value_image : forall e t x, fair e -> wf_ty t -> typed t x -> exists v, of_cpp e t x = Ret v /\ image t x v.
Proof.
  intros e t x F W T. destruct (to_image e t F W x T) as (v & E & I). exists v. split; [|assumption]. unfold of_cpp. rewrite E. reflexivity.
Qed.
Lemma of_image : forall e t x v, fair e -> wf_ty t -> typed t x -> of_cpp e t x = Ret v -> image t x v.
Proof.
  intros e t x v F W T E. destruct (to_value_image e t x F W T) as (v' & E' & I). rewrite E in E'. injection E' as ->. assumption.
Qed.

(** ** get *)
Theorem get_reads : forall e t v, wf_ty t -> ordered v -> ~ nan_in_set t v -> forall y, get e t v = Ret y <-> reads t v (dflt t) y.
Proof.
  intros e t v W O S y. rewrite get_ret. pose proof (dflt_typed t W) as D. split.
  - apply (fwd_ok e t W v (dflt t) O D).
  - apply (bwd_ok e t W v (dflt t) O D S).
Qed.
Theorem get_breaks : forall e t v, wf_ty t -> ordered v -> ~ nan_in_set t v ->
  (exists er, get e t v = Throw er) <-> (exists y c, breaks t v (dflt t) y c).
Proof.
  intros e t v W O S. pose proof (dflt_typed t W) as D. split.
  - intros [er H]. apply get_throw in H. destruct H as [y H]. apply (fwd_ok e t W v (dflt t) O D) in H. eauto.
  - intros (y & c & B). apply (bwd_ok e t W v (dflt t) O D S) in B. destruct B as [er H]. exists er. apply get_throw. eauto.
Qed.
Theorem get_class : forall e t v er, wf_ty t -> ordered v -> get e t v = Throw er -> exists y, breaks t v (dflt t) y er.
Proof.
  intros e t v er W O H. pose proof (dflt_typed t W) as D. apply get_throw in H. destruct H as [y H].
  apply (fwd_ok e t W v (dflt t) O D) in H. eauto.
Qed.
Theorem get_outcome : forall e t v, wf_ty t -> ordered v -> ~ nan_in_set t v ->
  (exists y, get e t v = Ret y /\ typed t y) \/ (exists er, get e t v = Throw er).
Proof.
  intros e t v W O S. destruct (total_get e t W (total_ok e t W) v O S) as [[y E]|[er E]]; [left|right; eauto].
  exists y. split; [assumption|]. apply (keeps_ok t W v (dflt t) y O (dflt_typed t W)). left.
  apply (get_reads e t v W O S). assumption.
Qed.

Theorem round_trip : forall e e' t x, fair e -> wf_ty t -> typed t x ->
  exists v y, of_cpp e t x = Ret v /\ get e' t v = Ret y /\ (y = x <-> telling t x).
Proof.
  intros e e' t x F W T. destruct (to_value_image e t x F W T) as (v & E & I).
  pose proof (image_ordered t x v T I) as O. pose proof (image_safe t W x v T I) as S.
  destruct (image_reads t W x v (dflt t) T I (dflt_typed t W)) as [y R].
  exists v, y. split; [assumption|]. split; [apply get_reads; assumption|]. split.
  - intros ->. eapply back_telling; eassumption.
  - intro L. pose proof (reads_back t W x v T L I) as R'. rewrite <- (get_reads e' t v W O S) in R, R'. congruence.
Qed.

(** ** get(x) *)
Theorem into_reads : forall e t v x y, wf_ty t -> ordered v -> typed t x -> ~ nan_in_set t v ->
  (get_into e t v x = (y, Ret true) <-> reads t v x y).
Proof.
  intros e t v x y W O T S. unfold get_into. pose proof (fwd_ok e t W v x O T) as [F1 F2]. pose proof (bwd_ok e t W v x O T S) as [B1 _].
  split; intro H.
  - destruct (from_val e t v x) as [z [[]|er| | |]]; try discriminate. injection H as <-. auto.
  - rewrite (B1 y H). reflexivity.
Qed.
Theorem into_breaks : forall e t v x y, wf_ty t -> ordered v -> typed t x -> ~ nan_in_set t v ->
  (get_into e t v x = (y, Ret false) <-> exists c, breaks t v x y c).
Proof.
  intros e t v x y W O T S. unfold get_into. pose proof (fwd_ok e t W v x O T) as [F1 F2]. pose proof (bwd_ok e t W v x O T S) as [_ B2].
  split; intro H.
  - destruct (from_val e t v x) as [z [[]|er| | |]] eqn:E; try discriminate. injection H as <-. eauto.
  - destruct H as [c H]. destruct (B2 y c H) as [er ->]. reflexivity.
Qed.
Theorem into_outcome : forall e t v x, wf_ty t -> ordered v -> typed t x -> ~ nan_in_set t v ->
  exists y b, get_into e t v x = (y, Ret b) /\ typed t y.
Proof.
  intros e t v x W O T S. destruct (total_ok e t W v x O T S) as [[[] D]|[er D]]; destruct (from_val e t v x) as [y o] eqn:E; cbn [snd] in D; subst o.
  - exists y, true. assert (G : get_into e t v x = (y, Ret true)) by (unfold get_into; rewrite E; reflexivity). split; [assumption|].
    apply (keeps_ok t W v x y O T). left. apply (into_reads e t v x y W O T S). assumption.
  - exists y, false. assert (G : get_into e t v x = (y, Ret false)) by (unfold get_into; rewrite E; reflexivity). split; [assumption|].
    apply (keeps_ok t W v x y O T). right. apply (into_breaks e t v x y W O T S). assumption.
Qed.
Theorem into_unchanged : forall e t v x y, wf_ty t -> ordered v -> typed t x -> ~ nan_in_set t v -> atomic t ->
  get_into e t v x = (y, Ret false) -> y = x.
Proof.
  intros e t v x y W O T S A H. apply (into_breaks e t v x y W O T S) in H. destruct H as [c B]. destruct A; inversion B; reflexivity.
Qed.

(** ** Scalars *)
Theorem scalar_read : forall e t ty v, wants t ty ->
  (type_of v = ty -> exists y, get e t v = Ret y) /\
  (type_of v <> ty -> get e t v = Throw (misfit v ty)).
Proof.
  intros e t ty v H. destruct H; (split; intro E; destruct v; cbn [type_of] in E; try congruence); try reflexivity; eexists; reflexivity.
Qed.
Theorem int_read : forall e w sg z y, In w [8; 16; 32; 64] -> (get e (TyInt w sg) (VInt z) = Ret (CInt y) <-> stored w sg z y).
Proof.
  intros e w sg z y Hw. rewrite (stored_wrap w sg z y) by (apply (wf_width w sg); constructor; assumption).
  unfold get. cbn [from_val fresh bind]. split; congruence.
Qed.
Theorem int_round : forall e w sg z, In w [8; 16; 32; 64] -> int_range w sg z ->
  exists y, of_cpp e (TyInt w sg) (CInt z) = Ret (VInt y) /\ stored 64 true z y /\ get e (TyInt w sg) (VInt y) = Ret (CInt z).
Proof.
  intros e w sg z Hw R. exists (wrap 64 true z). assert (St : stored 64 true z (wrap 64 true z)) by (apply stored_wrap; [lia|reflexivity]).
  split; [reflexivity|]. split; [assumption|]. apply int_read; [assumption|]. apply stored_back; assumption.
Qed.

(** ** Sequences and maps *)
Theorem seq_kind : forall e k t v, no_seq_items v -> get e (TySeq k t) v = Throw not_array.
Proof.
  intros e k t v N. unfold get. cbn [dflt]. rewrite (from_seq_kind e k t v [] N). reflexivity.
Qed.
Theorem map_kind : forall e h t v, wf_ty t -> ordered v -> ~ nan_in_set (TyMap h t) v -> type_of v <> TObject -> ~ seq_items v [] ->
  exists er, get e (TyMap h t) v = Throw er.
Proof.
  intros e h t v W O S Ty Ni. apply get_breaks; try assumption; [constructor; assumption|]. exists (dflt (TyMap h t)), no_key. apply br_map_kind; assumption.
Qed.

(** ** References *)
Theorem ref_read : forall want v, want <> TNull ->
  (type_of v = want -> get_ptr want v = Some v /\ get_ref want v = Ret v) /\
  (type_of v <> want -> get_ptr want v = None /\ get_ref want v = Throw (misref v)).
Proof.
  intros want v H. split; intro E; destruct want, v; cbn [type_of] in E; try congruence; split; reflexivity.
Qed.

(** ** Structs *)
Lemma break_class : forall v fs l l' c, break_fields v fs l l' c -> (type_of v = TObject -> c = no_member) /\ (type_of v <> TObject -> c = not_object).
Proof.
  intros v fs l l' c B. induction B; try assumption; cbn [type_of] in *; try (split; congruence); try (split; [reflexivity|congruence]).
Qed.
Lemma break_absent : forall v fs l l' c, break_fields v fs l l' c -> exists n t, In (n, true, t) fs /\ absent n v.
Proof.
  intros v fs l l' c B. induction B; try (destruct IHB as (n' & t' & Hn & A); exists n', t'; split; [right; assumption|assumption]).
  - exists n, t. split; [left; reflexivity|]. intros o w -> _. cbn [type_of] in *. congruence.
  - exists n, t. split; [left; reflexivity|]. intros o' w E. injection E as <-. auto.
Qed.
Lemma read_present : forall v fs l l', read_fields v fs l l' -> forall n t, In (n, true, t) fs -> ~ absent n v.
Proof.
  intros v fs l l' R. induction R; intros n' t' Hn A; [destruct Hn| | |]; (destruct Hn as [E|Hn]; [|eapply IHR; eassumption]).
  - injection E as -> -> ->. exact (A o w eq_refl H).
  - injection E as -> -> ->. exact (A o w eq_refl H).
  - discriminate.
Qed.

Theorem struct_throws : forall e fs v, wf_ty (TyStruct fs) -> ordered v -> ~ nan_in_set (TyStruct fs) v ->
  ((exists er, get e (TyStruct fs) v = Throw er) <-> exists n t, In (n, true, t) fs /\ absent n v).
Proof.
  intros e fs v W O S. split.
  - intro H. apply get_breaks in H; try assumption. destruct H as (y & c & B). inversion B; subst. eapply break_absent; eassumption.
  - intros (n & t & Hn & A). destruct (get_outcome e (TyStruct fs) v W O S) as [[y [E _]]|H]; [|assumption]. exfalso.
    apply get_reads in E; try assumption. inversion E; subst. eapply read_present; eassumption.
Qed.
Theorem struct_class : forall e fs v er, wf_ty (TyStruct fs) -> ordered v -> get e (TyStruct fs) v = Throw er ->
  (type_of v = TObject -> er = no_member) /\ (type_of v <> TObject -> er = not_object).
Proof.
  intros e fs v er W O H. apply get_class in H; try assumption. destruct H as (y & B). inversion B; subst.
  match goal with X : break_fields _ _ _ _ _ |- _ => exact (break_class _ _ _ _ _ X) end.
Qed.

Lemma fields_at : forall v fs l l', read_fields v fs l l' -> forall i n req t x y,
  nth_error fs i = Some (n, req, t) -> nth_error l i = Some x -> nth_error l' i = Some y ->
  (absent n v /\ y = x) \/ (exists o w, v = VObj o /\ In (n, w) o /\ (reads t w x y \/ exists c, breaks t w x y c)).
Proof.
  intros v fs l l' R. induction R; intros i n' req' t' x' y' Hf Hx Hy; (destruct i as [|i]; cbn [nth_error] in *; [|try discriminate; eapply IHR; eassumption]).
  - discriminate.
  - injection Hf as <- <- <-. injection Hx as <-. injection Hy as <-. right. eauto 10.
  - injection Hf as <- <- <-. injection Hx as <-. injection Hy as <-. right. eauto 10.
  - injection Hf as <- <- <-. injection Hx as <-. injection Hy as <-. left. split; [exact H|reflexivity].
Qed.
Theorem struct_field : forall e fs v l y, wf_ty (TyStruct fs) -> ordered v -> typed (TyStruct fs) (CRec l) -> ~ nan_in_set (TyStruct fs) v ->
  get_into e (TyStruct fs) v (CRec l) = (y, Ret true) -> exists l', y = CRec l' /\ length l' = length l /\
  forall i n req t a b, nth_error fs i = Some (n, req, t) -> nth_error l i = Some a -> nth_error l' i = Some b ->
    (absent n v -> b = a) /\
    (forall o w, v = VObj o -> In (n, w) o -> get_into e t w a = (b, Ret true) \/ get_into e t w a = (b, Ret false)).
Proof.
  intros e fs v l y W O T S H. apply into_reads in H; try assumption. inversion H; subst. exists l'. split; [reflexivity|].
  match goal with R : read_fields _ _ _ _ |- _ => rename R into Rf end. split.
  { clear - Rf. induction Rf; cbn [length]; lia. }
  intros i n req t a b Hf Ha Hb. destruct (fields_at v fs l l' Rf i n req t a b Hf Ha Hb) as [[A ->]|(o & w & -> & Hw & D)].
  - split; [reflexivity|]. intros o w -> Hw. destruct (A o w eq_refl Hw).
  - split; [intro A; destruct (A o w eq_refl Hw)|]. intros o' w' E Hw'. injection E as <-.
    assert (w' = w).
    { inversion O; subst. apply (find_in _ n w o) in Hw; [|assumption]. apply (find_in _ n w' o) in Hw'; [|assumption]. congruence. }
    subst w'. inversion W as [| | | | | | | | | | |fs' Nd Wf]; subst. apply nth_error_In in Hf as Hf'.
    assert (Wt : wf_ty t) by (rewrite Forall_forall in Wf; apply (Wf _ Hf')).
    assert (Ow : ordered w) by (inversion O; subst; eauto).
    assert (Ta : typed t a).
    { inversion T as [| | | | | | | | | | | | |? ? Tl]; subst. clear - Tl Hf Ha. revert i Hf Ha. induction Tl; intros [|i] Hf Ha; cbn [nth_error] in *; try discriminate.
      - injection Hf as ->. injection Ha as ->. assumption.
      - eapply IHTl; eassumption. }
    assert (Sw : ~ nan_in_set t w) by (intro N; apply S; eapply ns_struct; eassumption).
    destruct D as [R|B]; [left; apply into_reads|right; apply into_breaks]; assumption.
Qed.

(** array_type and object_type *)
Theorem array_type_read : forall e v x y,
  (get_into e (TyRaw false) v x = (y, Ret true) <-> (v = VNull /\ y = CJson (VArr [])) \/ (type_of v = TArray /\ y = CJson v)) /\
  (type_of v <> TArray -> v <> VNull -> get e (TyRaw false) v = Throw (misfit v TArray)).
Proof.
  intros e v x y. destruct v as [|z|f|s|l|m|b]; cbn; (split; [split; [intro H; try discriminate; injection H as <-; auto|intros [[H ->]|[H ->]]; try discriminate; reflexivity]|]);
    intros A B; try congruence; reflexivity.
Qed.
Theorem object_type_read : forall e v x y,
  (get_into e (TyRaw true) v x = (y, Ret true) <-> (v = VNull /\ y = CJson (VObj [])) \/ (type_of v = TObject /\ y = CJson v)) /\
  (type_of v <> TObject -> v <> VNull -> get e (TyRaw true) v = Throw (misfit v TObject)).
Proof.
  intros e v x y. destruct v as [|z|f|s|l|m|b]; cbn; (split; [split; [intro H; try discriminate; injection H as <-; auto|intros [[H ->]|[H ->]]; try discriminate; reflexivity]|]);
    intros A B; try congruence; reflexivity.
Qed.
