(** Converting to a value and back. *)
From Coq Require Import Sorted Permutation Floats.SpecFloat Lia ZifyBool ZifyNat ZifyN.
From Verif Require Import Base Value Compare ValueOps Iterator SpecGrammar SpecText ObjFacts SpecValue ValueProofs SpecIter IterProofs
  SpecCompare CompareProofs Cpp Convert SpecConv ConvOrder ConvFloat ConvTo ConvFrom ConvRead ConvSafe ConvMain.
Open Scope N_scope.

(** ** Objects that convert to null *)
Lemma members_none : forall fs l, members fs l [] <-> Forall2 (fun f x => snd (fst f) = false /\ ceqb x (dflt (snd f)) = true) fs l.
Proof.
  induction fs as [|[[n req] t] fs IH]; intro l; split; intro H; inversion H; subst.
  - constructor.
  - constructor.
  - constructor; [cbn [fst snd]; auto|]. apply IH. assumption.
  - cbn [fst snd] in *. match goal with E : _ /\ _ |- _ => destruct E as [-> E] end. apply me_skip; [assumption|]. apply IH. assumption.
Qed.
Lemma nullish_iff : forall t x v, image t x v -> (nullish t x <-> v = VNull).
Proof.
  induction t as [|w sg| | | | |raw|t IH|n t IH|k t IH|h t IH|fs IH] using cty_deep; intros x v I; inversion I; subst;
    try (split; intro H; [inversion H|discriminate]; fail).
  - split; intro H; [inversion H; reflexivity|subst; constructor].
  - split; intro H; [reflexivity|constructor].
  - match goal with J : image t _ _ |- _ => pose proof (IH _ _ J) as E end. split; intro H.
    + inversion H; subst. apply E. assumption.
    + constructor. apply E. assumption.
  - split; intro H.
    + inversion H; subst. match goal with F : Forall2 _ fs l, M : members fs l ws |- _ => rename F into F0; rename M into M0 end.
      match goal with Hn : ws = [] -> _ |- _ => apply Hn end.
      clear - M0 F0. induction M0; inversion F0; subst; [reflexivity| |auto].
      cbn [fst snd] in *. intuition congruence.
    + subst. constructor. destruct ws as [|w ws].
      * apply members_none. assumption.
      * match goal with Hn : _ <> [] -> _ |- _ => destruct Hn as (o & E & _); [discriminate|]; discriminate E end.
Qed.

(** ** What was written reads back *)
Lemma nodup_find : forall A (l : list (str * A)) n w, NoDup (map fst l) -> In (n, w) l -> obj_find n l = Some w.
Proof.
  intros A l n w Nw Hw. induction l as [|[k x] l IH]; [destruct Hw|].
  cbn [obj_find]. inversion Nw; subst. destruct Hw as [E|Hw].
  - injection E as -> ->. rewrite str_eqb_refl. reflexivity.
  - destruct (str_eqb n k) eqn:En; [|apply IH; assumption]. apply str_eqb_iff in En. subst.
    match goal with X : ~ In _ _ |- _ => destruct X end. apply in_map_iff. exists (k, w). auto.
Qed.
Lemma dflt_telling : forall t, wf_ty t -> telling t (dflt t).
Proof.
  induction t as [|w sg| | | | |raw|t IH|n t IH|k t IH|h t IH|fs IH] using cty_deep; intro W; cbn [dflt]; try (constructor; fail).
  - inversion W; subst. constructor. apply Forall_forall. intros x Hx. apply repeat_spec in Hx. subst. auto.
  - constructor. constructor.
  - constructor. constructor.
  - inversion W as [| | | | | | | | | | |fs' Nd Wf]; subst. constructor. clear Nd W.
    induction fs as [|f fs IHf]; cbn [map]; constructor; inversion IH; inversion Wf; subst; auto.
Qed.

Lemma read_members : forall fs l ws, members fs l ws -> forall v,
  (forall n w, In (n, w) ws -> exists o, v = VObj o /\ In (n, w) o) ->
  (forall n, In n (map (fun f => fst (fst f)) fs) -> ~ In n (map fst ws) -> forall o w, v = VObj o -> ~ In (n, w) o) ->
  NoDup (map (fun f => fst (fst f)) fs) ->
  Forall2 (fun f x => forall v, image (snd f) x v -> reads (snd f) v (dflt (snd f)) x) fs l ->
  Forall2 (fun f x => snd (fst f) = false -> ceqb x (dflt (snd f)) = true -> x = dflt (snd f)) fs l ->
  read_fields v fs (map (fun f => dflt (snd f)) fs) l.
Proof.
  intros fs l ws M. induction M as [|n req t fs x l w ws Hw I M IH|n t fs x l ws Hs M IH]; intros v P A Nd R T; cbn [map snd] in *.
  - constructor.
  - inversion Nd; inversion R; inversion T; subst. cbn [fst snd] in *. destruct (P n w (or_introl eq_refl)) as (o & -> & Io).
    apply rf_read with (w := w); [assumption|auto|]. apply IH; try assumption.
    + intros n' w' H. apply P. right. assumption.
    + intros n' Ha1 Ha2. apply A; [right; assumption|]. intros [E|E]; [|contradiction]. subst. contradiction.
  - inversion Nd; inversion R; inversion T; subst. cbn [fst snd] in *.
    match goal with H : false = false -> _ |- _ => specialize (H eq_refl Hs) end. subst x.
    apply rf_absent.
    + apply A; [left; reflexivity|]. intro X. eapply members_names in X; [|eassumption]. contradiction.
    + apply IH; try assumption. intros n' Ha1 Ha2. apply A; [right; assumption|assumption].
Qed.

Lemma stored_back : forall w sg z y, In w [8; 16; 32; 64] -> int_range w sg z -> stored 64 true z y -> stored w sg y z.
Proof.
  intros w sg z y Hw R [_ [k E]]. split; [assumption|]. exists (- k * 2 ^ (64 - Z.of_N w))%Z.
  assert (P : (2 ^ Z.of_N 64 = 2 ^ (64 - Z.of_N w) * 2 ^ Z.of_N w)%Z).
  { cbn [In] in Hw. destruct Hw as [<-|[<-|[<-|[<-|[]]]]]; reflexivity. }
  rewrite P in E. lia.
Qed.
Lemma back_map : forall A (m : list (str * A)), sorted m -> map_of ([] ++ m) m.
Proof. intros A m H. split; [assumption|]. reflexivity. Qed.

Lemma flip_in : forall A B (P : A -> Prop) (Q : A -> B -> Prop) (R : B -> A -> Prop) l m, Forall2 Q l m -> Forall P l ->
  (forall a b, P a -> Q a b -> R b a) -> Forall2 R m l.
Proof. intros A B P Q R l m F. induction F; intros Hp Hc; constructor; inversion Hp; subst; auto. Qed.

Theorem reads_back : forall t, wf_ty t -> forall x v, typed t x -> telling t x -> image t x v -> reads t v (dflt t) x.
Proof.
  induction t as [|w sg| | | | |raw|t IH|n t IH|k t IH|h t IH|fs IH] using cty_deep; intros W x v T L I.
  - inversion I; subst. constructor.
  - inversion W; inversion T; inversion I; subst. constructor.
    match goal with E : CInt _ = CInt _ |- _ => injection E as E; subst end. apply stored_back; assumption.
  - inversion I; subst. constructor.
  - inversion T; inversion I; subst. match goal with E : CFlt _ = CFlt _ |- _ => injection E as E; subst end.
    rewrite <- (single_exact f) at 2 by assumption. constructor.
  - inversion I; subst. constructor.
  - inversion I; subst. constructor.
  - inversion I; subst; constructor.
  - inversion W; subst. inversion I; subst; [constructor|]. inversion T; inversion L; subst. apply rd_ptr.
    + intro E. match goal with N : ~ nullish _ _ |- _ => apply N end. apply (nullish_iff t x0 v); assumption.
    + apply IH; assumption.
  - inversion W; subst. inversion T as [| | | | | | | | | |n' t' l0 Ln0 Tl| | |]; subst. inversion L; subst. inversion I; subst.
    assert (F : Forall2 (fun v y => reads t v (dflt t) y) vs l0).
    { apply flip_in with (P := fun x => typed t x /\ telling t x) (Q := image t).
      - assumption.
      - apply Forall_forall. intros x Hx. rewrite Forall_forall in *. auto.
      - cbn beta. intros a b [Ta La] Ia. apply IH; assumption. }
    pose proof (Forall2_len _ _ _ _ _ F) as Ln.
    replace (CSeq l0) with (CSeq (l0 ++ skipn (length l0) (repeat (dflt t) (length l0)))).
    + cbn [dflt]. eapply rd_array; [constructor|]. rewrite firstn_all2 by lia. assumption.
    + rewrite skipn_all2 by (rewrite repeat_length; lia). rewrite app_nil_r. reflexivity.
  - inversion W as [| | | | | | | | |? ? Wt Ws Wu| |]; subst. inversion T as [| | | | | | | | | | |k' t' l Tl Ts| |]; subst.
    inversion L as [| | | | | | | | | |? ? ? Ll| |]; subst.
    assert (P : Forall (fun x => typed t x /\ telling t x) l) by (apply Forall_forall; intros x Hx; rewrite Forall_forall in *; auto).
    assert (G : forall l vs, Forall (fun x => typed t x /\ telling t x) l -> Forall2 (image t) l vs -> Forall2 (fun v y => reads t v (dflt t) y) vs l).
    { intros l1 vs P1 F. eapply flip_in; [exact F|exact P1|]. cbn beta. intros a b [Ta La] Ia. apply IH; assumption. }
    cbn [dflt]. inversion I; subst.
    + match goal with F : Forall2 (image t) l _ |- _ => apply (G l _ P) in F end.
      destruct k; try (eapply rd_seq; [discriminate|discriminate|constructor|eassumption]); [|congruence].
      destruct (Ts (or_introl eq_refl)) as [S1 S2].
      replace (CSeq l) with (CSeq (fold_left (fun s y => set_insert y s) l [])) by (f_equal; apply (insert_sorted_all l []); exact S1).
      eapply rd_set; [auto|constructor|eassumption|assumption].
    + destruct (Ts (or_intror eq_refl)) as [S1 S2].
      match goal with Pm : Permutation l l', F : Forall2 (image t) l' vs |- _ =>
        pose proof (Permutation_Forall Pm P) as P'; pose proof (G l' vs P' F) as F';
        replace (CSeq l) with (CSeq (fold_left (fun s y => set_insert y s) l' [])) by (f_equal; apply (insert_perm t l l' (Wu eq_refl) Tl S1 Pm));
        eapply rd_set; [auto|constructor|eassumption|]; exact (Permutation_Forall Pm S2) end.
  - inversion W; subst. inversion T as [| | | | | | | | | | | |h' t' m1 Tm Ts|]; subst. inversion L; subst. inversion I; subst.
    cbn [dflt]. eapply rd_map; [left; reflexivity| |apply back_map, ss_sorted; assumption].
    match goal with F : Forall2 _ m1 o |- _ => eapply flip_in with (P := fun p => typed t (snd p) /\ telling t (snd p)); [exact F| |] end.
    + apply Forall_forall. intros p Hp. rewrite Forall_forall in *. auto.
    + cbn beta. intros [ka a] [kb b] [Ta La] [Ek Ia]. cbn [fst snd] in *. split; [assumption|]. apply IH; assumption.
  - inversion W as [| | | | | | | | | | |fs' Nd Wf]; subst. inversion T as [| | | | | | | | | | | | |fs' l Tl]; subst.
    inversion L as [| | | | | | | | | | | |? ? Ll]; subst. inversion I as [| | | | | | | | | | | | | |? ? ws ? M Hn Ho]; subst.
    cbn [dflt]. constructor.
    assert (R1 : Forall2 (fun f x => forall v, image (snd f) x v -> reads (snd f) v (dflt (snd f)) x) fs l).
    { clear - IH Wf Tl Ll. revert l Tl Ll. induction fs as [|f fs IHf]; intros l Tl Ll; inversion Tl as [|? x ? l0 Tx Tl0]; subst; [constructor|].
      inversion Ll as [|? ? ? ? [Lx _] Ll0]; subst. inversion IH as [|? ? If IH0]; subst. inversion Wf as [|? ? Wx Wf0]; subst.
      constructor; [intros v Hv; apply If; assumption|apply IHf; assumption]. }
    assert (R2 : Forall2 (fun f x => snd (fst f) = false -> ceqb x (dflt (snd f)) = true -> x = dflt (snd f)) fs l)
      by (eapply Forall2_impl'; [|exact Ll]; cbn beta; tauto).
    destruct ws as [|w0 ws].
    + rewrite Hn by reflexivity. eapply read_members; try eassumption; [intros n w []|intros; discriminate].
    + destruct Ho as (o & -> & So & Mo); [discriminate|]. eapply read_members; try eassumption.
      * intros n w Hw. exists o. split; [reflexivity|]. apply find_in; [assumption|]. apply find_iff, Mo, find_iff.
        apply nodup_find; [eapply members_nodup; eassumption|assumption].
      * intros n _ Hw o' w E Io. injection E as <-. apply Hw. apply in_map_iff. exists (n, w). split; [reflexivity|].
        apply (map_of_in _ (w0 :: ws) o n w); [split; assumption|assumption].
Qed.

(** ** and nothing else does *)
Lemma ordered_telling : forall t, ordered_ty t -> forall x, typed t x -> telling t x.
Proof.
  intros t H. induction H; intros x T; inversion T; subst; constructor; apply Forall_forall; intros y Hy;
    match goal with F : Forall (typed t) _ |- _ => rewrite Forall_forall in F; auto end.
Qed.
Lemma back_seq : forall t l vs, Forall (fun x => forall v, image t x v -> reads t v (dflt t) x -> telling t x) l ->
  Forall2 (image t) l vs -> Forall2 (fun v y => reads t v (dflt t) y) vs l -> Forall (telling t) l.
Proof.
  intros t l vs P F. induction F as [|x v l vs I F IH]; intro R; constructor; inversion P; inversion R; subst; eauto.
Qed.

Lemma members_len : forall fs l ws, members fs l ws -> length fs = length l.
Proof. intros fs l ws M. induction M; cbn [length]; lia. Qed.

Theorem image_reads : forall t, wf_ty t -> forall x v z, typed t x -> image t x v -> typed t z -> exists y, reads t v z y.
Proof.
  induction t as [|w sg| | | | |raw|t IH|n t IH|k t IH|h t IH|fs IH] using cty_deep; intros W x v z T I Z.
  - inversion I; subst. eexists. constructor.
  - inversion I; subst. eexists. constructor. apply stored_wrap; [eapply wf_width; eassumption|reflexivity].
  - inversion I; subst. eexists. constructor.
  - inversion I; subst. eexists. constructor.
  - inversion I; subst. eexists. constructor.
  - inversion I; subst. eexists. constructor.
  - inversion I; subst; eexists; constructor.
  - inversion W; subst. inversion I; subst; [eexists; constructor|]. destruct (value_null_dec v) as [->|Nv]; [eexists; constructor|].
    inversion T; subst. destruct (IH ltac:(assumption) x0 v (dflt t)) as [y R]; try assumption; [apply dflt_typed; assumption|].
    exists (CPtr (Some y)). constructor; assumption.
  - inversion W; subst. inversion I; subst. inversion T; subst. inversion Z; subst.
    assert (E : exists ys, Forall2 (fun v y => reads t v (dflt t) y) (firstn (length l) vs) ys).
    { apply Forall_ex. apply Forall_forall. intros w Hw.
      assert (Iw : In w vs) by (rewrite <- (firstn_skipn (length l) vs); apply in_or_app; left; assumption).
      match goal with F : Forall2 (image t) l vs |- _ => apply flip_in with (P := typed t) (R := fun v x => typed t x /\ image t x v) in F; [|assumption|auto] end.
      match goal with F : Forall2 _ vs l |- _ => destruct (all_in _ _ _ _ _ w F Iw) as (a & _ & Ta & Ia) end.
      eapply IH; try eassumption. apply dflt_typed. assumption. }
    destruct E as [ys E]. eexists. eapply rd_array; [constructor|eassumption].
  - inversion W as [| | | | | | | | |? ? Wt Ws Wu| |]; subst. inversion T as [| | | | | | | | | | |k' t' l Tl Ts| |]; subst.
    inversion Z; subst.
    assert (E : forall l vs, Forall (typed t) l -> Forall2 (image t) l vs -> exists ys, Forall2 (fun v y => reads t v (dflt t) y) vs ys).
    { intros l1 vs T1 F. apply Forall_ex. apply Forall_forall. intros w Hw.
      apply flip_in with (P := typed t) (R := fun v x => typed t x /\ image t x v) in F; [|assumption|auto].
      destruct (all_in _ _ _ _ _ w F Hw) as (a & _ & Ta & Ia). eapply IH; try eassumption. apply dflt_typed. assumption. }
    assert (K : k = KSet \/ k = KUSet -> exists y, reads (TySeq k t) v (CSeq l0) y).
    { intro K. exists (CSeq l).
      assert (Ot : ordered_ty t) by (destruct K as [->| ->]; [auto|apply hashed_ordered; auto]).
      assert (R : reads (TySeq k t) v (dflt (TySeq k t)) (CSeq l)).
      { apply reads_back; try assumption. constructor. apply Forall_forall. intros a Ha. apply ordered_telling; [assumption|].
        rewrite Forall_forall in Tl. auto. }
      inversion R; subst; [destruct K as [->| ->]; congruence|]. eapply rd_set; eassumption. }
    destruct k; try (apply K; auto; fail); inversion I; subst;
      match goal with F : Forall2 (image t) l ?vs |- _ => destruct (E l vs Tl F) as [ys R] end;
      exists (CSeq ys); (eapply rd_seq; [discriminate|discriminate|constructor|exact R]).
  - inversion W; subst. inversion I; subst. inversion T; subst. inversion Z as [| | | | | | | | | | | |h' t' m1 Tm Ts|]; subst. apply ss_sorted in Ts.
    assert (E : exists ps, Forall2 (fun q p => fst p = fst q /\ reads t (snd q) (dflt t) (snd p)) o ps).
    { apply Forall_ex. apply Forall_forall. intros [k w] Hw.
      match goal with F : Forall2 _ m o |- _ => apply flip_in with (P := fun p => typed t (snd p)) (R := fun q p => typed t (snd p) /\ image t (snd p) (snd q)) in F;
        [|assumption|tauto] end.
      match goal with F : Forall2 _ o m |- _ => destruct (all_in _ _ _ _ _ (k, w) F Hw) as (a & _ & Ta & Ia) end. cbn [snd] in *.
      destruct (IH ltac:(assumption) (snd a) w (dflt t) Ta Ia) as [y R]; [apply dflt_typed; assumption|]. exists (k, y). auto. }
    destruct E as [ps E]. exists (CMap (emplaces ps m1)). eapply rd_map; [left; reflexivity|exact E|apply emplaces_iff; [assumption|reflexivity]].
  - inversion W as [| | | | | | | | | | |fs' Nd Wf]; subst. inversion T as [| | | | | | | | | | | | |fs' l Tl]; subst.
    inversion Z as [| | | | | | | | | | | | |fs' zs Zl]; subst. inversion I as [| | | | | | | | | | | | | |? ? ws ? M Hn Ho]; subst.
    assert (Pv : (forall n w, In (n, w) ws -> exists o, v = VObj o /\ In (n, w) o) /\
                 (forall n, In n (map (fun f => fst (fst f)) fs) -> ~ In n (map fst ws) -> forall o w, v = VObj o -> ~ In (n, w) o)).
    { destruct ws as [|w0 ws]; [split; [intros n w []|]; rewrite Hn by reflexivity; intros; discriminate|].
      destruct Ho as (o & -> & So & Mo); [discriminate|]. split.
      - intros n w Hw. exists o. split; [reflexivity|]. apply find_in; [assumption|]. apply find_iff, Mo, find_iff.
        apply nodup_find; [eapply members_nodup; eassumption|assumption].
      - intros n _ Hw o' w E Io. injection E as <-. apply Hw. apply in_map_iff. exists (n, w). split; [reflexivity|].
        apply (map_of_in _ (w0 :: ws) o n w); [split; assumption|assumption]. }
    assert (E : exists l', read_fields v fs zs l').
    { clear Hn Ho T Z I W. destruct Pv as [P A]. revert l Tl zs Zl ws M P A. induction fs as [|[[n req] t] fs IHf]; intros l Tl zs Zl ws M P A.
      - inversion Zl; subst. exists []. constructor.
      - inversion Zl as [|? z0 ? zs0 Z0 Zl0]; subst. inversion Tl as [|? x0 ? l0 T0 Tl0]; subst. cbn [fst snd map] in *.
        inversion IH as [|? ? If IH0]; subst. inversion Wf as [|? ? W0 Wf0]; subst. inversion Nd as [|? ? N0 Nd0]; subst. cbn [snd] in *.
        inversion M; subst.
        + destruct (P n v0 (or_introl eq_refl)) as (o & -> & Io).
          destruct (If W0 x0 v0 z0) as [y R]; try assumption.
          destruct (IHf IH0 Nd0 Wf0 l0 Tl0 zs0 Zl0 ws0) as [l' F]; try assumption.
          * intros n' w' Hw. apply P. right. assumption.
          * intros n' Ha1 Ha2. apply A; [right; assumption|]. intros [E|E]; [|contradiction]. subst. contradiction.
          * exists (y :: l'). eapply rf_read; eassumption.
        + destruct (IHf IH0 Nd0 Wf0 l0 Tl0 zs0 Zl0 ws) as [l' F]; try assumption.
          * intros n' Ha1 Ha2. apply A; [right; assumption|assumption].
          * exists (z0 :: l'). apply rf_absent; [|assumption]. apply A; [left; reflexivity|]. intro X. eapply members_names in X; [|eassumption]. contradiction. }
    destruct E as [l' E]. exists (CRec l'). constructor. assumption.
Qed.

Theorem back_telling : forall t, wf_ty t -> forall x v, typed t x -> image t x v -> reads t v (dflt t) x -> telling t x.
Proof.
  induction t as [|w sg| | | | |raw|t IH|n t IH|k t IH|h t IH|fs IH] using cty_deep; intros W x v T I R;
    try (inversion T; subst; constructor; fail).
  - inversion W; subst. inversion R; subst; [constructor|]. inversion I; subst. inversion T; subst. constructor; [eapply IH; eassumption|].
    intro N. apply (nullish_iff t y v) in N; [contradiction|assumption].
  - inversion W; subst. inversion T as [| | | | | | | | | |n' t' l Ln Tl| | |]; subst n' t' x. inversion I; subst. constructor.
    assert (P : Forall (fun x => forall v, image t x v -> reads t v (dflt t) x -> telling t x) l).
    { apply Forall_forall. intros y Hy v Iv Rv. rewrite Forall_forall in Tl. eapply IH; eauto. }
    match goal with F : Forall2 (image t) l vs |- _ => pose proof (Forall2_len _ _ _ _ _ F) as Lv; rename F into Fi end.
    cbn [dflt] in R. inversion R as [| | | | | | | | | | | |? ? ? us ys d Q Fr E1 E2 E3 E4|? ? d E1 E2 E3 E4| | | |].
    + assert (us = vs) by (inversion Q; reflexivity). subst us.
      rewrite E4 in Fr |- *. rewrite firstn_all2 in Fr by lia. pose proof (Forall2_len _ _ _ _ _ Fr) as Ly.
      rewrite skipn_all2, app_nil_r in E4 by (rewrite repeat_length; lia). subst ys. eapply back_seq; eassumption.
    + constructor.
  - inversion W as [| | | | | | | | |? ? Wt Ws Wu| |]; subst. inversion T as [| | | | | | | | | | |k' t' l Tl Ts| |]; subst. constructor.
    assert (P : Forall (fun x => forall v, image t x v -> reads t v (dflt t) x -> telling t x) l).
    { apply Forall_forall. intros y Hy v' Iv Rv. rewrite Forall_forall in Tl. eapply IH; eauto. }
    assert (O : ordered_ty t -> Forall (telling t) l).
    { intro Ot. apply Forall_forall. intros y Hy. apply ordered_telling; [assumption|]. rewrite Forall_forall in Tl. auto. }
    destruct k; try (apply O; auto; fail); [| | | |apply O, hashed_ordered; auto];
      inversion I; subst; inversion R; subst;
      try (match goal with K : _ = KSet \/ _ |- _ => destruct K; discriminate end);
      match goal with Q : seq_items (VArr _) _ |- _ => inversion Q; subst end; eapply back_seq; eassumption.
  - inversion W; subst. inversion T as [| | | | | | | | | | | |h' t' m Tm Ts|]; subst. apply ss_sorted in Ts. inversion I; subst. constructor.
    inversion R; subst. match goal with Hv : VObj o = _ \/ _ |- _ => destruct Hv as [E|[Q E]] end.
    + injection E as <-. cbn [app] in *.
      match goal with F : Forall2 _ m o, F' : Forall2 _ o ps |- _ => pose proof (Forall2_keys _ _ _ _ _ F) as K1; rename F into Fi; rename F' into Fr end.
      assert (K2 : map fst o = map fst ps) by (clear - Fr; induction Fr as [|q p o ps [E _] F IHF]; cbn [map]; congruence).
      assert (Sp : sorted ps) by (eapply sorted_keys; [|exact Ts]; congruence).
      assert (Em : m = ps).
      { match goal with M : map_of ps m |- _ => destruct M as [_ M]; apply sorted_unique; try assumption; intros k0 x0; symmetry; apply M end. }
      subst ps. clear - IH Tm Fi Fr H0. revert Fr. induction Fi as [|p q m o [Ep Ip] Fi IHF]; intro Fr; inversion Fr as [|? ? ? ? [E2 R2] Fr0]; inversion Tm; subst; constructor; eauto.
    + inversion Q; subst. match goal with F : Forall2 _ m [] |- _ => inversion F end. constructor.
  - inversion W as [| | | | | | | | | | |fs' Nd Wf]; subst. inversion T as [| | | | | | | | | | | | |fs' l Tl]; subst.
    inversion I as [| | | | | | | | | | | | | |? ? ws ? M Hn Ho]; subst. inversion R as [| | | | | | | | | | | | | | | | |? ? ? ? Rf]; subst. constructor.
    assert (Pv : (forall n w o w', In (n, w) ws -> v = VObj o -> In (n, w') o -> w = w') /\
                 (forall n w, In (n, w) ws -> exists o, v = VObj o /\ In (n, w) o) /\
                 (forall n, In n (map (fun f => fst (fst f)) fs) -> ~ In n (map fst ws) -> forall o w, v = VObj o -> ~ In (n, w) o)).
    { destruct ws as [|w0 ws].
      - split; [intros n w o w' []|]. split; [intros n w []|]; rewrite Hn by reflexivity; intros; discriminate.
      - destruct Ho as (o & -> & So & Mo); [discriminate|].
        assert (Fd : forall n w, In (n, w) (w0 :: ws) -> obj_find n o = Some w).
        { intros n w Hw. apply find_iff, Mo, find_iff, nodup_find; [eapply members_nodup; eassumption|assumption]. }
        split; [|split].
        + intros n w o' w' Hw E Ho'. injection E as <-. apply (find_in _ n w' o So) in Ho'. rewrite (Fd n w Hw) in Ho'. congruence.
        + intros n w Hw. exists o. split; [reflexivity|]. apply find_in; auto.
        + intros n _ Hw o' w E Io. injection E as <-. apply Hw. apply in_map_iff. exists (n, w). split; [reflexivity|].
          apply (map_of_in _ (w0 :: ws) o n w); [split; assumption|assumption]. }
    clear Hn Ho T R I W. destruct Pv as (U & P & A). revert l Tl Rf ws M U P A. induction fs as [|[[n req] t] fs IHf]; intros l Tl Rf ws M U P A.
    + inversion Tl; constructor.
    + inversion Tl as [|? x0 ? l0 T0 Tl0]; subst. cbn [fst snd map] in *.
      inversion IH as [|? ? If IH0]; subst. inversion Wf as [|? ? W0 Wf0]; subst. inversion Nd as [|? ? N0 Nd0]; subst. cbn [snd] in *.
      inversion M; subst.
      * match goal with Q : _ \/ _ |- _ => rename Q into Q0 end.
        assert (Hx : reads t v0 (dflt t) x0 /\ read_fields v fs (map (fun f => dflt (snd f)) fs) l0).
        { destruct (P n v0 (or_introl eq_refl)) as (o & -> & Io). inversion Rf; subst.
          - replace v0 with w; [auto|]. symmetry. eapply U; [left; reflexivity|reflexivity|assumption].
          - exfalso. assert (v0 = w) by (eapply U; [left; reflexivity|reflexivity|assumption]). subst w.
            destruct (image_reads t W0 x0 v0 (dflt t)) as [y R]; try assumption; [apply dflt_typed; assumption|]. eapply excl; eassumption.
          - exfalso. match goal with Ab : forall o w, _ -> ~ _ |- _ => eapply Ab; [reflexivity|exact Io] end. }
        destruct Hx as [Rx Rl]. constructor; cbn [fst snd].
        -- split; [eapply If; eassumption|]. intros -> E. destruct Q0 as [Q0|Q0]; [discriminate|congruence].
        -- apply (IHf IH0 Nd0 Wf0 l0 Tl0 Rl ws0); try assumption.
           ++ intros n' w' o w'' H'. eapply U. right. exact H'.
           ++ intros n' w' Hw. apply P. right. assumption.
           ++ intros n' Ha1 Ha2. apply A; [right; assumption|]. intros [E|E]; [|contradiction]. subst. contradiction.
      * assert (Ab : forall o w, v = VObj o -> ~ In (n, w) o).
        { apply A; [left; reflexivity|]. intro X. eapply members_names in X; [|eassumption]. contradiction. }
        inversion Rf; subst; try (exfalso; eapply Ab; [reflexivity|eassumption]).
        constructor; cbn [fst snd].
        -- split; [|reflexivity]. apply dflt_telling. assumption.
        -- apply (IHf IH0 Nd0 Wf0 l0 Tl0 ltac:(assumption) ws); try assumption. intros n' Ha1 Ha2. apply A; [right; assumption|assumption].
Qed.
