(** What is read is well typed, and what was written reads back. *)
From Coq Require Import Sorted Permutation Floats.SpecFloat Lia ZifyBool ZifyNat ZifyN.
From Verif Require Import Base Value Compare ValueOps Iterator SpecGrammar SpecText ObjFacts SpecValue ValueProofs SpecIter IterProofs
  SpecCompare CompareProofs Cpp Convert SpecConv ConvOrder ConvFloat ConvTo ConvFrom ConvRead ConvSafe.
Open Scope N_scope.

(** ** Success and failure exclude each other *)
Lemma all_in : forall A B (R : A -> B -> Prop) l m a, Forall2 R l m -> In a l -> exists b, In b m /\ R a b.
Proof.
  intros A B R l m a F. induction F as [|x y l m H F IH]; intros I; [destruct I|]. destruct I as [<-|I].
  - exists y. split; [left; reflexivity|assumption].
  - destruct (IH I) as (b & Ib & H'). exists b. split; [right; assumption|assumption].
Qed.

Lemma fields_excl : forall v fs l l' k k' c, read_fields v fs l l' -> break_fields v fs k k' c -> False.
Proof.
  intros v fs. induction fs as [|[[n req] t] fs IH]; intros l l' k k' c R B; inversion B; subst.
  - inversion R; subst; cbn [type_of] in *; congruence.
  - inversion R; subst; match goal with H : forall w, ~ In _ _ |- _ => eapply H; eassumption end.
  - inversion R; subst; eapply IH; eassumption.
  - inversion R; subst; eapply IH; eassumption.
  - inversion R; subst; eapply IH; eassumption.
Qed.

Lemma excl : forall t v x x' y y' c, reads t v x y -> breaks t v x' y' c -> False.
Proof.
  induction t as [|w sg| | | | |raw|t IH|n t IH|k t IH|h t IH|fs IH] using cty_deep; intros v x x' y y' c R B;
    try (inversion B; subst; inversion R; subst; cbn [type_of] in *; congruence).
  - inversion B; subst. inversion R; subst; [congruence|]. eapply IH; eassumption.
  - inversion B; subst.
    + inversion R; subst; [|congruence]. match goal with N : no_seq_items _, I : seq_items _ _ |- _ => exact (N _ I) end.
    + inversion R; subst; [|lia]. match goal with I : seq_items v (_ ++ _), I' : seq_items v vs0 |- _ => pose proof (items_det _ _ _ I' I) end. subst.
      destruct (firstn_split _ vs w rest n) as [b E]; [assumption|]. rewrite E in *.
      match goal with F : Forall2 _ (vs ++ w :: b) _ |- _ => destruct (all_in _ _ _ _ _ w F) as (z & _ & Rz) end.
      { apply in_or_app. right. left. reflexivity. }
      eapply IH; eassumption.
  - assert (G : forall vs w rest y0 ys, seq_items v (vs ++ w :: rest) -> breaks t w (dflt t) y0 c ->
      forall us, seq_items v us -> Forall2 (fun v y => reads t v (dflt t) y) us ys -> False).
    { intros vs w rest y0 ys I Bw us I' F. pose proof (items_det _ _ _ I' I). subst us.
      destruct (all_in _ _ _ _ _ w F) as (z & _ & Rz); [apply in_or_app; right; left; reflexivity|]. eapply IH; eassumption. }
    inversion B; subst; inversion R; subst;
      try (match goal with N : no_seq_items _, I : seq_items _ _ |- _ => exact (N _ I) end);
      eapply G; eassumption.
  - inversion B; subst.
    + inversion R; subst. match goal with Hv : _ \/ _ |- _ => destruct Hv as [->|[I ->]] end; [cbn [type_of] in *; congruence|contradiction].
    + inversion R; subst. match goal with Hv : _ \/ _ |- _ => destruct Hv as [->|[I ->]] end; [cbn [type_of] in *; congruence|].
      match goal with El : elements v _ |- _ => pose proof (elements_size _ _ El) as Sz' end. pose proof (items_size _ _ I) as Sz.
      cbn [length] in Sz'. change (len (@nil value)) with 0 in Sz. lia.
    + inversion R; subst. match goal with Hv : _ \/ _ |- _ => destruct Hv as [E|[I E]] end.
      * injection E as <-. match goal with F : Forall2 _ (o ++ (k, w) :: rest) _ |- _ => destruct (all_in _ _ _ _ _ (k, w) F) as (z & _ & _ & Rz) end.
        { apply in_or_app. right. left. reflexivity. }
        cbn [snd] in Rz. eapply IH; eassumption.
      * inversion I; subst. destruct o; discriminate.
  - inversion B; subst. inversion R; subst. eapply fields_excl; eassumption.
Qed.

(** ** What is read is well typed *)
Lemma Forall2_right : forall A B (P : B -> Prop) (R : A -> B -> Prop) l m, Forall2 R l m -> (forall a b, In a l -> R a b -> P b) -> Forall P m.
Proof.
  intros A B P R l m F. induction F as [|a b l m H F IH]; intro I; constructor.
  - apply (I a); [left; reflexivity|assumption].
  - apply IH. intros a' b' Ha. apply I. right. assumption.
Qed.
Lemma Forall_skipn : forall A (P : A -> Prop) n l, Forall P l -> Forall P (skipn n l).
Proof. intros A P n l H. rewrite <- (firstn_skipn n l) in H. apply Forall_app in H. tauto. Qed.
Lemma Forall_resize : forall (P : cval -> Prop) d n l, P d -> Forall P l -> Forall P (resize d n l).
Proof.
  intros P d n l Pd H. unfold resize. apply Forall_app. split.
  - rewrite <- (firstn_skipn n l) in H. apply Forall_app in H. tauto.
  - apply Forall_forall. intros x Hx. apply repeat_spec in Hx. subst. assumption.
Qed.
Lemma map_of_in : forall A (ms m : list (str * A)) k x, map_of ms m -> In (k, x) m -> In (k, x) ms.
Proof. intros A ms m k x [S M] I. apply find_in', find_iff, M, find_iff, find_in; assumption. Qed.

Definition keeps (t : cty) : Prop := forall v x y, ordered v -> typed t x -> reads t v x y \/ (exists c, breaks t v x y c) -> typed t y.

Lemma keeps_fields : forall v fs, ordered v -> Forall (fun f => keeps (snd f)) fs -> forall l l', Forall2 (fun f x => typed (snd f) x) fs l ->
  read_fields v fs l l' \/ (exists c, break_fields v fs l l' c) -> Forall2 (fun f x => typed (snd f) x) fs l'.
Proof.
  intros v fs O K. induction K as [|[[n req] t] fs Kt K IH]; intros l l' T H; inversion T as [|? x ? l0 Tx Tl]; subst; cbn [snd] in *.
  - destruct H as [H|[c H]]; inversion H; constructor.
  - assert (Ow : forall o n w, v = VObj o -> In (n, w) o -> ordered w) by (intros o n' w -> Hw; inversion O; subst; eauto).
    destruct H as [H|[c H]]; inversion H; subst; try assumption; constructor; cbn [snd]; eauto.
Qed.

Theorem keeps_ok : forall t, wf_ty t -> keeps t.
Proof.
  induction t as [|w sg| | | | |raw|t IH|n t IH|k t IH|h t IH|fs IH] using cty_deep; intros W v x y O T H;
    try (destruct H as [H|[c H]]; inversion H; subst; try assumption; constructor; fail).
  - destruct H as [H|[c H]]; inversion H; subst; [|assumption]. constructor. match goal with S : stored _ _ _ _ |- _ => apply S end.
  - destruct H as [H|[c H]]; inversion H; subst; [|assumption]. constructor. apply to_single_valid.
  - destruct H as [H|[c H]]; inversion H; subst. constructor. assumption.
  - destruct H as [H|[c H]]; inversion H; subst; try assumption;
      try (constructor; assumption); [exact (dflt_typed (TyRaw false) W)|exact (dflt_typed (TyRaw true) W)].
  - inversion W; subst. destruct H as [H|[c H]]; inversion H; subst; try assumption; constructor. eapply IH; eauto. apply dflt_typed. assumption.
  - inversion W; subst. inversion T as [| | | | | | | | | |n' t' l Ln Tl| | |]; subst n' t' x.
    assert (G : forall vs ys, (forall a, In a vs -> ordered a) -> Forall2 (fun v y => reads t v (dflt t) y) vs ys -> (length vs <= n)%nat ->
      typed (TyArray n t) (CSeq (ys ++ skipn (length ys) l))).
    { intros vs ys Ov F L. pose proof (Forall2_len _ _ _ _ _ F). constructor.
      - rewrite app_length, skipn_length. lia.
      - apply Forall_app. split; [|apply Forall_skipn; assumption]. eapply Forall2_right; [exact F|]. cbn beta. intros a b Ha Hr.
        eapply (IH ltac:(assumption) a (dflt t)); [auto|apply dflt_typed; assumption|left; assumption]. }
    destruct H as [H|[c H]]; inversion H; subst; try assumption.
    + eapply G; [|eassumption|rewrite firstn_length; lia]. intros a Ha. eapply items_ordered; [eassumption|assumption|].
      rewrite <- (firstn_skipn (length l) vs). apply in_or_app. left. assumption.
    + constructor; [congruence|assumption].
    + eapply G; [|eassumption|lia]. intros a Ha. eapply items_ordered; [eassumption|assumption|]. apply in_or_app. left. assumption.
  - inversion W as [| | | | | | | | |? ? Wt Ws Wu| |]; subst. inversion T as [| | | | | | | | | | |k' t' l Tl Ts| |]; subst.
    assert (E : forall us vs ys, seq_items v us -> (forall a, In a vs -> In a us) -> Forall2 (fun v y => reads t v (dflt t) y) vs ys -> Forall (typed t) ys).
    { intros us vs ys I Sub F. eapply Forall2_right; [exact F|]. cbn beta. intros a b Ha Hr.
      eapply (IH Wt a (dflt t)); [|apply dflt_typed; assumption|left; assumption].
      eapply items_ordered; [eassumption|assumption|auto]. }
    assert (St : forall us vs ys, k = KSet \/ k = KUSet -> seq_items v us -> (forall a, In a vs -> In a us) ->
      Forall2 (fun v y => reads t v (dflt t) y) vs ys -> Forall (fun y => ceqb y y = true) ys ->
      typed (TySeq k t) (CSeq (fold_left (fun s y => set_insert y s) ys []))).
    { intros us vs ys K I Sub F C.
      assert (Ot : ordered_ty t) by (destruct K as [->| ->]; [auto|apply hashed_ordered; auto]).
      destruct (insert_all_keeps t ys [] Ot) as [[M1 M2] S1].
      - split; [eapply E; eassumption|assumption].
      - split; constructor.
      - constructor.
      - constructor; [exact M1|]. intros _. split; [exact S1|exact M2]. }
    destruct H as [H|[c H]]; inversion H; subst;
      try (match goal with I : seq_items v _, F : Forall2 _ _ ?ys, C : Forall _ ?ys |- _ =>
             eapply St; [assumption|exact I| |exact F|exact C]; intros a Ha; try apply in_or_app; auto end);
      (apply ty_seq; [|intro Ks; try (split; constructor); exfalso; intuition congruence]).
    + eapply E; [eassumption| |eassumption]. auto.
    + apply Forall_resize; [apply dflt_typed|]; assumption.
    + apply Forall_app. split; [|apply Forall_skipn, Forall_resize; [apply dflt_typed|]; assumption].
      eapply E; [eassumption| |eassumption]. intros a Ha. apply in_or_app. left. assumption.
    + constructor.
    + eapply E; [eassumption| |eassumption]. intros a Ha. apply in_or_app. left. assumption.
    + eapply E; [eassumption| |eassumption]. intros a Ha. apply in_or_app. right. right. assumption.
  - inversion W; subst. inversion T as [| | | | | | | | | | | |h' t' m Tm Ts|]; subst.
    assert (G : forall (o : list (str * value)) ps m', (forall k a, In (k, a) o -> ordered a) ->
      Forall2 (fun q p => fst p = fst q /\ reads t (snd q) (dflt t) (snd p)) o ps -> map_of (m ++ ps) m' ->
      typed (TyMap h t) (CMap m')).
    { intros o ps m' Ov F M. constructor; [|apply ss_sorted; apply M].
      assert (Tp : Forall (fun p => typed t (snd p)) ps).
      { eapply Forall2_right; [exact F|]. cbn beta. intros [k a] b Ha [_ Hr].
        eapply (IH ltac:(assumption) a (dflt t)); [eauto|apply dflt_typed; assumption|left; assumption]. }
      apply Forall_forall. intros [k z] Hz. apply (map_of_in _ _ _ _ _ M) in Hz. apply in_app_or in Hz.
      rewrite Forall_forall in Tm, Tp. destruct Hz as [Hz|Hz]; [apply (Tm _ Hz)|apply (Tp _ Hz)]. }
    destruct H as [H|[c H]]; inversion H; subst; try assumption; (eapply G; [|eassumption|eassumption]).
    + intros k a Ha. match goal with Hv : v = _ \/ _ |- _ => destruct Hv as [->|[_ ->]] end; [inversion O; subst; eauto|destruct Ha].
    + intros k' a Ha. inversion O; subst. match goal with X : forall k x, In (k, x) _ -> ordered x |- _ => apply (X k'), in_or_app; left; assumption end.
  - inversion W as [| | | | | | | | | | |fs' Nd Wf]; subst. inversion T as [| | | | | | | | | | | | |fs' l Tl]; subst.
    assert (K : Forall (fun f => keeps (snd f)) fs) by (clear - IH Wf; induction IH; constructor; inversion Wf; subst; auto).
    destruct H as [H|[c H]]; inversion H; subst; constructor; eapply keeps_fields; eauto.
Qed.
