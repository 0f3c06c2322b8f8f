(** Reading when memory runs out does what its specification allows. *)
From Coq Require Import Sorted Permutation Floats.SpecFloat Lia ZifyBool ZifyNat ZifyN.
From Verif Require Import Base Value Compare ValueOps Iterator SpecGrammar SpecText ObjFacts SpecValue ValueProofs SpecIter IterProofs
  SpecCompare CompareProofs Cpp Message Convert SpecConv ConvOrder ConvFloat ConvTo ConvFrom ConvRead ConvSafe ConvMem SpecConvMem ConvMemStep.
Open Scope N_scope.

Lemma inits_asks : forall t, inits t = true <-> asks t.
Proof.
  induction t as [|w sg| | | | |raw|t IH|n t IH|k t IH|h t IH|fs IH] using cty_deep; cbn [inits]; try (split; [discriminate|intro H; inversion H]).
  - destruct raw; (split; [try discriminate|intro H; inversion H]); [constructor|reflexivity].
  - destruct n; [split; [discriminate|intro H; inversion H]|]. rewrite IH. split; intro H; [constructor; assumption|inversion H; assumption].
  - destruct k; split; intro H; try discriminate; try reflexivity; try (constructor; discriminate); inversion H; congruence.
  - split; [constructor|reflexivity].
  - rewrite existsb_exists. rewrite Forall_forall in IH. split.
    + intros ([[n req] t] & Hf & H). apply (IH _ Hf) in H. econstructor; eassumption.
    + intro H. inversion H; subst. eexists. split; [eassumption|]. apply (IH _ H1). assumption.
Qed.

(** scans of numbered elements *)
Section Scan.
Context {A B : Type}.
Lemma enum_all : forall (g : N * A -> outcome B) (R : A -> B -> Prop) vs i ys,
  (forall p b, In p (enum i vs) -> g p = Ret b -> R (snd p) b) -> Forall2 (fun p b => g p = Ret b) (enum i vs) ys -> Forall2 R vs ys.
Proof.
  intros g R. induction vs as [|v vs IH]; intros i ys H F; inversion F as [|? y ? ys' Hy F']; subst; constructor.
  - apply (H (i, v) y); [left; reflexivity|assumption].
  - apply (IH (i + 1)); [|assumption]. intros p b Hp. apply H. right. assumption.
Qed.
Lemma enum_stop : forall (g : N * A -> outcome B) (R : A -> B -> Prop) vs i ys er,
  (forall p b, In p (enum i vs) -> g p = Ret b -> R (snd p) b) -> scan g (enum i vs) = (ys, Throw er) ->
  exists vs1 p vs2, vs = vs1 ++ snd p :: vs2 /\ In (snd p) vs /\ In p (enum i vs) /\ Forall2 R vs1 ys /\ g p = Throw er.
Proof.
  intros g R. induction vs as [|v vs IH]; intros i ys er H E; cbn [enum scan] in E; [discriminate|].
  destruct (g (i, v)) as [b|c| | |] eqn:G; cbn [void bind] in E; try discriminate.
  - destruct (scan g (enum (i + 1) vs)) as [bs o] eqn:Sc. cbn [fst snd] in E. injection E as <- ->.
    destruct (IH (i + 1) bs er) as (vs1 & p & vs2 & -> & I & I' & F & X); [|assumption|].
    + intros p b' Hp. apply H. right. assumption.
    + exists (v :: vs1), p, vs2. repeat split; try assumption; [right; assumption|right; assumption|].
      constructor; [apply (H (i, v) b); [left; reflexivity|assumption]|assumption].
  - injection E as <- <-. exists [], (i, v), vs. cbn [snd]. repeat split; try assumption; try (left; reflexivity).
Qed.
End Scan.

Section Env.
Variable e : env.

Lemma gm_ret : forall r t v y, get_mem e r t v = Ret y <->
  (inits t && refused (sub 1 r) 0) = false /\ from_mem e (sub 2 r) t v (dflt t) = (y, Ret tt).
Proof.
  intros r t v y. unfold get_mem, made. destruct (inits t && refused (sub 1 r) 0); [split; [discriminate|intros [H _]; discriminate]|].
  unfold fresh. destruct (from_mem e (sub 2 r) t v (dflt t)) as [x [[]|er| | |]]; cbn [bind]; split; intro H; try discriminate;
    try (destruct H; discriminate); [injection H as <-; auto|destruct H; congruence].
Qed.
Lemma gm_throw : forall r t v er, get_mem e r t v = Throw er <->
  ((inits t && refused (sub 1 r) 0) = true /\ er = EAlloc) \/
  ((inits t && refused (sub 1 r) 0) = false /\ exists y, from_mem e (sub 2 r) t v (dflt t) = (y, Throw er)).
Proof.
  intros r t v er. unfold get_mem, made. destruct (inits t && refused (sub 1 r) 0).
  - split; intro H; [left; split; [reflexivity|congruence]|]. destruct H as [[_ ->]|[H _]]; [reflexivity|discriminate].
  - unfold fresh. destruct (from_mem e (sub 2 r) t v (dflt t)) as [x [[]|c| | |]]; cbn [bind]; split; intro H; try discriminate;
      try (destruct H as [[H _]|[_ [y H]]]; discriminate).
    + injection H as <-. right. eauto.
    + destruct H as [[H _]|[_ [y H]]]; [discriminate|congruence].
Qed.

Definition snd_ok (t : cty) : Prop := forall r v x, ordered v -> typed t x ->
  (forall y, from_mem e r t v x = (y, Ret tt) -> may_read t v x y) /\
  (forall y er, from_mem e r t v x = (y, Throw er) -> may_stop t v x y er).

Section One.
Variable t : cty.
Hypothesis W : wf_ty t.
Hypothesis R : snd_ok t.
Lemma so_get : forall r v, ordered v ->
  (forall y, get_mem e r t v = Ret y -> may_read t v (dflt t) y) /\
  (forall er, get_mem e r t v = Throw er -> may_fail t v er).
Proof.
  intros r v O. destruct (R (sub 2 r) v (dflt t) O (dflt_typed t W)) as [R1 R2]. split.
  - intros y H. apply gm_ret in H. apply R1, H.
  - intros er H. apply gm_throw in H. destruct H as [[H ->]|[_ [y H]]].
    + apply andb_true_iff in H. apply mf_init, inits_asks, H.
    + eapply mf_read, R2, H.
Qed.
Lemma so_elem : forall r p y, ordered (snd p) -> elem e r t p = Ret y -> may_read t (snd p) (dflt t) y.
Proof. intros r p y O. apply (so_get _ (snd p) O). Qed.
Lemma so_node : forall r p, ordered (snd p) ->
  (forall y, elem_node e r t p = Ret y -> may_read t (snd p) (dflt t) y) /\
  (forall er, elem_node e r t p = Throw er -> may_fail_node t (snd p) er).
Proof.
  intros r p O. destruct (so_get (sub (fst p) r) (snd p) O) as [G1 G2]. split.
  - intros y H. apply need_ret in H. apply G1, H.
  - intros er H. apply need_throw in H. destruct H as [H|([y H] & _ & ->)]; [apply mn_get, G2, H|eapply mn_node, G1, H].
Qed.
Lemma so_set : forall r p, ordered (snd p) ->
  (forall y, elem_set e r t p = Ret y -> may_read t (snd p) (dflt t) y /\ ceqb y y = true) /\
  (forall er, elem_set e r t p = Throw er -> may_fail t (snd p) er \/ (er = EAlloc /\ exists y, may_read t (snd p) (dflt t) y /\ ceqb y y = true)).
Proof.
  intros r p O. destruct (so_get (sub (fst p) r) (snd p) O) as [G1 G2]. unfold elem_set, elem.
  destruct (get_mem e (sub (fst p) r) t (snd p)) as [y|c| | |]; cbn [bind]; split; try discriminate.
  - intros y' H. destruct (ceqb y y) eqn:C; [|discriminate]. apply need_ret in H. destruct H as [H _]. injection H as <-. auto.
  - intros er H. destruct (ceqb y y) eqn:C; [|discriminate]. apply need_throw in H. destruct H as [H|(_ & _ & ->)]; [discriminate|]. right. eauto.
  - intros er H. injection H as <-. left. auto.
Qed.
Lemma so_pair : forall r p, ordered (snd (snd p)) ->
  (forall q, pair_mem e r t p = Ret q -> fst q = fst (snd p) /\ may_read t (snd (snd p)) (dflt t) (snd q)) /\
  (forall er, pair_mem e r t p = Throw er -> may_fail_node t (snd (snd p)) er).
Proof.
  intros r [i [k w]] O. cbn [fst snd] in *. destruct (so_get (sub i r) w O) as [G1 G2]. unfold pair_mem. cbn [fst snd].
  destruct (get_mem e (sub i r) t w) as [y|c| | |]; cbn [bind]; split; intros q H; try discriminate.
  - apply need_ret in H. destruct H as [H _]. injection H as <-. cbn [fst snd]. auto.
  - apply need_throw in H. destruct H as [H|(_ & _ & ->)]; [discriminate|]. eapply mn_node, G1. reflexivity.
  - unfold need in H. cbn [bind] in H. injection H as <-. apply mn_get, G2. reflexivity.
Qed.
End One.

Lemma and_forall2 : forall A B (P : A -> B -> Prop) (Q : B -> Prop) l m, Forall2 (fun a b => P a b /\ Q b) l m -> Forall2 P l m /\ Forall Q m.
Proof. intros A B P Q l m F. induction F as [|a b l m [H H'] F [I1 I2]]; split; constructor; assumption. Qed.

Lemma said_thrown : forall r, thrown not_array (said_not_array r).
Proof. intro r. unfold said_not_array. destruct (refused (sub 0 r) 0); [right|left]; reflexivity. Qed.

Lemma so_seq : forall k t, wf_ty t -> snd_ok t -> snd_ok (TySeq k t).
Proof.
  intros k t W R r v x O T. inversion T as [| | | | | | | | | | |k' t' l Tl Ts| |]; subst.
  destruct (items_dec v) as [[vs I]|N0].
  - pose proof (items_ordered v vs I O) as Ov. rewrite (mem_seq e k r t v vs l I).
    assert (Oe : forall us, (forall x, In x us -> ordered x) -> forall p, In p (enum 0 us) -> ordered (snd p)) by (intros us H p Hp; apply H, (enum_in _ _ _ _ Hp)).
    assert (V : k = KVector \/ k = KDeque ->
      (forall y, (CSeq (fst (seq_mem e k r t vs l)), snd (seq_mem e k r t vs l)) = (y, Ret tt) -> may_read (TySeq k t) v (CSeq l) y) /\
      (forall y er, (CSeq (fst (seq_mem e k r t vs l)), snd (seq_mem e k r t vs l)) = (y, Throw er) -> may_stop (TySeq k t) v (CSeq l) y er)).
    { intro K. assert (Es : seq_mem e k r t vs l = if (len l <? len vs) && refused r 0 then (l, Throw EAlloc) else
          let '(ys, o) := scan (elem e r t) (enum 0 vs) in (ys ++ skipn (length ys) (resize (dflt t) (length vs) l), o))
        by (destruct K as [->| ->]; reflexivity).
      rewrite Es. destruct ((len l <? len vs) && refused r 0) eqn:Rf; cbn [fst snd].
      { split; [intros; discriminate|]. intros y er H. injection H as <- <-. apply andb_true_iff in Rf. destruct Rf as [Rf _].
        apply ms_resize; [assumption|]. rewrite (items_size v vs I). unfold len in *. lia. }
      destruct (scan (elem e r t) (enum 0 vs)) as [ys o] eqn:Sc. cbn [fst snd]. split.
      - intros y H. injection H as <- ->. apply scan_ret in Sc. pose proof (Forall2_len _ _ _ _ _ Sc) as Ln. rewrite enum_len in Ln.
        rewrite (vec_all k) by (assumption || lia). eapply mr_seq; try eassumption; try (destruct K as [->| ->]; discriminate).
        eapply enum_all; [|exact Sc]. intros p b Hp. apply so_elem; auto. eapply Oe; eassumption.
      - intros y er H. injection H as <- ->. destruct (enum_stop _ (fun v y => may_read t v (dflt t) y) _ _ _ _ (fun p b Hp => so_elem t W R r p b (Oe vs Ov p Hp)) Sc) as (a & p & b & Ev & Ip & Iq & F & B).
        rewrite Ev in *. eapply ms_vec; try eassumption. eapply (so_get t W R); [apply (Oe _ Ov p Iq)|exact B]. }
    assert (Z : k = KSet \/ k = KUSet ->
      (forall y, (CSeq (fst (seq_mem e k r t vs l)), snd (seq_mem e k r t vs l)) = (y, Ret tt) -> may_read (TySeq k t) v (CSeq l) y) /\
      (forall y er, (CSeq (fst (seq_mem e k r t vs l)), snd (seq_mem e k r t vs l)) = (y, Throw er) -> may_stop (TySeq k t) v (CSeq l) y er)).
    { intro K. assert (Es : seq_mem e k r t vs l = let '(ys, o) := scan (elem_set e r t) (enum 0 vs) in (insert_all ys [], o))
        by (destruct K as [->| ->]; reflexivity).
      rewrite Es. destruct (scan (elem_set e r t) (enum 0 vs)) as [ys o] eqn:Sc. cbn [fst snd].
      assert (Q : forall p b, In p (enum 0 vs) -> elem_set e r t p = Ret b -> may_read t (snd p) (dflt t) b /\ ceqb b b = true).
      { intros p b Hp. apply (so_set t W R r p (Oe vs Ov p Hp)). }
      split.
      - intros y H. injection H as <- ->. apply scan_ret in Sc.
        apply (enum_all _ (fun v b => may_read t v (dflt t) b /\ ceqb b b = true)) in Sc; [|assumption]. apply and_forall2 in Sc. destruct Sc as [F C].
        eapply mr_set; eassumption.
      - intros y er H. injection H as <- ->.
        destruct (enum_stop _ (fun v b => may_read t v (dflt t) b /\ ceqb b b = true) _ _ _ _ Q Sc) as (a & p & b & Ev & Ip & Iq & F & B).
        apply and_forall2 in F. destruct F as [F C]. apply (so_set t W R r p (Oe vs Ov p Iq)) in B. rewrite Ev in I. destruct B as [B|(-> & y & B & By)].
        + eapply ms_set; eassumption.
        + eapply ms_set_node; eassumption. }
    destruct k; auto; clear V Z; cbn [seq_mem].
    + destruct (scan (elem_node e r t) (enum 0 vs)) as [ys o] eqn:Sc. cbn [fst snd].
      assert (Q : forall p b, In p (enum 0 vs) -> elem_node e r t p = Ret b -> may_read t (snd p) (dflt t) b).
      { intros p b Hp. apply (so_node t W R r p (Oe vs Ov p Hp)). }
      split.
      * intros y H. injection H as <- ->. apply scan_ret in Sc. eapply mr_seq; try eassumption; try discriminate. eapply enum_all; eassumption.
      * intros y er H. injection H as <- ->. destruct (enum_stop _ (fun v b => may_read t v (dflt t) b) _ _ _ _ Q Sc) as (a & p & b & Ev & Ip & Iq & F & B).
        rewrite Ev in *. eapply ms_list; try eassumption. apply (so_node t W R r p (Oe _ Ov p Iq)). exact B.
    + assert (Or : forall x, In x (rev vs) -> ordered x) by (intros x Hx; apply Ov, in_rev, Hx).
      destruct (scan (elem_node e r t) (enum 0 (rev vs))) as [ys o] eqn:Sc. cbn [fst snd].
      assert (Q : forall p b, In p (enum 0 (rev vs)) -> elem_node e r t p = Ret b -> may_read t (snd p) (dflt t) b).
      { intros p b Hp. apply (so_node t W R r p (Oe _ Or p Hp)). }
      split.
      * intros y H. injection H as <- ->. apply scan_ret in Sc. eapply mr_seq; try eassumption; try discriminate.
        apply (enum_all _ (fun v b => may_read t v (dflt t) b)) in Sc; [|assumption]. apply Forall2_rev' in Sc. rewrite rev_involutive in Sc. assumption.
      * intros y er H. injection H as <- ->. destruct (enum_stop _ (fun v b => may_read t v (dflt t) b) _ _ _ _ Q Sc) as (a & p & b & Ev & Ip & Iq & F & B).
        apply (so_node t W R r p (Oe _ Or p Iq)) in B.
        apply (f_equal (@rev value)) in Ev. rewrite rev_involutive, rev_app_distr in Ev. cbn [rev] in Ev.
        rewrite <- app_assoc in Ev. cbn [app] in Ev. rewrite Ev in I. apply Forall2_rev' in F. eapply ms_forward; eassumption.
  - rewrite (mem_seq_kind e k r t v l N0). pose proof (said_thrown r) as Sd.
    assert (V : k = KVector \/ k = KDeque ->
      (forall y, (if (len l <? v_size v) && refused r 0 then (CSeq l, @Throw unit EAlloc)
                        else (CSeq (resize (dflt t) (N.to_nat (v_size v)) l), Throw (said_not_array r))) = (y, Ret tt) -> may_read (TySeq k t) v (CSeq l) y) /\
      (forall y er, (if (len l <? v_size v) && refused r 0 then (CSeq l, @Throw unit EAlloc)
                        else (CSeq (resize (dflt t) (N.to_nat (v_size v)) l), Throw (said_not_array r))) = (y, Throw er) -> may_stop (TySeq k t) v (CSeq l) y er)).
    { intro K. destruct ((len l <? v_size v) && refused r 0) eqn:Rf; (split; [intros; discriminate|]); intros y er H; injection H as <- <-.
      - apply ms_resize; [assumption|]. unfold len in *. lia.
      - apply ms_vec_kind; assumption. }
    destruct k; auto; split; intros; try discriminate; injection H as <- <-; apply ms_list_kind; auto; discriminate.
Qed.

Lemma so_array : forall n t, wf_ty t -> snd_ok t -> snd_ok (TyArray n t).
Proof.
  intros n t W R r v x O T. inversion T as [| | | | | | | | | |n' t' l Ln Tl| | |]; subst n' t' x.
  destruct (items_dec v) as [[vs I]|N0].
  - pose proof (items_ordered v vs I O) as Ov. rewrite (mem_array e n r t v vs l I Ln).
    assert (Of : forall p, In p (enum 0 (firstn n vs)) -> ordered (snd p)).
    { intros p Hp. apply enum_in in Hp. apply Ov. rewrite <- (firstn_skipn n vs). apply in_or_app. left. assumption. }
    assert (Q : forall p b, In p (enum 0 (firstn n vs)) -> elem e r t p = Ret b -> may_read t (snd p) (dflt t) b) by (intros p b Hp; apply so_elem; auto).
    destruct (scan (elem e r t) (enum 0 (firstn n vs))) as [ys o] eqn:Sc. split.
    + intros y H. injection H as <- ->. apply scan_ret in Sc. eapply mr_array; [eassumption|]. eapply enum_all; eassumption.
    + intros y er H. injection H as <- ->. destruct (enum_stop _ (fun v b => may_read t v (dflt t) b) _ _ _ _ Q Sc) as (a & p & b & E & Ip & Iq & F & B).
      apply (ms_array n t v a (snd p) (b ++ skipn n vs) ys l er); try assumption.
      * rewrite app_comm_cons, app_assoc, <- E, firstn_skipn. assumption.
      * pose proof (f_equal (@length value) E) as E'. rewrite firstn_length, app_length in E'. cbn [length] in E'. lia.
      * eapply (so_get t W R); [apply Of; eassumption|exact B].
  - destruct n as [|n].
    + rewrite mem_array0. split; [|intros; discriminate]. intros y H. injection H as <-. apply mr_array0.
    + rewrite (mem_array_kind e (S n) r t v l N0) by discriminate. split; [intros; discriminate|].
      intros y er H. injection H as <- <-. apply ms_array_kind; [assumption|discriminate|apply said_thrown].
Qed.

Lemma none_dec : forall v, seq_items v [] \/ ~ seq_items v [].
Proof.
  intro v. destruct (items_dec v) as [[[|a vs] I]|N0]; [left; assumption|right; intro X; pose proof (items_det _ _ _ I X); discriminate|right; apply N0].
Qed.

Lemma so_map : forall h t, wf_ty t -> snd_ok t -> snd_ok (TyMap h t).
Proof.
  intros h t W R r v x O T. inversion T as [| | | | | | | | | | | |h' t' m Tm Ts|]; subst. apply ss_sorted in Ts.
  destruct (obj_or_not v) as [[o ->]|Ty].
  - assert (Oo : forall p, In p (enum 0 o) -> ordered (snd (snd p))).
    { intros [i [k w]] Hp. apply enum_in in Hp. cbn [snd] in *. inversion O; subst. eauto. }
    rewrite (mem_map e h r t o m O). destruct (scan (pair_mem e r t) (enum 0 o)) as [ps out] eqn:Sc. cbn [fst snd].
    assert (Q : forall p b, In p (enum 0 o) -> pair_mem e r t p = Ret b -> (fun q p => fst p = fst q /\ may_read t (snd q) (dflt t) (snd p)) (snd p) b).
    { intros p b Hp. apply (so_pair t W R r p (Oo p Hp)). }
    split.
    + intros y H. injection H as <- ->. apply scan_ret in Sc. eapply mr_map; [left; reflexivity|eapply enum_all; eassumption|].
      apply emplaces_iff; [assumption|reflexivity].
    + intros y er H. injection H as <- ->. destruct (enum_stop _ (fun q p => fst p = fst q /\ may_read t (snd q) (dflt t) (snd p)) _ _ _ _ Q Sc) as (a & [i [k w]] & b & E & Ip & Iq & F & B).
      apply (so_pair t W R r _ (Oo _ Iq)) in B. cbn [snd] in *. rewrite E in *.
      eapply ms_map; [exact F|exact B|apply emplaces_iff; [assumption|reflexivity]].
  - destruct (none_dec v) as [I|Ni].
    + rewrite (mem_map_none e h r t v m I). split; [|intros; discriminate]. intros y H. injection H as <-.
      eapply mr_map; [right; auto|constructor|]. apply emplaces_iff; [assumption|reflexivity].
    + destruct (mem_map_kind e h r t v m O Ty Ni) as (w & es & El & E). rewrite E.
      assert (Ow : ordered w) by (apply (elem_ordered v _ El O None); left; reflexivity).
      assert (K : forall er, saying (A := unit) (sub 0 r) 3 (Throw no_key) = Throw er -> thrown no_key er).
      { intros er H. apply saying_throw in H. destruct H as (c & H & Th). injection H as <-. assumption. }
      unfold first_mem. destruct (e_key1 e).
      * split; [intros; discriminate|]. intros y er H. injection H as <- H. apply ms_map_kind; try assumption. apply K. cbn [saying]. congruence.
      * destruct (so_get t W R (sub 0 r) w Ow) as [_ G].
        destruct (get_mem e (sub 0 r) t w) as [y'|er'| | |]; cbn [bind]; split; intros; try discriminate; injection H as <- H.
        -- apply ms_map_kind; try assumption. apply K. cbn [saying]. congruence.
        -- subst er. eapply ms_map_first; try eassumption. apply G. reflexivity.
Qed.

Lemma so_fields : forall fs, Forall (fun f => wf_ty (snd f)) fs -> Forall (fun f => snd_ok (snd f)) fs ->
  forall r v l, ordered v -> Forall2 (fun f x => typed (snd f) x) fs l ->
  (forall l', fields_mem e v r fs l = (l', Ret tt) -> may_fields v fs l l') /\
  (forall l' er, fields_mem e v r fs l = (l', Throw er) -> may_fields_stop v fs l l' er).
Proof.
  induction fs as [|[[n req] t] fs IH]; intros Wf Rf r v l O T; inversion T as [|? x ? l0 Tx Tl]; subst.
  - split; intros; cbn [fields_mem] in *; [|discriminate]. injection H as <-. constructor.
  - inversion Wf as [|? ? Wt Wfs]; inversion Rf as [|? ? Rt Rfs]; subst. cbn [snd] in *.
    destruct (IH Wfs Rfs (sub 4 r) v l0 O Tl) as [I1 I2]. clear IH.
    assert (Skip : (forall o w, v = VObj o -> ~ In (n, w) o) -> req = false ->
      (forall l', (let '(q, o) := fields_mem e v (sub 4 r) fs l0 in (x :: q, o)) = (l', Ret tt) -> may_fields v ((n, req, t) :: fs) (x :: l0) l') /\
      (forall l' er, (let '(q, o) := fields_mem e v (sub 4 r) fs l0 in (x :: q, o)) = (l', Throw er) ->
        may_fields_stop v ((n, req, t) :: fs) (x :: l0) l' er)).
    { intros Ab ->. destruct (fields_mem e v (sub 4 r) fs l0) as [q o] eqn:Er. split.
      - intros l' H. injection H as <- ->. apply ml_absent; auto.
      - intros l' er H. injection H as <- ->. pose proof (I2 q er eq_refl) as B. apply mt_absent; auto. }
    cbn [fields_mem].
    assert (Nm : forall k, (exists d : outcome bool, (if req then Ret true else need r 0 (Ret (0 <? v_count n v))) = d /\
       (d = Throw EAlloc \/ d = Ret (req || (0 <? v_count n v)))) /\ (need r k (Ret tt) = Ret tt \/ need r k (Ret tt) = Throw EAlloc)).
    { intro k. split.
      - eexists. split; [reflexivity|]. destruct req; [right; reflexivity|]. unfold need. cbn [bind orb]. destruct (refused r 0); auto.
      - unfold need. cbn [bind]. destruct (refused r k); auto. }
    destruct (Nm 1) as [(d & -> & [->| ->]) N1].
    { cbn [void bind]. split; [intros; discriminate|]. intros l' er H. injection H as <- <-. apply mt_name. }
    clear Nm. destruct (obj_or_not v) as [[o ->]|Ty].
    + destruct (obj_find n o) as [w|] eqn:Fn.
      * assert (Cn : req || (0 <? v_count n (VObj o)) = true) by (cbn [v_count]; rewrite Fn; destruct req; reflexivity).
        rewrite Cn, (at_key_obj _ _ _ Fn), saying_ret. clear Cn Skip.
        destruct N1 as [->| ->]; [|split; [intros; discriminate|]; intros l' er H; injection H as <- <-; apply mt_name].
        pose proof (ordered_find _ _ _ O Fn) as Ow. apply find_in' in Fn.
        destruct (Rt (sub 3 r) w x Ow Tx) as [R1 R2].
        destruct (from_mem e (sub 3 r) t w x) as [x' [[]|er'| | |]] eqn:Ex; try (split; intros; discriminate).
        -- specialize (R1 x' eq_refl). destruct (fields_mem e (VObj o) (sub 4 r) fs l0) as [q out] eqn:Er. split.
           ++ intros l' H. injection H as <- ->. eapply ml_read; eauto.
           ++ intros l' er H. injection H as <- ->. pose proof (I2 q er eq_refl) as B. eapply mt_read; eauto.
        -- pose proof (R2 x' er' eq_refl) as B'. destruct (fields_mem e (VObj o) (sub 4 r) fs l0) as [q out] eqn:Er. split.
           ++ intros l' H. injection H as <- ->. eapply ml_left; eauto.
           ++ intros l' er H. injection H as <- ->. pose proof (I2 q er eq_refl) as B. eapply mt_left; eauto.
      * assert (Ab : forall w, ~ In (n, w) o) by (apply find_no; assumption).
        destruct req.
        -- cbn [orb]. rewrite (at_key_missing _ _ Fn).
           destruct N1 as [->| ->]; [|split; [intros; discriminate|]; intros l' er H; injection H as <- <-; apply mt_name].
           cbn [saying void bind]. split; [intros; discriminate|].
           intros l' er H. injection H as <- <-. destruct (refused r 2); [apply mt_name|apply mt_missing; assumption].
        -- cbn [orb v_count]. rewrite Fn. cbn [N.ltb N.compare]. apply Skip; [|reflexivity]. intros o' w E. injection E as <-. apply Ab.
    + destruct req.
      * cbn [orb]. rewrite (at_key_kind n v Ty).
        destruct N1 as [->| ->]; [|split; [intros; discriminate|]; intros l' er H; injection H as <- <-; apply mt_name].
        cbn [saying void bind]. split; [intros; discriminate|].
        intros l' er H. injection H as <- <-. destruct (refused r 2); [apply mt_name|apply mt_kind; assumption].
      * cbn [orb]. rewrite (count_kind n v Ty). cbn [N.ltb N.compare]. apply Skip; [|reflexivity]. intros o' w ->. destruct Ty. reflexivity.
Qed.

Lemma ptr_mem : forall r t v x, v <> VNull ->
  from_mem e r (TyPtr t) v x = assign x (need r 0 (get_mem e r t v)) (fun y => CPtr (Some y)).
Proof. intros r t v x Nv. destruct v; try reflexivity. destruct Nv. reflexivity. Qed.

Lemma copies_some : forall {A} r (l : list A) i n, copies r i l = Some n -> exists w b, l = firstn n l ++ w :: b /\ length (firstn n l) = n.
Proof.
  intros A r. induction l as [|w l IH]; intros i n H; cbn [copies] in H; [discriminate|].
  destruct (refused (sub i r) 0).
  - injection H as <-. exists w, l. split; reflexivity.
  - destruct (copies r (i + 1) l) as [m|] eqn:E; cbn [option_map] in H; [|discriminate]. injection H as <-.
    destruct (IH _ _ E) as (w' & b & E1 & E2). exists w', b. cbn [firstn app length]. split; congruence.
Qed.
Lemma raw_snd : forall raw, snd_ok (TyRaw raw).
Proof.
  intros raw r v x O T. destruct (value_null_dec v) as [->|Nv].
  { split; intros; destruct raw; cbn [from_mem dflt] in *; try discriminate; injection H as <-; constructor. }
  inversion T; subst; cbn [from_mem].
  - destruct v as [|z|f|s|a|m|b]; try congruence; cbn [saying]; split; try (intros; discriminate);
      try (intros y er H; injection H as <- <-; apply ms_array_type; [discriminate|assumption|destruct (refused r 0); [right|left]; reflexivity]).
    + intros y H. destruct (copies r 0 a); [discriminate|]. injection H as <-. constructor.
    + intros y er H. destruct (copies r 0 a) as [n|] eqn:E; [|discriminate]. injection H as <- <-. destruct (copies_some _ _ _ _ E) as (w & b & E1 & E2).
      rewrite Nat.min_comm, <- firstn_firstn. pose proof (ms_copy_array (firstn n a) w b l) as B. rewrite E2, <- E1 in B. exact B.
  - destruct v as [|z|f|s|a|o|b]; try congruence; cbn [saying]; split; try (intros; discriminate);
      try (intros y er H; injection H as <- <-; apply ms_object_type; [discriminate|assumption|destruct (refused r 0); [right|left]; reflexivity]).
    + intros y H. destruct (copies r 0 o); [discriminate|]. injection H as <-. constructor.
    + intros y er H. destruct (copies r 0 o) as [n|] eqn:E; [|discriminate]. injection H as <- <-. destruct (copies_some _ _ _ _ E) as (w & b & E1 & _).
      rewrite E1 at 1. apply ms_copy_object.
Qed.

Theorem snd_all : forall t, wf_ty t -> snd_ok t.
Proof.
  induction t as [|w sg| | | | |raw|t IH|n t IH|k t IH|h t IH|fs IH] using cty_deep; intro W.
  - intros r v x O T. split; [intros y H|intros y er H]; destruct v; cbn [from_mem saying] in H; try discriminate; try (injection H as <- <-); try (injection H as <-);
      try first [apply mr_bool|apply mr_double|apply mr_float]; try (constructor; [discriminate|destruct (refused r 0); [right|left]; reflexivity]).
  - intros r v x O T. split; [intros y H|intros y er H]; destruct v; cbn [from_mem saying] in H; try discriminate; try (injection H as <- <-);
      try (constructor; [discriminate|destruct (refused r 0); [right|left]; reflexivity]).
    injection H as <-. constructor. apply stored_wrap; [eapply wf_width; eassumption|reflexivity].
  - intros r v x O T. split; [intros y H|intros y er H]; destruct v; cbn [from_mem saying] in H; try discriminate; try (injection H as <- <-); try (injection H as <-);
      try first [apply mr_bool|apply mr_double|apply mr_float]; try (constructor; [discriminate|destruct (refused r 0); [right|left]; reflexivity]).
  - intros r v x O T. split; [intros y H|intros y er H]; destruct v; cbn [from_mem saying] in H; try discriminate; try (injection H as <- <-); try (injection H as <-);
      try first [apply mr_bool|apply mr_double|apply mr_float]; try (constructor; [discriminate|destruct (refused r 0); [right|left]; reflexivity]).
  - intros r v x O T. split; [intros y H|intros y er H]; destruct v; cbn [from_mem saying] in H; try discriminate; try (injection H as <- <-);
      try (constructor; [discriminate|destruct (refused r 0); [right|left]; reflexivity]).
    + unfold need in H. cbn [bind] in H. destruct (refused r 0); cbn [assign void bind] in H; [discriminate|]. injection H as <-. constructor.
    + unfold need in H. cbn [bind] in H. destruct (refused r 0); cbn [assign void bind] in H; [|discriminate]. injection H as <- <-. apply ms_copy_string.
  - intros r v x O T. split; [intros y H|intros y er H]; cbn [from_mem] in H; unfold need in H; cbn [bind] in H.
    + destruct (owns v); [destruct (refused r 0)|]; cbn [assign void bind] in H; try discriminate; injection H as <-; constructor.
    + destruct (owns v) eqn:Ow; [destruct (refused r 0)|]; cbn [assign void bind] in H; try discriminate. injection H as <- <-. apply ms_copy.
      destruct v; try discriminate; auto.
  - apply raw_snd.
  - inversion W; subst. intros r v x O T. destruct (value_null_dec v) as [->|Nv].
    + split; intros; cbn [from_mem] in *; [|discriminate]. injection H as <-. constructor.
    + rewrite ptr_mem by assumption. destruct (so_get t H0 (IH H0) r v O) as [G1 G2]. unfold need.
      destruct (get_mem e r t v) as [y|er| | |]; cbn [bind]; [destruct (refused r 0)|..]; cbn [assign void bind]; split; try (intros; discriminate).
      * intros z er' H. injection H as <- <-. eapply ms_new; eauto.
      * intros z H. injection H as <-. constructor; auto.
      * intros z er' H. injection H as <- <-. apply ms_ptr; auto.
  - inversion W; subst. apply so_array; auto.
  - inversion W; subst. apply so_seq; auto.
  - inversion W; subst. apply so_map; auto.
  - inversion W as [| | | | | | | | | | |fs' Nd Wf]; subst. intros r v x O T. inversion T; subst.
    destruct (so_fields fs Wf) with (r := r) (v := v) (l := l) as [F1 F2]; try assumption.
    { clear - IH Wf. induction IH; constructor; inversion Wf; subst; auto. }
    rewrite mem_struct. destruct (fields_mem e v r fs l) as [q o] eqn:Er. cbn [fst snd]. split.
    + intros y H. injection H as <- ->. constructor. auto.
    + intros y er H. injection H as <- ->. pose proof (F2 q er eq_refl) as B. constructor. assumption.
Qed.
End Env.
