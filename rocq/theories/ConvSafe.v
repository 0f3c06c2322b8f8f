(** Reading never goes wrong, and does what the specification says. *)
From Coq Require Import Sorted Permutation Floats.SpecFloat Lia ZifyBool ZifyNat ZifyN.
From Verif Require Import Base Value Compare ValueOps Iterator SpecGrammar SpecText ObjFacts SpecValue ValueProofs SpecIter IterProofs
  SpecCompare CompareProofs Cpp Convert SpecConv ConvOrder ConvFloat ConvTo ConvFrom ConvRead.
Open Scope N_scope.

(** ** Rounding gives a number *)
Lemma shr_nonneg : forall r e n, (0 <= shr_m r)%Z -> (0 <= shr_m (fst (shr r e n)))%Z.
Proof.
  intros r e n H. destruct n as [|k|k]; cbn [shr fst]; try assumption. rewrite shr_iter_div by assumption.
  apply Z.div_pos; [assumption|]. apply Z.pow_pos_nonneg; lia.
Qed.
Lemma near_nonneg : forall m l, (0 <= m)%Z -> (0 <= round_nearest_even m l)%Z.
Proof. intros m l H. unfold round_nearest_even. destruct l as [|[]]; try lia. destruct (Z.even m); lia. Qed.
Lemma loc_m : forall m l, shr_m (shr_record_of_loc m l) = m.
Proof. intros m [|[]]; reflexivity. Qed.
Lemma round_aux_number : forall p q s m e l, (0 <= m)%Z -> binary_round_aux p q s m e l <> S754_nan.
Proof.
  intros p q s m e l H. unfold binary_round_aux, shr_fexp.
  pose proof (shr_nonneg (shr_record_of_loc m l) e (fexp p q (Zdigits2 m + e) - e)) as A. rewrite loc_m in A. specialize (A H).
  destruct (shr (shr_record_of_loc m l) e (fexp p q (Zdigits2 m + e) - e)) as [r1 e1]. cbn [fst] in A.
  pose proof (near_nonneg (shr_m r1) (loc_of_shr_record r1) A) as B.
  set (m2 := round_nearest_even (shr_m r1) (loc_of_shr_record r1)) in *.
  pose proof (shr_nonneg (shr_record_of_loc m2 loc_Exact) e1 (fexp p q (Zdigits2 m2 + e1) - e1)) as C. rewrite loc_m in C. specialize (C B).
  destruct (shr (shr_record_of_loc m2 loc_Exact) e1 (fexp p q (Zdigits2 m2 + e1) - e1)) as [r2 e2]. cbn [fst] in C.
  destruct (shr_m r2) as [|z|z]; [discriminate| |lia]. destruct (e2 <=? q - p)%Z; discriminate.
Qed.
Lemma single_number : forall f, f <> S754_nan -> to_single f <> S754_nan.
Proof.
  intros [s|s| |s m e] H; try assumption; try discriminate. unfold to_single. rewrite recast_finite.
  unfold binary_round. destruct (shl_align m e _) as [m' e']. apply round_aux_number. lia.
Qed.

(** ** Elements read into sets are equal to themselves *)
Lemma self_seq : forall l, ceqb (CSeq l) (CSeq l) = true <-> Forall (fun x => ceqb x x = true) l.
Proof.
  induction l as [|x l IH]; [split; [constructor|reflexivity]|].
  change (ceqb (CSeq (x :: l)) (CSeq (x :: l))) with (ceqb x x && ceqb (CSeq l) (CSeq l)). rewrite andb_true_iff, IH.
  split; intro H; [constructor; tauto|inversion H; auto].
Qed.
Lemma self_dflt : forall t, ordered_ty t -> ceqb (dflt t) (dflt t) = true.
Proof.
  intros t H. induction H; try reflexivity. cbn [dflt]. apply self_seq. apply Forall_forall. intros x Hx. apply repeat_spec in Hx. subst. assumption.
Qed.
Lemma nan_items : forall v vs, seq_items v vs -> nan_free v -> forall x, In x vs -> nan_free x.
Proof. intros v vs H N x Hx. destruct H; cbn [In] in Hx; try contradiction. inversion N; subst. apply H0. assumption. Qed.

Lemma elem_nan : forall v es, elements v es -> nan_free v -> forall k x, In (k, x) es -> nan_free x.
Proof.
  intros v es El O k x I. destruct El; cbn [In] in I; try contradiction; try (destruct I as [I|[]]; injection I as _ <-; assumption).
  - apply in_map_iff in I. destruct I as (y & E & I). injection E as _ <-. inversion O; subst. match goal with H : forall x, In x l -> _ |- _ => exact (H _ I) end.
  - apply in_map_iff in I. destruct I as ([j y] & E & I). injection E as _ <-. inversion O; subst. match goal with H : forall k x, In (k, x) m -> _ |- _ => exact (H _ _ I) end.
Qed.

(** no NaN, as far as t is concerned *)
Definition number_ok (t : cty) (v : value) : Prop := ~ (float_in t /\ ~ nan_free v).
Lemma ok_items : forall t t' v vs w, number_ok t v -> (float_in t' -> float_in t) -> seq_items v vs -> In w vs -> number_ok t' w.
Proof.
  intros t t' v vs w H F I Hw [Hf Hn]. apply H. split; [apply F, Hf|]. intro N. apply Hn. eapply nan_items; eassumption.
Qed.
Lemma ok_float : forall t f, number_ok t (VFloat f) -> float_in t -> f <> S754_nan.
Proof. intros t f H F E. apply H. split; [assumption|]. intro N. inversion N; subst. congruence. Qed.

Lemma reads_self : forall t, ordered_ty t -> forall v x y, reads t v x y -> number_ok t v ->
  ceqb x x = true -> ceqb y y = true.
Proof.
  intros t Ht. induction Ht as [|w sg| | | |n t Ht IH|k t Hk Ht IH]; intros v x y H S X; inversion H; subst; cbn [ceqb].
  - destruct b; reflexivity.
  - apply Z.eqb_refl.
  - apply feqb_refl, (ok_float TyDouble); [assumption|constructor].
  - apply feqb_refl, single_number, (ok_float TyFloat); [assumption|constructor].
  - apply str_eqb_refl.
  - change (ceqb (CSeq (ys ++ skipn (length ys) l)) (CSeq (ys ++ skipn (length ys) l)) = true).
    rewrite self_seq in *. apply Forall_app. split.
    + assert (Q : forall w, In w (firstn n vs) -> number_ok t w).
      { intros w Hw. eapply ok_items; [eassumption|constructor; assumption|eassumption|]. rewrite <- (firstn_skipn n vs). apply in_or_app. left. assumption. }
      match goal with F : Forall2 _ _ _ |- _ => revert F Q end. generalize (firstn n vs). clear - IH Ht. intros vs F.
      induction F as [|w y vs ys R F IHF]; intro Q; constructor.
      * eapply IH; [eassumption|apply Q; left; reflexivity|apply self_dflt, Ht].
      * apply IHF. intros w' Hw. apply Q. right. assumption.
    + rewrite <- (firstn_skipn (length ys) l) in X. apply Forall_app in X. tauto.
  - assumption.
  - change (ceqb (CSeq ys) (CSeq ys) = true). rewrite self_seq in *.
    assert (Q : forall w, In w vs -> number_ok t w).
    { intros w Hw. eapply ok_items; [eassumption|constructor; assumption|eassumption|assumption]. }
    match goal with F : Forall2 _ _ _ |- _ => revert F Q end. clear - IH Ht. intros F.
    induction F as [|w y vs ys R F IHF]; intro Q; constructor.
    + eapply IH; [eassumption|apply Q; left; reflexivity|apply self_dflt, Ht].
    + apply IHF. intros w' Hw. apply Q. right. assumption.
  - match goal with |- ?g => change (ceqb (CSeq (insert_all ys [])) (CSeq (insert_all ys [])) = true) end. rewrite self_seq in *.
    assert (G : forall ys s, Forall (fun x => ceqb x x = true) ys -> Forall (fun x => ceqb x x = true) s ->
                Forall (fun x => ceqb x x = true) (insert_all ys s)).
    { clear. induction ys as [|y ys IH]; intros s A B; [assumption|]. inversion A; subst. cbn [insert_all fold_left]. apply IH; [assumption|].
      apply Forall_forall. intros z Hz. apply in_insert in Hz. destruct Hz as [->|Hz]; [assumption|]. rewrite Forall_forall in B. auto. }
    apply G; [assumption|constructor].
Qed.

(** ** No read is undefined *)
Definition defined {A} (o : outcome A) : Prop := (exists a, o = Ret a) \/ (exists er, o = Throw er).
Definition safe (t : cty) (v : value) : Prop := ~ nan_in_set t v.
Lemma safe_items : forall k t v vs, seq_items v vs -> safe (TySeq k t) v -> forall w, In w vs -> safe t w.
Proof. intros k t v vs I S w Hw N. apply S. eapply ns_seq; eassumption. Qed.
Lemma safe_array : forall n t v vs, seq_items v vs -> safe (TyArray n t) v -> forall w, In w vs -> safe t w.
Proof. intros n t v vs I S w Hw N. apply S. eapply ns_array; eassumption. Qed.
Lemma safe_ptr : forall t v, safe (TyPtr t) v -> safe t v.
Proof. intros t v S N. apply S. constructor. assumption. Qed.
Lemma safe_elem : forall h t v es k w, elements v es -> safe (TyMap h t) v -> In (k, w) es -> safe t w.
Proof. intros h t v es k w El S Hw N. apply S. eapply ns_map; eassumption. Qed.
Lemma safe_entry : forall h t o k w, safe (TyMap h t) (VObj o) -> In (k, w) o -> safe t w.
Proof.
  intros h t o k w S Hw. eapply (safe_elem h t (VObj o) _ (Some k)); [constructor|assumption|]. apply in_map_iff. exists (k, w). auto.
Qed.
Definition fields_safe (fs : list (str * bool * cty)) (v : value) : Prop :=
  forall n req t o w, In (n, req, t) fs -> v = VObj o -> In (n, w) o -> safe t w.
Lemma safe_fields : forall fs v, safe (TyStruct fs) v -> fields_safe fs v.
Proof. intros fs v S n req t o w Hf -> Hw N. apply S. eapply ns_struct; eassumption. Qed.
Lemma fields_safe_tail : forall f fs v, fields_safe (f :: fs) v -> fields_safe fs v.
Proof. intros f fs v S n req t o w Hf. apply (S n req t o w). right. assumption. Qed.

Lemma hashed_no_float : forall t, hashed_ty t -> ~ float_in t.
Proof. intros t H F. destruct H; inversion F. Qed.

Section Env.
Variable e : env.
Definition total (t : cty) : Prop := forall v x, ordered v -> typed t x -> safe t v -> defined (snd (from_val e t v x)).

Lemma total_get : forall t, wf_ty t -> total t -> forall v, ordered v -> safe t v -> defined (get e t v).
Proof.
  intros t W T v O S. specialize (T v (dflt t) O (dflt_typed t W) S). unfold get, fresh.
  destruct (from_val e t v (dflt t)) as [x o]. cbn [snd] in T. destruct T as [[[] ->]|[er ->]]; cbn [bind]; [left|right]; eauto.
Qed.
Lemma total_scan : forall A B (g : A -> outcome B) l, (forall a, In a l -> defined (g a)) -> defined (snd (scan g l)).
Proof.
  intros A B g l H. destruct (scan_split g l) as (ys & [->|(er & ->)]); [|left; eexists; reflexivity|right; eexists; reflexivity].
  intros a Ha. exists (g a). split; [reflexivity|]. destruct (H a Ha) as [[b ->]|[er ->]]; exact Logic.I.
Qed.

Lemma total_seq : forall k t, wf_ty (TySeq k t) -> total t -> total (TySeq k t).
Proof.
  intros k t W T v x O Tx S. inversion Tx as [| | | | | | | | | | |k' t' l Tl Ts| |]; subst. inversion W as [| | | | | | | | |? ? Wt Ws Wu| |]; subst.
  destruct (items_dec v) as [[vs I]|N0].
  - pose proof (items_ordered v vs I O) as Ov. rewrite (from_seq e k t v vs l I). cbn [snd].
    assert (Sf : forall w, In w vs -> safe t w).
    { intros w Hw. eapply safe_items; eassumption. }
    assert (G : forall w, In w vs -> defined (get e t w)) by (intros w Hw; apply total_get; auto).
    assert (Z : k = KSet \/ k = KUSet -> defined (snd (scan (get_cmp e t) vs))).
    { intro K. apply total_scan. intros w Hw. unfold get_cmp. destruct (G w Hw) as [[y E]|[er E]]; rewrite E; cbn [bind]; [|right; eauto].
      replace (ceqb y y) with true; [left; eauto|]. symmetry.
      assert (R : reads t w (dflt t) y) by (apply (fwd_get e t Wt (fwd_ok e t Wt) w (Ov w Hw)), E).
      assert (Ot : ordered_ty t) by (destruct K as [->| ->]; [auto|apply hashed_ordered; auto]).
      apply (reads_self t Ot w (dflt t) y R); [|apply self_dflt, Ot].
      intros [Hf Hn]. destruct K as [->| ->]; [|apply (hashed_no_float t (Wu eq_refl) Hf)].
      apply S. eapply ns_here; eassumption. }
    pose proof (total_scan _ _ (get e t) vs G) as Sc.
    destruct k; cbn [seq_read]; try (destruct (scan (get e t) vs); exact Sc).
    + assert (G' : defined (snd (scan (get e t) (rev vs)))) by (apply total_scan; intros w Hw; apply G, in_rev, Hw).
      destruct (scan (get e t) (rev vs)); exact G'.
    + specialize (Z (or_introl eq_refl)). destruct (scan (get_cmp e t) vs); exact Z.
    + specialize (Z (or_intror eq_refl)). destruct (scan (get_cmp e t) vs); exact Z.
  - rewrite (from_seq_kind e k t v l N0). right. eexists. reflexivity.
Qed.

Lemma total_fields : forall fs, Forall (fun f => total (snd f)) fs -> forall v l, ordered v ->
  Forall2 (fun f x => typed (snd f) x) fs l -> fields_safe fs v ->
  defined (snd (fields_of e v fs l)).
Proof.
  induction fs as [|[[n req] t] fs IH]; intros Tf v l O T S; inversion T as [|? x ? l0 Tx Tl]; subst; [left; eexists; reflexivity|].
  inversion Tf as [|? ? Tt Tfs]; subst. cbn [snd] in *.
  assert (I : defined (snd (fields_of e v fs l0))).
  { apply IH; try assumption. eapply fields_safe_tail; eassumption. }
  clear IH. cbn [fields_of]. destruct (fields_of e v fs l0) as [r o] eqn:Er. cbn [snd] in I. destruct (req || (0 <? v_count n v)); [|exact I].
  destruct (obj_or_not v) as [[m ->]|Ty].
  - destruct (obj_find n m) as [w|] eqn:Fn.
    + rewrite (at_key_obj _ _ _ Fn).
      assert (D : defined (snd (from_val e t w x))).
      { apply Tt; try assumption; [eapply ordered_find; eassumption|].
        apply find_in' in Fn. apply (S n req t m w); [left; reflexivity|reflexivity|assumption]. }
      destruct (from_val e t w x) as [x' o']. cbn [snd] in D. destruct D as [[[] ->]|[er ->]]; exact I.
    + rewrite (at_key_missing _ _ Fn). right. eexists. reflexivity.
  - rewrite (at_key_kind n v Ty). right. eexists. reflexivity.
Qed.

Theorem total_ok : forall t, wf_ty t -> total t.
Proof.
  induction t as [|w sg| | | | |raw|t IH|n t IH|k t IH|h t IH|fs IH] using cty_deep; intro W;
    try (intros v x O T S; destruct v; cbn [from_val snd]; (left; eexists; reflexivity) || (right; eexists; reflexivity)).
  - intros v x O T S. destruct raw, v; cbn [from_val snd]; (left; eexists; reflexivity) || (right; eexists; reflexivity).
  - inversion W; subst. intros v x O T S. destruct (value_null_dec v) as [->|Nv]; [left; eexists; reflexivity|].
    assert (E : from_val e (TyPtr t) v x = assign x (get e t v) (fun y => CPtr (Some y))) by (destruct v; try reflexivity; destruct Nv; reflexivity).
    rewrite E. assert (St : safe t v) by (apply safe_ptr; assumption).
    destruct (total_get t H0 (IH H0) v O St) as [[y ->]|[er ->]]; [left|right]; eexists; reflexivity.
  - inversion W; subst. intros v x O T S. inversion T as [| | | | | | | | | |n' t' l Ln Tl| | |]; subst n' t' x.
    destruct (items_dec v) as [[vs I]|N0].
    + pose proof (items_ordered v vs I O) as Ov. rewrite (from_array e n t v vs l I Ln).
      assert (D : defined (snd (scan (get e t) (firstn n vs)))).
      { apply total_scan. intros w Hw. assert (Iw : In w vs) by (rewrite <- (firstn_skipn n vs); apply in_or_app; left; assumption).
        apply total_get; auto. eapply safe_array; eassumption. }
      destruct (scan (get e t) (firstn n vs)). exact D.
    + destruct n as [|n]; [rewrite from_array0; left; eexists; reflexivity|].
      rewrite (from_array_kind e (Datatypes.S n) t v l N0) by discriminate. right. eexists. reflexivity.
  - inversion W; subst. apply total_seq; auto.
  - inversion W; subst. intros v x O T S. inversion T as [| | | | | | | | | | | |h' t' m Tm Ts|]; subst.
    destruct (obj_or_not v) as [[o ->]|Ty].
    + rewrite (from_map e h t o m O). cbn [snd]. apply total_scan. intros [k w] Hw. unfold pair_get. cbn [fst snd].
      assert (Ow : ordered w) by (inversion O; subst; eauto).
      assert (Sw : safe t w) by (eapply safe_entry; eassumption).
      destruct (total_get t H0 (IH H0) w Ow Sw) as [[y ->]|[er ->]]; [left|right]; eexists; reflexivity.
    + assert (D : seq_items v [] \/ ~ seq_items v []).
      { destruct (items_dec v) as [[[|a vs] I]|N0]; [left; assumption|right; intro X; pose proof (items_det _ _ _ I X); discriminate|right; apply N0]. }
      destruct D as [I|Ni].
      * rewrite (from_map_none e h t v m I). left. eexists. reflexivity.
      * destruct (from_map_kind e h t v m O Ty Ni) as (w & es & El & [E|[E G]]); rewrite E; [right; eexists; reflexivity|].
        assert (Ow : ordered w) by (apply (elem_ordered v _ El O None); left; reflexivity).
        assert (Sw : safe t w) by (eapply (safe_elem h t v _ None); [eassumption|assumption|left; reflexivity]).
        destruct (total_get t H0 (IH H0) w Ow Sw) as [[y ->]|[er ->]]; [left|right]; eexists; reflexivity.
  - inversion W as [| | | | | | | | | | |fs' Nd Wf]; subst. intros v x O T S. inversion T; subst. rewrite from_struct. cbn [snd].
    apply total_fields; try assumption.
    + clear - IH Wf. induction IH; constructor; inversion Wf; subst; auto.
    + apply safe_fields. assumption.
Qed.

(** ** Conversely, what the specification says is done *)
Definition bwd (t : cty) : Prop := forall v x, ordered v -> typed t x -> safe t v ->
  (forall y, reads t v x y -> from_val e t v x = (y, Ret tt)) /\
  (forall y c, breaks t v x y c -> exists er, from_val e t v x = (y, Throw er)).

Section Bwd.
Variable t : cty.
Hypothesis W : wf_ty t.
Hypothesis R : bwd t.
Lemma bwd_get : forall v, ordered v -> safe t v ->
  (forall y, reads t v (dflt t) y -> get e t v = Ret y) /\
  (forall y c, breaks t v (dflt t) y c -> exists er, get e t v = Throw er).
Proof.
  intros v O S. destruct (R v (dflt t) O (dflt_typed t W) S) as (R1 & R2). split.
  - intros y H. apply get_ret, R1, H.
  - intros y c H. destruct (R2 y c H) as [er E]. exists er. apply get_throw. eauto.
Qed.
Lemma bwd_all : forall vs ys, (forall x, In x vs -> ordered x /\ safe t x) -> Forall2 (fun v y => reads t v (dflt t) y) vs ys ->
  Forall2 (fun v y => get e t v = Ret y) vs ys.
Proof. intros vs ys O F. eapply Forall2_in; [exact F|]. intros a b Ha H. destruct (O a Ha). apply (bwd_get a); assumption. Qed.
Lemma bwd_stop : forall vs1 w vs2 ys y c, (forall x, In x (vs1 ++ w :: vs2) -> ordered x /\ safe t x) ->
  Forall2 (fun v y => reads t v (dflt t) y) vs1 ys -> breaks t w (dflt t) y c ->
  exists er, scan (get e t) (vs1 ++ w :: vs2) = (ys, Throw er).
Proof.
  intros vs1 w vs2 ys y c O F B. destruct (O w) as [Ow Sw]; [apply in_or_app; right; left; reflexivity|].
  destruct (bwd_get w Ow Sw) as (_ & G). destruct (G y c B) as [er E]. exists er. apply scan_stop.
  exists vs1, w, vs2. split; [reflexivity|]. split; [|assumption]. apply bwd_all; [|assumption].
  intros x Hx. apply O, in_or_app. left. assumption.
Qed.
Lemma bwd_stop_cmp : forall vs1 w vs2 ys y c, (forall x, In x (vs1 ++ w :: vs2) -> ordered x /\ safe t x) ->
  Forall2 (fun v y => reads t v (dflt t) y) vs1 ys -> Forall (fun y => ceqb y y = true) ys -> breaks t w (dflt t) y c ->
  exists er, scan (get_cmp e t) (vs1 ++ w :: vs2) = (ys, Throw er).
Proof.
  intros vs1 w vs2 ys y c O F C B. destruct (O w) as [Ow Sw]; [apply in_or_app; right; left; reflexivity|].
  destruct (bwd_get w Ow Sw) as (_ & G). destruct (G y c B) as [er E]. exists er. apply scan_stop.
  exists vs1, w, vs2. split; [reflexivity|]. split; [|apply get_cmp_throw; assumption]. apply cmp_forall. split; [|assumption].
  apply bwd_all; [|assumption]. intros x Hx. apply O, in_or_app. left. assumption.
Qed.
Lemma bwd_pairs : forall o ps, (forall k x, In (k, x) o -> ordered x /\ safe t x) ->
  Forall2 (fun q p => fst p = fst q /\ reads t (snd q) (dflt t) (snd p)) o ps ->
  Forall2 (fun q p => pair_get e t q = Ret p) o ps.
Proof.
  intros o ps O F. eapply Forall2_in; [exact F|]. intros [k a] b Ha [H1 H2]. apply pair_ret. split; [assumption|].
  destruct (O k a Ha). apply (bwd_get a); assumption.
Qed.
End Bwd.

Lemma bwd_seq : forall k t, wf_ty (TySeq k t) -> bwd t -> bwd (TySeq k t).
Proof.
  intros k t W R v x O Tx S. inversion Tx as [| | | | | | | | | | |k' t' l Tl Ts| |]; subst. inversion W as [| | | | | | | | |? ? Wt Ws Wu| |]; subst.
  assert (OS : forall vs, seq_items v vs -> forall w, In w vs -> ordered w /\ safe t w).
  { intros vs I w Hw. split; [eapply items_ordered; eassumption|eapply safe_items; eassumption]. }
  split.
  - intros y H. inversion H as [| | | | | | | | | | | | | |? ? ? vs ys ? K1 K2 I F|? ? ? vs ys ? K I F C| |]; subst.
    + specialize (OS vs I). rewrite (from_seq e k t v vs l I). destruct k; try congruence; cbn [seq_read].
      * pose proof (bwd_all t Wt R vs ys OS F) as F'. rewrite (proj2 (scan_ret _ _ _) F'). cbn [fst snd].
        rewrite (vec_all KVector) by (auto || (symmetry; eapply Forall2_len; eassumption)). reflexivity.
      * pose proof (bwd_all t Wt R vs ys OS F) as F'. rewrite (proj2 (scan_ret _ _ _) F'). cbn [fst snd].
        rewrite (vec_all KVector) by (auto || (symmetry; eapply Forall2_len; eassumption)). reflexivity.
      * pose proof (bwd_all t Wt R vs ys OS F) as F'. rewrite (proj2 (scan_ret _ _ _) F'). reflexivity.
      * pose proof (bwd_all t Wt R vs ys OS F) as F'. apply Forall2_rev' in F'. rewrite (proj2 (scan_ret _ _ _) F'). cbn [fst snd].
        rewrite rev_involutive. reflexivity.
    + specialize (OS vs I). rewrite (from_seq e k t v vs l I).
      assert (F' : Forall2 (fun a b => get_cmp e t a = Ret b) vs ys) by (apply cmp_forall; split; [apply bwd_all; assumption|assumption]).
      destruct K as [->| ->]; cbn [seq_read]; rewrite (proj2 (scan_ret _ _ _) F'); reflexivity.
  - intros y c H. inversion H; subst.
    + match goal with N : no_seq_items _ |- _ => rewrite (from_seq_kind e k t v l N) end. exists not_array.
      match goal with K : _ \/ _ |- _ => destruct K as [->| ->] end; reflexivity.
    + match goal with I : seq_items _ _ |- _ => specialize (OS _ I); rewrite (from_seq e k t v _ l I) end.
      destruct (bwd_stop t Wt R vs w rest ys y0 c) as [er E]; try assumption.
      exists er. match goal with K : _ \/ _ |- _ => destruct K as [->| ->] end; cbn [seq_read]; rewrite E; reflexivity.
    + match goal with N : no_seq_items _ |- _ => rewrite (from_seq_kind e k t v l N) end. exists not_array.
      destruct k; try congruence; reflexivity.
    + match goal with I : seq_items _ _ |- _ => specialize (OS _ I); rewrite (from_seq e KList t v _ l I) end.
      destruct (bwd_stop t Wt R vs w rest ys y0 c) as [er E]; try assumption.
      exists er. cbn [seq_read]. rewrite E. reflexivity.
    + match goal with I : seq_items _ _ |- _ => specialize (OS _ I); rewrite (from_seq e KForward t v _ l I) end.
      destruct (bwd_stop t Wt R (rev rest) w (rev vs) (rev ys) y0 c) as [er E]; try assumption.
      * intros a Ha. apply OS. apply in_app_or in Ha. apply in_or_app. cbn [In] in *. rewrite <- !in_rev in Ha. tauto.
      * apply Forall2_rev'. assumption.
      * exists er. cbn [seq_read]. rewrite rev_app_distr. cbn [rev]. rewrite <- app_assoc. cbn [app]. rewrite E. cbn [fst snd].
        rewrite rev_involutive. reflexivity.
    + match goal with I : seq_items _ _ |- _ => specialize (OS _ I); rewrite (from_seq e k t v _ l I) end.
      destruct (bwd_stop_cmp t Wt R vs w rest ys y0 c) as [er E]; try assumption.
      exists er. match goal with K : _ \/ _ |- _ => destruct K as [->| ->] end; cbn [seq_read]; rewrite E; reflexivity.
Qed.

Lemma firstn_split : forall A (a : list A) w b n, (length a < n)%nat -> exists b', firstn n (a ++ w :: b) = a ++ w :: b'.
Proof.
  intros A a w b n L. rewrite firstn_app. rewrite (firstn_all2 a) by lia. destruct (n - length a)%nat as [|m] eqn:E; [lia|].
  cbn [firstn]. eexists. reflexivity.
Qed.

Lemma bwd_array : forall n t, wf_ty t -> bwd t -> bwd (TyArray n t).
Proof.
  intros n t W R v x O T S. inversion T as [| | | | | | | | | |n' t' l Ln Tl| | |]; subst n' t' x.
  assert (OS : forall vs, seq_items v vs -> forall w, In w vs -> ordered w /\ safe t w).
  { intros vs I w Hw. split; [eapply items_ordered; eassumption|eapply safe_array; eassumption]. }
  split.
  - intros y H. inversion H as [| | | | | | | | | | | |? ? ? vs ys ? I F| | | | |]; subst.
    + specialize (OS vs I). rewrite (from_array e (length l) t v vs l I eq_refl).
      assert (F' : Forall2 (fun v y => get e t v = Ret y) (firstn (length l) vs) ys).
      { apply bwd_all; try assumption. intros w Hw. apply OS. rewrite <- (firstn_skipn (length l) vs). apply in_or_app. left. assumption. }
      rewrite (proj2 (scan_ret _ _ _) F'). reflexivity.
    + apply from_array0.
  - intros y c H. inversion H; subst.
    + match goal with N : no_seq_items _ |- _ => rewrite (from_array_kind e (length l) t v l N) end; [eauto|assumption].
    + match goal with I : seq_items _ _ |- _ => specialize (OS _ I); rewrite (from_array e (length l) t v _ l I eq_refl) end.
      destruct (firstn_split _ vs w rest (length l)) as [b E]; [assumption|].
      destruct (bwd_stop t W R vs w b ys y0 c) as [er Er]; try assumption.
      * intros a Ha. apply OS. rewrite <- (firstn_skipn (length l)). rewrite E. apply in_or_app. left. assumption.
      * exists er. rewrite E, Er. reflexivity.
Qed.

Lemma bwd_map : forall h t, wf_ty t -> bwd t -> bwd (TyMap h t).
Proof.
  intros h t W R v x O T S. pose proof (total_ok (TyMap h t) (wt_map h t W) v x O T S) as Df.
  inversion T as [| | | | | | | | | | | |h' t' m Tm Ts|]; subst. apply ss_sorted in Ts.
  assert (OS : forall o, v = VObj o -> forall k w, In (k, w) o -> ordered w /\ safe t w).
  { intros o -> k w Hw. split; [inversion O; subst; eauto|eapply safe_entry; eassumption]. }
  assert (Kind : type_of v <> TObject -> ~ seq_items v [] -> exists er, from_val e (TyMap h t) v (CMap m) = (CMap m, Throw er)).
  { intros Ty Ni. destruct (from_map_kind e h t v m O Ty Ni) as (w & es & El & [E|[E G]]); rewrite E in *; [eauto|].
    cbn [snd] in Df. destruct (get e t w) as [y'|er'| | |]; cbn [void bind] in *; try (destruct (G y'); reflexivity); [eauto| | |];
      destruct Df as [[? D]|[? D]]; discriminate D. }
  split.
  - intros y H. inversion H as [| | | | | | | | | | | | | | | |? ? ? o ps ? m' Hv F M|]; subst. apply emplaces_iff in M; [|assumption]. subst m'.
    destruct Hv as [->|[I ->]].
    + rewrite (from_map e h t o m O). pose proof (bwd_pairs t W R o ps (OS o eq_refl) F) as F'.
      rewrite (proj2 (scan_ret _ _ _) F'). reflexivity.
    + inversion F; subst. apply from_map_none. assumption.
  - intros y c H. inversion H; subst.
    + apply Kind; assumption.
    + apply Kind; [assumption|]. intro I. pose proof (items_size _ _ I) as Sz.
      match goal with El : elements v _ |- _ => pose proof (elements_size _ _ El) as Sz' end. cbn [length] in Sz'.
      change (len (@nil value)) with 0 in Sz. lia.
    + match goal with M : map_of _ _ |- _ => apply emplaces_iff in M; [|assumption]; subst end.
      rewrite (from_map e h t _ m O). destruct (OS _ eq_refl k w) as [Ow Sw]; [apply in_or_app; right; left; reflexivity|].
      destruct (bwd_get t W R w Ow Sw) as (_ & G). destruct (G y0 c) as [er E]; [assumption|]. exists er.
      assert (Sc : scan (pair_get e t) (o ++ (k, w) :: rest) = (ps, Throw er)).
      { apply scan_stop. exists o, (k, w), rest. split; [reflexivity|]. split.
        - apply bwd_pairs; try assumption. intros k' x' Hx. apply (OS _ eq_refl k'), in_or_app. left. assumption.
        - apply pair_throw. assumption. }
      rewrite Sc. reflexivity.
Qed.

Lemma bwd_fields : forall fs, Forall (fun f => bwd (snd f)) fs -> forall v l, ordered v ->
  Forall2 (fun f x => typed (snd f) x) fs l -> fields_safe fs v ->
  (forall l', read_fields v fs l l' -> fields_of e v fs l = (l', Ret tt)) /\
  (forall l' c, break_fields v fs l l' c -> exists er, fields_of e v fs l = (l', Throw er)).
Proof.
  induction fs as [|[[n req] t] fs IH]; intros Tf v l O T S; inversion T as [|? x ? l0 Tx Tl]; subst.
  { split; intros; inversion H; reflexivity. }
  inversion Tf as [|? ? Tt Tfs]; subst. cbn [snd] in *.
  assert (S' : fields_safe fs v) by (eapply fields_safe_tail; eassumption).
  destruct (IH Tfs v l0 O Tl S') as [I1 I2]. clear IH.
  assert (P : forall o w, v = VObj o -> In (n, w) o -> at_key n v = Ret w /\ (0 <? v_count n v) = true /\ ordered w /\ safe t w).
  { intros o w -> Hw. assert (So : sorted o) by (inversion O; assumption). pose proof (proj2 (find_in _ n w o So) Hw) as Fn.
    split; [apply at_key_obj; assumption|]. split; [cbn [v_count]; rewrite Fn; reflexivity|]. split; [eapply ordered_find; eassumption|].
    apply (S n req t o w); [left; reflexivity|reflexivity|assumption]. }
  assert (A : (forall o w, v = VObj o -> ~ In (n, w) o) -> (0 <? v_count n v) = false).
  { intro A. destruct (obj_or_not v) as [[o ->]|Ty]; [|rewrite count_kind by assumption; reflexivity]. cbn [v_count].
    rewrite (proj2 (find_no _ n o)); [reflexivity|]. intros w. apply (A o w eq_refl). }
  assert (Rd : forall o w y, v = VObj o -> In (n, w) o -> (reads t w x y \/ exists c, breaks t w x y c) ->
    fields_of e v ((n, req, t) :: fs) (x :: l0) = let '(r, out) := fields_of e v fs l0 in (y :: r, out)).
  { intros o w y Ev Hw H. destruct (P o w Ev Hw) as (P1 & P2 & P3 & P4). cbn [fields_of]. rewrite P2, orb_true_r, P1.
    destruct (Tt w x P3 Tx P4) as [B1 B2]. destruct H as [H|[c H]].
    - rewrite (B1 y H). reflexivity.
    - destruct (B2 y c H) as [er ->]. reflexivity. }
  split.
  - intros l' H. inversion H; subst.
    + erewrite Rd by (reflexivity || eassumption || (left; eassumption)). rewrite (I1 l'0) by assumption. reflexivity.
    + erewrite Rd by (reflexivity || eassumption || (right; eexists; eassumption)). rewrite (I1 l'0) by assumption. reflexivity.
    + cbn [fields_of orb]. rewrite A by assumption. rewrite (I1 l'0) by assumption. reflexivity.
  - intros l' c H. inversion H; subst.
    + cbn [fields_of orb]. rewrite (at_key_kind n v) by assumption. eexists. reflexivity.
    + cbn [fields_of orb]. rewrite (at_key_missing n o) by (apply find_no; assumption). eexists. reflexivity.
    + erewrite Rd by (reflexivity || eassumption || (left; eassumption)). destruct (I2 l'0 c) as [er ->]; [assumption|]. eexists. reflexivity.
    + erewrite Rd by (reflexivity || eassumption || (right; eexists; eassumption)). destruct (I2 l'0 c) as [er ->]; [assumption|]. eexists. reflexivity.
    + cbn [fields_of orb]. rewrite A by assumption. destruct (I2 l'0 c) as [er ->]; [assumption|]. eexists. reflexivity.
Qed.

Theorem bwd_ok : forall t, wf_ty t -> bwd t.
Proof.
  induction t as [|w sg| | | | |raw|t IH|n t IH|k t IH|h t IH|fs IH] using cty_deep; intro W;
    try (intros v x O T S; split; [intros y H; inversion H; subst; reflexivity
      |intros y c H; inversion H; subst; eexists; destruct v; cbn [type_of] in *; try congruence; reflexivity]).
  - intros v x O T S. split.
    + intros y H. inversion H; subst. cbn [from_val].
      match goal with St : stored _ _ _ _ |- _ => apply stored_wrap in St; [subst; reflexivity|eapply wf_width; eassumption] end.
    + intros y c H. inversion H; subst; eexists; destruct v; cbn [type_of] in *; try congruence; reflexivity.
  - inversion W; subst. intros v x O T S.
    assert (E : v <> VNull -> from_val e (TyPtr t) v x = assign x (get e t v) (fun y => CPtr (Some y))) by (intro Nv; destruct v; try reflexivity; destruct Nv; reflexivity).
    assert (St : safe t v) by (apply safe_ptr; assumption).
    destruct (bwd_get t H0 (IH H0) v O St) as [G1 G2]. split.
    + intros y H. inversion H; subst; [reflexivity|]. rewrite E by assumption. erewrite G1 by eassumption. reflexivity.
    + intros y c H. inversion H; subst. rewrite E by assumption. edestruct G2 as [er ->]; [eassumption|]. eexists. reflexivity.
  - inversion W; subst. apply bwd_array; auto.
  - apply bwd_seq; [assumption|]. inversion W; auto.
  - inversion W; subst. apply bwd_map; auto.
  - inversion W as [| | | | | | | | | | |fs' Nd Wf]; subst. intros v x O T S. inversion T; subst.
    destruct (bwd_fields fs) with (v := v) (l := l) as [F1 F2]; try assumption.
    { clear - IH Wf. induction IH; constructor; inversion Wf; subst; auto. }
    { apply safe_fields. assumption. }
    rewrite from_struct. split.
    + intros y H. inversion H; subst. rewrite (F1 l') by assumption. reflexivity.
    + intros y c H. inversion H; subst. destruct (F2 l' c) as [er ->]; [assumption|]. eexists. reflexivity.
Qed.
End Env.
