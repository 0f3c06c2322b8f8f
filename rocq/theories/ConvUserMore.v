(** Classes with hand-written conversions: nothing but exceptions, round
    trips, and agreement with the types of Convert.v. *)
From Coq Require Import Sorted Permutation Lia ZifyBool ZifyNat ZifyN.
From Verif Require Import Base Value Compare ValueOps Iterator SpecGrammar SpecText ObjFacts SpecValue ValueProofs SpecIter IterProofs
  SpecCompare CompareProofs Cpp Convert SpecConv ConvOrder ConvFloat ConvTo ConvFrom ConvRead ConvMain ConvThm ConvUser SpecConvUser ConvUserProofs.
Open Scope N_scope.

(** ** Outcomes *)
Lemma runs_fine : forall A B (f : A -> outcome B) (E : exn -> Prop) (Q : B -> Prop) l bs rest o, runs f l bs rest o ->
  (forall a, In a l -> (exists b, f a = Ret b /\ Q b) \/ (exists er, f a = Throw er /\ E er)) -> Forall Q bs /\ fine E o.
Proof.
  intros A B f E Q l bs rest o H. induction H as [|a b l bs rest o Ea H IH|a l o Ea]; intro G.
  - split; [constructor|left; reflexivity].
  - destruct IH as [F O]; [intros x X; apply G; right; assumption|]. split; [|assumption]. constructor; [|assumption].
    destruct (G a (or_introl eq_refl)) as [(b' & Eb & Qb)|(er & Eb & _)]; congruence.
  - split; [constructor|]. destruct (G a (or_introl eq_refl)) as [(b' & Eb & Qb)|(er & Eb & Xe)]; rewrite Eb in Ea; [contradiction|].
    destruct o as [[]|er'| | |]; cbn in Ea; try contradiction. subst. right. eauto.
Qed.
Lemma named_fine : forall A B (f : A -> outcome B) (E : exn -> Prop) (Q : B -> Prop) p,
  (exists b, f (snd p) = Ret b /\ Q b) \/ (exists er, f (snd p) = Throw er /\ E er) ->
  (exists b, named f p = Ret b /\ Q (snd b)) \/ (exists er, named f p = Throw er /\ E er).
Proof.
  intros A B f E Q p [(b & H & Qb)|(er & H & X)]; unfold named; rewrite H; [left|right]; eexists; (split; [reflexivity|assumption]).
Qed.

Lemma of_into_behaves : forall (E : exn -> Prop) (P : cval -> Prop) to into z d,
  P z ->
  (forall x, P x -> exists v o, to x VNull = (v, o) /\ fine E o /\ (o = Ret tt -> ordered v)) ->
  (forall v x, ordered v -> P x -> exists y o, into v x = (y, o) /\ P y /\ fine E o) ->
  behaves E P (of_into to into z d).
Proof.
  intros E P to into z d Z T I. constructor; cbn [of_into zero get_ into_ to_].
  - assumption.
  - intros x X. unfold make. cbn [of_into to_]. destruct (T x X) as (v & o & -> & [->|(er & -> & Ee)] & O).
    + left. exists v. split; [reflexivity|auto].
    + right. exists er. split; [reflexivity|assumption].
  - intros v O. destruct (I v z O Z) as (y & o & -> & Py & [->|(er & -> & Ee)]); [left; exists y|right; exists er]; (split; [reflexivity|assumption]).
  - exact I.
Qed.

Lemma firstn_forall : forall A (P : A -> Prop) n l, Forall P l -> Forall P (firstn n l).
Proof. intros A P n l H. revert n. induction H; intros [|n]; cbn [firstn]; constructor; auto. Qed.
Lemma skipn_forall : forall A (P : A -> Prop) n l, Forall P l -> Forall P (skipn n l).
Proof. intros A P n l H. revert n. induction H; intros [|n]; cbn [skipn]; try constructor; auto. Qed.
Lemma resize_forall : forall (P : cval -> Prop) z n l, P z -> Forall P l -> Forall P (resize z n l).
Proof.
  intros P z n l Z H. unfold resize. apply Forall_app. split; [apply firstn_forall; assumption|].
  apply Forall_forall. intros x X. apply repeat_spec in X. subst. assumption.
Qed.
Lemma ordered_arr : forall vs, Forall ordered vs -> ordered (VArr vs).
Proof. intros vs H. constructor. rewrite Forall_forall in H. assumption. Qed.
Lemma ordered_map : forall ps w, map_of ps w -> Forall (fun p => ordered (snd p)) ps -> ordered (VObj w).
Proof.
  intros ps w [S M] F. constructor; [assumption|]. intros k v I. rewrite Forall_forall in F.
  assert (A : assoc k v w) by (apply find_iff, find_in; assumption). apply M in A. apply find_iff, find_in' in A. exact (F _ A).
Qed.

Section Lib.
Variables (e : env) (rf : bool) (E : exn -> Prop).
Hypothesis Lib : forall er, complaint er -> E er.

Lemma write_seq_fine : forall P t l, behaves E P t -> Forall P l ->
  exists v o, store_seq rf (fun y => to_ t y VNull) 0 l (of_type TArray) = (v, o) /\ fine E o /\ (o = Ret tt -> ordered v).
Proof.
  intros P t l B F. destruct (runs_total _ _ (make t) l) as (vs & rest & o & R).
  destruct (runs_fine _ _ _ E ordered _ _ _ _ R) as [Fo O].
  { intros a I. apply (b_make _ _ _ B). rewrite Forall_forall in F. auto. }
  eexists. eexists. split; [exact (store_seq_runs rf t l vs rest o [] R)|]. split; [assumption|].
  intro X. destruct (runs_ret _ _ _ _ _ _ _ R) as [[Rr _] _]. rewrite (Rr X). cbn [hole app]. rewrite app_nil_r.
  apply ordered_arr. assumption.
Qed.
Lemma read_fine : forall P t v vs, behaves E P t -> ordered v -> seq_items v vs -> forall us, incl us vs -> forall ys rest o, runs (get_ t) us ys rest o ->
  Forall P ys /\ fine E o.
Proof.
  intros P t v vs B O I us Hi ys rest o R. apply (runs_fine _ _ _ E P _ _ _ _ R).
  intros a A. apply (b_get _ _ _ B). apply (items_ordered v vs I O). auto.
Qed.

Lemma seq_behaves : forall P t k d, k <> KSet -> k <> KUSet -> behaves E P t -> behaves E (seq_objects P) (seq_conv rf k t d).
Proof.
  intros P t k d K1 K2 B. apply of_into_behaves.
  - constructor. constructor.
  - intros x [l F]. exact (write_seq_fine P t l B F).
  - intros v x O [l F]. change (exists y o, into_ (seq_conv rf k t d) v (CSeq l) = (y, o) /\ seq_objects P y /\ fine E o).
    destruct (items_dec v) as [[vs I]|N0].
    + assert (V : k = KVector \/ k = KDeque \/ k = KList \/ k = KForward) by (destruct k; tauto).
      destruct (runs_total _ _ (get_ t) vs) as (ys & rest & o & R).
      destruct (read_fine P t v vs B O I vs (incl_refl _) ys rest o R) as [Fy Fo].
      destruct V as [V|[V|[->| ->]]].
      * rewrite (reads_vec rf k t d v vs l ys rest o (or_introl V) I R). eexists. eexists. split; [reflexivity|]. split; [|assumption].
        constructor. apply Forall_app. split; [assumption|]. apply skipn_forall, resize_forall; [apply (b_zero _ _ _ B)|assumption].
      * rewrite (reads_vec rf k t d v vs l ys rest o (or_intror V) I R). eexists. eexists. split; [reflexivity|]. split; [|assumption].
        constructor. apply Forall_app. split; [assumption|]. apply skipn_forall, resize_forall; [apply (b_zero _ _ _ B)|assumption].
      * rewrite (reads_list rf t d v vs l ys rest o I R). eexists. eexists. split; [reflexivity|]. split; [constructor|]; assumption.
      * clear ys rest o R Fy Fo. destruct (runs_total _ _ (get_ t) (rev vs)) as (ys & rest & o & R).
        destruct (read_fine P t v vs B O I (rev vs) (fun x X => proj2 (in_rev vs x) X) ys rest o R) as [Fy Fo].
        rewrite (reads_forward rf t d v vs l ys rest o I R). eexists. eexists. split; [reflexivity|]. split; [|assumption].
        constructor. apply Forall_rev. assumption.
    + rewrite reads_seq_kind by assumption. eexists. eexists. split; [reflexivity|]. split.
      * constructor. destruct k; try constructor; apply resize_forall; try assumption; apply (b_zero _ _ _ B).
      * right. exists not_array. split; [reflexivity|]. apply Lib. left. reflexivity.
Qed.
Lemma array_behaves : forall P t n d, behaves E P t -> behaves E (array_objects n P) (array_conv rf n t d).
Proof.
  intros P t n d B. apply of_into_behaves.
  - constructor; [apply repeat_length|]. apply Forall_forall. intros x X. apply repeat_spec in X. subst. apply (b_zero _ _ _ B).
  - intros x [l L F]. exact (write_seq_fine P t l B F).
  - intros v x O [l L F]. change (exists y o, into_ (array_conv rf n t d) v (CSeq l) = (y, o) /\ array_objects n P y /\ fine E o).
    destruct (items_dec v) as [[vs I]|N0].
    + destruct (runs_total _ _ (get_ t) (firstn n vs)) as (ys & rest & o & R).
      assert (Hi : incl (firstn n vs) vs) by (intros a A; rewrite <- (firstn_skipn n vs); apply in_or_app; left; assumption).
      destruct (read_fine P t v vs B O I _ Hi ys rest o R) as [Fy Fo].
      rewrite (reads_array rf n t d v vs l ys rest o I L R). eexists. eexists. split; [reflexivity|]. split; [|assumption].
      pose proof (scan_len _ _ (get_ t) (firstn n vs)) as SL. rewrite (scan_runs _ _ _ _ _ _ _ R) in SL. cbn [fst] in SL. rewrite firstn_length in SL.
      constructor; [rewrite app_length, skipn_length; lia|]. apply Forall_app. split; [assumption|]. apply skipn_forall. assumption.
    + destruct n as [|n].
      * rewrite reads_array0. eexists. eexists. split; [reflexivity|]. split; [constructor; assumption|left; reflexivity].
      * rewrite reads_array_kind by (assumption || discriminate). eexists. eexists. split; [reflexivity|]. split; [constructor; assumption|].
        right. exists not_array. split; [reflexivity|]. apply Lib. left. reflexivity.
Qed.
Lemma map_behaves : forall P t h d, fair e -> behaves E P t -> behaves E (map_objects P) (map_conv e rf h t d).
Proof.
  intros P t h d Fe B. apply of_into_behaves.
  - constructor; constructor.
  - intros x [m S F]. change (exists v o, to_ (map_conv e rf h t d) (CMap m) VNull = (v, o) /\ fine E o /\ (o = Ret tt -> ordered v)).
    destruct (runs_total _ _ (named (make t)) (iterated e h m)) as (ps & rest & o & R).
    destruct (runs_fine _ _ _ E (fun p => ordered (snd p)) _ _ _ _ R) as [Fo O].
    { intros a A. apply named_fine. apply (b_make _ _ _ B). rewrite Forall_forall in F.
      apply (F a). apply (Permutation_in _ (iterated_perm e h m Fe) A). }
    destruct (writes_map e rf h t d m VNull ps rest o Fe S R) as (w & -> & M).
    eexists. eexists. split; [reflexivity|]. split; [assumption|]. intro X.
    destruct (runs_ret _ _ _ _ _ _ _ R) as [[Rr _] _]. rewrite (Rr X) in M. cbn [named_hole] in M. rewrite app_nil_r in M.
    apply (ordered_map _ _ M Fo).
  - intros v x O [m S F]. change (exists y o, into_ (map_conv e rf h t d) v (CMap m) = (y, o) /\ map_objects P y /\ fine E o).
    destruct (obj_or_not v) as [[o ->]|Ty].
    + destruct (runs_total _ _ (named (get_ t)) o) as (ps & rest & r & R).
      destruct (runs_fine _ _ _ E (fun p => P (snd p)) _ _ _ _ R) as [Fo Or].
      { intros [k a] A. apply named_fine. apply (b_get _ _ _ B). inversion O as [| | | | | |? So Oo]; subst. exact (Oo k a A). }
      destruct (reads_map e rf h t d o m ps rest r O S R) as (m' & -> & [S' M]). eexists. eexists. split; [reflexivity|]. split; [|assumption].
      constructor; [assumption|]. apply Forall_forall. intros [k y] I.
      assert (A : assoc k y m') by (apply find_iff, find_in; assumption). apply M in A. apply find_iff, find_in' in A.
      apply in_app_or in A. rewrite Forall_forall in F, Fo. destruct A as [A|A]; [exact (F _ A)|exact (Fo _ A)].
    + assert (Nd : seq_items v [] \/ ~ seq_items v []).
      { destruct v as [|z|f|s|[|a l]|[|a l]|b]; try (right; intro X; inversion X; fail); left; constructor. }
      destruct Nd as [I|Ni].
      * rewrite reads_map_none by assumption. eexists. eexists. split; [reflexivity|]. split; [constructor; assumption|left; reflexivity].
      * destruct (reads_map_kind e rf h t d v m O Ty Ni) as (w & es & El & [->|(o & _ & Eo & ->)]).
        -- eexists. eexists. split; [reflexivity|]. split; [constructor; assumption|]. right. exists no_key. split; [reflexivity|]. apply Lib. do 3 right. reflexivity.
        -- eexists. eexists. split; [reflexivity|]. split; [constructor; assumption|].
           assert (Ow : ordered w) by (apply (elem_ordered v _ El O None w); left; reflexivity).
           destruct (b_get _ _ _ B w Ow) as [(y & Gy & _)|(er & Gy & Ee)]; rewrite Gy in Eo; [contradiction|].
           destruct o as [[]|er'| | |]; cbn in Eo; try contradiction. subst. right. eauto.
Qed.
Lemma ptr_behaves : forall P t, behaves E P t -> behaves E (ptr_objects P) (ptr_conv t).
Proof.
  intros P t B. apply of_into_behaves.
  - constructor.
  - intros x X. destruct X as [|x Px].
    + eexists. eexists. split; [reflexivity|]. split; [left; reflexivity|constructor].
    + change (exists v o, to_ (ptr_conv t) (CPtr (Some x)) VNull = (v, o) /\ fine E o /\ (o = Ret tt -> ordered v)).
      destruct (b_make _ _ _ B x Px) as [(v & M & O)|(er & M & Ee)].
      * rewrite (writes_ptr_some t x VNull v M). eexists. eexists. split; [reflexivity|]. split; [left; reflexivity|auto].
      * rewrite (writes_ptr_end t x VNull (Throw er)) by (rewrite M; reflexivity).
        eexists. eexists. split; [reflexivity|]. split; [right; eauto|discriminate].
  - intros v x O X. change (exists y o, into_ (ptr_conv t) v x = (y, o) /\ ptr_objects P y /\ fine E o).
    destruct (value_null_dec v) as [->|N].
    + eexists. eexists. split; [reflexivity|]. split; [constructor|left; reflexivity].
    + destruct (b_get _ _ _ B v O) as [(y & G & Py)|(er & G & Ee)].
      * rewrite (reads_ptr t v x y N G). eexists. eexists. split; [reflexivity|]. split; [constructor; assumption|left; reflexivity].
      * rewrite (reads_ptr_end t v x (Throw er) N) by (rewrite G; reflexivity).
        eexists. eexists. split; [reflexivity|]. split; [assumption|right; eauto].
Qed.

Lemma wanted_total : forall fs l, length l = length fs -> exists ws, wanted fs l ws.
Proof.
  induction fs as [|[[n req] t] fs IH]; intros [|x l] L; cbn [length] in L; try discriminate.
  - exists []. constructor.
  - destruct (IH l) as [ws W]; [lia|]. destruct req.
    + eexists. constructor; [left; reflexivity|eassumption].
    + destruct (differs t x) eqn:D; [eexists; apply wt_write; [right; assumption|eassumption]|exists ws; constructor; assumption].
Qed.
Lemma wanted_fine : forall fs Ps l ws, Forall2 (fun f P => behaves E P (snd f)) fs Ps -> Forall2 (fun P x => P x) Ps l -> wanted fs l ws ->
  forall a, In a ws -> (exists b, made (snd a) = Ret b /\ ordered b) \/ (exists er, made (snd a) = Throw er /\ E er).
Proof.
  intros fs Ps l ws B F W. revert Ps B F. induction W as [|n req t fs x l ws D W IH|n t fs x l ws D W IH]; intros Ps B F a I.
  - destruct I.
  - inversion B as [|? P ? ? Bt Bs]; subst. inversion F as [|? ? ? ? Px Fs]; subst. destruct I as [<-|I].
    + unfold made. cbn [fst snd]. apply (b_make _ _ _ Bt). assumption.
    + eapply IH; eassumption.
  - inversion B as [|? P ? ? Bt Bs]; subst. inversion F as [|? ? ? ? Px Fs]; subst. eapply IH; eassumption.
Qed.
Lemma fills_fine : forall fs Ps v l l' o, Forall2 (fun f P => behaves E P (snd f)) fs Ps -> Forall2 (fun P x => P x) Ps l -> ordered v ->
  fills v fs l l' o -> Forall2 (fun P x => P x) Ps l' /\ fine E o.
Proof.
  intros fs Ps v l l' o B F Od H. revert Ps B F.
  induction H as [v|m n req t fs w x y p l l' o I G P H IH|m n req t fs w x y p l I G P|v n t fs x l l' o A H IH|m n t fs x l A|v n t fs x l Ty]; intros Ps B F;
    inversion B as [|? Q ? Qs Bt Bs]; subst; inversion F as [|? ? ? ? Px Fs]; subst.
  - split; [constructor|left; reflexivity].
  - assert (Ow : ordered w) by (inversion Od as [| | | | | |? So Oo]; subst; exact (Oo n w I)).
    destruct (b_into _ _ _ Bt w x Ow Px) as (y' & o' & G' & Py & _). cbn [snd] in G'. rewrite G in G'. injection G' as <- <-.
    destruct (IH Od Qs Bs Fs) as [F' O']. split; [constructor; assumption|assumption].
  - assert (Ow : ordered w) by (inversion Od as [| | | | | |? So Oo]; subst; exact (Oo n w I)).
    destruct (b_into _ _ _ Bt w x Ow Px) as (y' & o' & G' & Py & [->|(er & -> & _)]); cbn [snd] in G'; rewrite G in G'; injection G' as <- ->;
      destruct P as [P|[P|P]]; discriminate.
  - destruct (IH Od Qs Bs Fs) as [F' O']. split; [constructor; assumption|assumption].
  - split; [constructor; assumption|]. right. exists no_member. split; [reflexivity|]. apply Lib. right. right. left. reflexivity.
  - split; [constructor; assumption|]. right. exists not_object. split; [reflexivity|]. apply Lib. right. left. reflexivity.
Qed.
Lemma struct_behaves : forall fs Ps d, NoDup (map (fun f => fst (fst f)) fs) -> Forall2 (fun f P => behaves E P (snd f)) fs Ps ->
  behaves E (struct_objects Ps) (struct_conv rf fs d).
Proof.
  intros fs Ps d N B. apply of_into_behaves.
  - constructor. induction B as [|f P fs Ps Bf B IH]; cbn [map]; constructor; [apply (b_zero _ _ _ Bf)|]. apply IH. inversion N; assumption.
  - intros x [l F]. change (exists v o, to_ (struct_conv rf fs d) (CRec l) VNull = (v, o) /\ fine E o /\ (o = Ret tt -> ordered v)).
    assert (L : length l = length fs) by (apply Forall2_len in B; apply Forall2_len in F; congruence).
    destruct (wanted_total fs l L) as [ws W]. destruct (runs_total _ _ (named made) ws) as (ps & rest & o & R).
    destruct (runs_fine _ _ _ E (fun p => ordered (snd p)) _ _ _ _ R) as [Fo O].
    { intros a A. apply named_fine. apply (wanted_fine fs Ps l ws B F W a A). }
    destruct (writes_struct rf fs d l ws ps rest o N W R) as (v & -> & V0 & V1).
    eexists. eexists. split; [reflexivity|]. split; [assumption|]. intro X.
    destruct (runs_ret _ _ _ _ _ _ _ R) as [[Rr _] _]. rewrite (Rr X) in *. cbn [named_hole] in *. rewrite app_nil_r in *.
    destruct ps as [|p ps]; [rewrite V0 by reflexivity; constructor|]. destruct V1 as (w & -> & M); [discriminate|].
    apply (ordered_map _ _ M Fo).
  - intros v x O [l F]. change (exists y o, into_ (struct_conv rf fs d) v (CRec l) = (y, o) /\ struct_objects Ps y /\ fine E o).
    assert (L : length l = length fs) by (apply Forall2_len in B; apply Forall2_len in F; congruence).
    destruct (fields_fill fs v l O L) as (l' & o & Eq & Fl). cbn [struct_conv of_into into_]. rewrite Eq.
    destruct (fills_fine fs Ps v l l' o B F O Fl) as [F' O']. eexists. eexists. split; [reflexivity|]. split; [constructor|]; assumption.
Qed.
End Lib.

(** ** Round trips *)
Lemma kept_list : forall t l, Forall (kept t) l ->
  exists vs, Forall2 (fun x v => make t x = Ret v) l vs /\ Forall ordered vs /\ Forall2 (fun v x => get_ t v = Ret x) vs l.
Proof.
  intros t l H. induction H as [|x l (v & M & O & G) H (vs & Ms & Os & Gs)].
  - exists []. repeat split; constructor.
  - exists (v :: vs). repeat split; constructor; assumption.
Qed.
Lemma to_kept : forall to into z d x v, to x VNull = (v, Ret tt) -> ordered v -> into v z = (x, Ret tt) ->
  kept (of_into to into z d) x /\ kept_in (of_into to into z d) x.
Proof.
  intros to into z d x v T O I. split; exists v; (split; [unfold make; cbn [of_into to_]; rewrite T; reflexivity|]); (split; [assumption|]);
    cbn [of_into get_ into_ zero]; rewrite ?I; reflexivity.
Qed.
Lemma skipn_end : forall A n (l : list A), (length l <= n)%nat -> skipn n l = [].
Proof. intros A n l L. apply skipn_all2. assumption. Qed.

Lemma seq_kept : forall rf k t d l, k <> KSet -> k <> KUSet -> Forall (kept t) l ->
  kept (seq_conv rf k t d) (CSeq l) /\ kept_in (seq_conv rf k t d) (CSeq l).
Proof.
  intros rf k t d l K1 K2 H. destruct (kept_list t l H) as (vs & Ms & Os & Gs).
  pose proof (runs_of_all _ _ _ _ _ Ms) as Rw. pose proof (runs_of_all _ _ _ _ _ Gs) as Rr.
  apply (to_kept _ _ _ _ _ (VArr vs)).
  - pose proof (writes_seq rf k t d l VNull vs [] (Ret tt) Rw) as W. cbn [hole] in W. rewrite app_nil_r in W. exact W.
  - apply ordered_arr. assumption.
  - change (into_ (seq_conv rf k t d) (VArr vs) (CSeq []) = (CSeq l, Ret tt)). pose proof (is_arr vs) as I.
    assert (V : (k = KVector \/ k = KDeque) \/ k = KList \/ k = KForward) by (destruct k; tauto). destruct V as [V|[->| ->]].
    + rewrite (reads_vec rf k t d _ vs [] l [] (Ret tt) V I Rr). rewrite skipn_end.
      * rewrite app_nil_r. reflexivity.
      * rewrite resize_length. apply Forall2_len in Gs. lia.
    + apply (reads_list rf t d _ vs [] l [] (Ret tt) I Rr).
    + rewrite (reads_forward rf t d _ vs [] (rev l) [] (Ret tt) I); [rewrite rev_involutive; reflexivity|].
      apply runs_of_all. apply Forall2_rev'. assumption.
Qed.
Lemma array_kept : forall rf n t d l, length l = n -> Forall (kept t) l ->
  kept (array_conv rf n t d) (CSeq l) /\ kept_in (array_conv rf n t d) (CSeq l).
Proof.
  intros rf n t d l L H. destruct (kept_list t l H) as (vs & Ms & Os & Gs).
  pose proof (runs_of_all _ _ _ _ _ Ms) as Rw. pose proof (runs_of_all _ _ _ _ _ Gs) as Rr.
  apply (to_kept _ _ _ _ _ (VArr vs)).
  - pose proof (writes_array rf n t d l VNull vs [] (Ret tt) Rw) as W. cbn [hole] in W. rewrite app_nil_r in W. exact W.
  - apply ordered_arr. assumption.
  - change (into_ (array_conv rf n t d) (VArr vs) (CSeq (repeat (zero t) n)) = (CSeq l, Ret tt)). pose proof (is_arr vs) as I.
    pose proof (Forall2_len _ _ _ _ _ Gs) as Lv.
    rewrite (reads_array rf n t d _ vs _ l [] (Ret tt) I (repeat_length _ _)).
    + rewrite skipn_end by (rewrite repeat_length; lia). rewrite app_nil_r. reflexivity.
    + rewrite firstn_all2 by lia. assumption.
Qed.
Lemma map_kept : forall e rf h t d m, fair e -> sorted m -> Forall (fun p => kept t (snd p)) m ->
  kept (map_conv e rf h t d) (CMap m) /\ kept_in (map_conv e rf h t d) (CMap m).
Proof.
  intros e rf h t d m F S H.
  assert (X : exists w, Forall2 (fun (p : str * cval) (q : str * value) => fst p = fst q /\ (make t (snd p) = Ret (snd q) /\ ordered (snd q) /\ get_ t (snd q) = Ret (snd p))) m w).
  { clear S. induction H as [|[k x] m (v & Hv) H (w & W)]; [exists []; constructor|]. exists ((k, v) :: w). constructor; [split; [reflexivity|exact Hv]|assumption]. }
  destruct X as [w W]. assert (Km : map fst m = map fst w) by (clear -W; induction W as [|p q m w [E _] W IH]; cbn [map]; [reflexivity|rewrite E, IH; reflexivity]).
  assert (Sw : sorted w) by (apply (sorted_keys _ _ m w Km S)).
  assert (Ow : ordered (VObj w)).
  { constructor; [assumption|]. intros k v I. clear -W I. induction W as [|p q m w (_ & _ & O & _) W IH]; [destruct I|]. destruct I as [I|I]; [rewrite I in O; exact O|auto]. }
  apply (to_kept _ _ _ _ _ (VObj w)).
  - destruct (Forall2_perm _ _ _ m (iterated e h m) w (Permutation_sym (iterated_perm e h m F)) W) as (ps & Pp & Wp).
    assert (R : runs (named (make t)) (iterated e h m) ps [] (Ret tt)).
    { apply runs_of_all. eapply Forall2_impl'; [|exact Wp]. intros [k x] [k' v] (E & M & _). cbn [fst snd] in *. subst k'. unfold named. cbn [fst snd]. rewrite M. reflexivity. }
    assert (S0 : sorted (@nil (str * value))) by constructor.
    pose proof (store_map_runs rf t _ ps [] (Ret tt) [] R S0 (iterated_nodup e h m F S) (fun k _ => eq_refl)) as Z.
    cbn [named_hole] in Z. rewrite app_nil_r, (set_all_perm w ps Sw Pp) in Z. exact Z.
  - assumption.
  - change (into_ (map_conv e rf h t d) (VObj w) (CMap []) = (CMap m, Ret tt)).
    assert (R : runs (named (get_ t)) w m [] (Ret tt)).
    { apply runs_of_all. clear -W. induction W as [|[k x] [k' v] m w (E & _ & _ & G) W IH]; constructor; [|assumption]. cbn [fst snd] in *. subst k'. unfold named. cbn [fst snd]. rewrite G. reflexivity. }
    assert (S0 : sorted (@nil (str * cval))) by constructor.
    destruct (reads_map e rf h t d w [] m [] (Ret tt) Ow S0 R) as (m' & -> & M).
    assert (M0 : map_of ([] ++ m) m) by (split; [assumption|tauto]).
    apply (emplaces_iff [] m _ S0) in M. apply (emplaces_iff [] m _ S0) in M0. congruence.
Qed.
Lemma ptr_kept_none : forall t, kept (ptr_conv t) (CPtr None) /\ kept_in (ptr_conv t) (CPtr None).
Proof. intro t. apply (to_kept _ _ _ _ _ VNull); [reflexivity|constructor|reflexivity]. Qed.
Lemma ptr_kept : forall t x, kept t x -> make t x <> Ret VNull -> kept (ptr_conv t) (CPtr (Some x)) /\ kept_in (ptr_conv t) (CPtr (Some x)).
Proof.
  intros t x (v & M & O & G) N. assert (Nv : v <> VNull) by (intros ->; contradiction).
  apply (to_kept _ _ _ _ _ v); [exact (writes_ptr_some t x VNull v M)|assumption|exact (reads_ptr t v (CPtr None) x Nv G)].
Qed.
(** the condition is needed *)
Lemma ptr_lost : forall t x, make t x = Ret VNull -> ~ kept (ptr_conv t) (CPtr (Some x)).
Proof.
  intros t x M (v & Mv & _ & G). pose proof (writes_ptr_some t x VNull VNull M) as W. unfold make in Mv. rewrite W in Mv. injection Mv as <-. discriminate.
Qed.

Definition holds (v : value) (n : str) (w : value) : Prop := exists m, v = VObj m /\ In (n, w) m.
Lemma fills_kept : forall fs l ws, wanted fs l ws -> forall ps, Forall2 (fun a b => named made a = Ret b) ws ps ->
  Forall2 field_kept fs l -> NoDup (map (fun f => fst (fst f)) fs) ->
  forall v, (forall n w, In (n, w) ps -> holds v n w) ->
  (forall n, In n (map (fun f : str * bool * conv => fst (fst f)) fs) -> ~ In n (map fst ps) -> absent n v) ->
  fills v fs (map (fun f => zero (snd f)) fs) l (Ret tt).
Proof.
  assert (Kn : forall ws ps, Forall2 (fun a b => named made a = Ret b) ws ps -> map fst ps = map fst ws).
  { intros ws ps H. induction H as [|a b ws ps E H IH]; cbn [map]; [reflexivity|]. apply named_ret in E. destruct E as [-> _]. rewrite IH. reflexivity. }
  assert (In_w : forall fs l ws, wanted fs l ws -> forall n, In n (map fst ws) -> In n (map (fun f : str * bool * conv => fst (fst f)) fs)).
  { intros fs l ws W. induction W; cbn [map fst]; intros j J; [destruct J|destruct J as [->|J]; [left; reflexivity|right; auto]|right; auto]. }
  intros fs l ws W. induction W as [|n req t fs x l ws D W IH|n t fs x l ws D W IH]; intros ps Hp K N v Hh Ha; cbn [map snd].
  - constructor.
  - inversion Hp as [|? q ? ps' E Hp']; subst. apply named_ret in E. cbn [fst snd] in E. destruct q as [n' w]. cbn [fst snd] in E. destruct E as [-> E].
    unfold made in E. cbn [fst snd] in E. cbn [map fst] in N, Ha. inversion N as [|? ? N1 N2]; subst. inversion K as [|? ? ? ? Kf Ks]; subst.
    destruct (Hh n w (or_introl eq_refl)) as (m & -> & I).
    destruct Kf as [[(v0 & M & O & G) _]|(Rq & Dq & _)]; cbn [fst snd] in *; [|destruct D; congruence].
    assert (v0 = w) by congruence. subst v0. eapply fl_read; [exact I|exact G|left; reflexivity|].
    apply (IH ps' Hp' Ks N2); [intros j u J; apply Hh; right; assumption|].
    intros j J Nj. apply Ha; [right; assumption|]. cbn [map fst]. intros [->|J']; contradiction.
  - cbn [map fst] in N, Ha. inversion N as [|? ? N1 N2]; subst. inversion K as [|? ? ? ? Kf Ks]; subst.
    destruct Kf as [[_ [Rq|Dq]]|(_ & _ & ->)]; cbn [fst snd] in *; [discriminate|congruence|].
    constructor.
    + apply Ha; [left; reflexivity|]. rewrite (Kn _ _ Hp). intro J. apply (In_w _ _ _ W) in J. contradiction.
    + apply (IH ps Hp Ks N2); [assumption|]. intros j J Nj. apply Ha; [right; assumption|assumption].
Qed.
Lemma wanted_kept : forall fs l ws, wanted fs l ws -> Forall2 field_kept fs l ->
  exists ps, Forall2 (fun a b => named made a = Ret b) ws ps /\ Forall (fun p => ordered (snd p)) ps.
Proof.
  intros fs l ws W. induction W as [|n req t fs x l ws D W IH|n t fs x l ws D W IH]; intro K.
  - exists []. split; constructor.
  - inversion K as [|? ? ? ? Kf Ks]; subst. destruct (IH Ks) as (ps & Hp & Op).
    destruct Kf as [[(v & M & O & G) _]|(Rq & Dq & _)]; cbn [fst snd] in *; [|destruct D; congruence].
    exists ((n, v) :: ps). split; constructor; try assumption. unfold named, made. cbn [fst snd]. rewrite M. reflexivity.
  - inversion K as [|? ? ? ? Kf Ks]; subst. auto.
Qed.
Lemma struct_kept : forall rf fs d l, NoDup (map (fun f => fst (fst f)) fs) -> Forall2 field_kept fs l ->
  kept (struct_conv rf fs d) (CRec l) /\ kept_in (struct_conv rf fs d) (CRec l).
Proof.
  intros rf fs d l N K. pose proof (Forall2_len _ _ _ _ _ K) as L.
  destruct (wanted_total fs l (eq_sym L)) as [ws W]. destruct (wanted_kept fs l ws W K) as (ps & Hp & Op).
  destruct (writes_struct rf fs d l ws ps [] (Ret tt) N W (runs_of_all _ _ _ _ _ Hp)) as (v & Wv & V0 & V1).
  cbn [named_hole] in *. rewrite app_nil_r in *.
  assert (X : ordered v /\ (forall n w, In (n, w) ps -> holds v n w) /\ (forall n, ~ In n (map fst ps) -> absent n v)).
  { destruct ps as [|p ps]; [rewrite V0 by reflexivity; split; [constructor|]; split; [intros n w []|intros n _ m w Em; discriminate]|].
    destruct V1 as (w & -> & M); [discriminate|]. split; [apply (ordered_map _ _ M Op)|]. destruct M as [S M].
    assert (Nw : NoDup (map fst (p :: ps))).
    { replace (map fst (p :: ps)) with (map fst ws); [apply (wanted_names _ _ _ W N)|]. clear -Hp. revert Hp. generalize (p :: ps). intros qs Hp.
      induction Hp as [|a b ws qs E H IH]; cbn [map]; [reflexivity|]. apply named_ret in E. destruct E as [-> _]. rewrite IH. reflexivity. }
    split.
    - intros n u I. exists w. split; [reflexivity|]. apply find_in'. apply find_iff. apply M. clear -Nw I.
      induction (p :: ps) as [|[k x] qs IH]; [destruct I|]. cbn [map fst] in Nw. inversion Nw as [|? ? N1 N2]; subst. destruct I as [I|I].
      + injection I as <- <-. apply find_iff. cbn [obj_find]. rewrite str_eqb_refl. reflexivity.
      + apply find_iff. cbn [obj_find]. destruct (str_eqb n k) eqn:E.
        * apply str_eqb_iff in E. subst. destruct N1. apply (in_map fst) in I. exact I.
        * apply find_iff. auto.
    - intros n Nn m u Em I. injection Em as <-. assert (A : assoc n u w) by (apply find_iff, find_in; assumption). apply M in A.
      apply find_iff, find_in' in A. apply (in_map fst) in A. contradiction. }
  destruct X as (O & Hh & Ha).
  apply (to_kept _ _ _ _ _ v); [exact Wv|exact O|].
  change (into_ (struct_conv rf fs d) v (CRec (map (fun f => zero (snd f)) fs)) = (CRec l, Ret tt)).
  apply reads_struct; [assumption|apply map_length|]. apply (fills_kept fs l ws W ps Hp K N v Hh). intros n _ J. auto.
Qed.

(** ** The types of Convert.v *)
Lemma built_in_kept : forall e t x, fair e -> wf_ty t -> typed t x -> (kept (built_in e t) x <-> telling t x).
Proof.
  intros e t x F W T. destruct (round_trip e e t x F W T) as (v & y & M & G & Tl).
  destruct (to_value_image e t x F W T) as (v' & M' & I). assert (v' = v) by congruence. subst v'.
  rewrite <- Tl. split.
  - intros (v' & Mv & _ & Gv). unfold make in Mv. cbn [built_in to_ get_] in *. change (of_cpp e t x = Ret v') in Mv. congruence.
  - intros ->. exists v. split; [exact M|]. split; [apply (image_ordered t x v T I)|exact G].
Qed.
Lemma built_in_behaves : forall (E : exn -> Prop) e t, fair e -> wf_ty t -> (forall v, ~ nan_in_set t v) ->
  (forall v x y er, breaks t v x y er -> E er) -> behaves E (typed t) (built_in e t).
Proof.
  intros E e t F W S B. constructor; cbn [built_in zero get_ into_].
  - apply dflt_typed. assumption.
  - intros x T. left. destruct (to_value_image e t x F W T) as (v & M & I). exists v. split; [exact M|apply (image_ordered t x v T I)].
  - intros v O. destruct (get_outcome e t v W O (S v)) as [H|(er & H)]; [left; assumption|right]. exists er. split; [assumption|].
    apply get_class in H; try assumption. destruct H as (y & H). eauto.
  - intros v x O T. destruct (into_outcome e t v x W O T (S v)) as (y & b & G & Ty). unfold get_into in G.
    destruct (from_val e t v x) as [z [[]|er| | |]] eqn:Ez; try discriminate; injection G as <- <-; eexists; eexists; (split; [reflexivity|]); (split; [assumption|]); [left; reflexivity|].
    right. exists er. split; [reflexivity|]. apply (fwd_ok e t W v x O T) in Ez. eauto.
Qed.
Lemma same_seq : forall e rf k t d v x, k <> KSet -> k <> KUSet ->
  into_ (seq_conv rf k (built_in e t) d) v x = from_val e (TySeq k t) v x.
Proof. intros e rf k t d v x K1 K2. destruct k; try contradiction; reflexivity. Qed.
Lemma same_array : forall e rf n t d v x, into_ (array_conv rf n (built_in e t) d) v x = from_val e (TyArray n t) v x.
Proof. reflexivity. Qed.
Lemma same_map : forall e rf h t d v x, into_ (map_conv e rf h (built_in e t) d) v x = from_val e (TyMap h t) v x.
Proof. reflexivity. Qed.
Lemma same_ptr : forall e t v x, into_ (ptr_conv (built_in e t)) v x = from_val e (TyPtr t) v x.
Proof. reflexivity. Qed.
Lemma same_struct : forall e rf fs d v x, into_ (struct_conv rf (map (field_in e) fs) d) v x = from_val e (TyStruct fs) v x.
Proof.
  intros e rf fs d v x. destruct x as [b|z|f|f|s|w|p|l|m|l]; try reflexivity. rewrite from_struct. cbn [struct_conv of_into into_].
  replace (get_fields (map (field_in e) fs) v l) with (fields_of e v fs l); [destruct (fields_of e v fs l); reflexivity|].
  revert l. induction fs as [|[[n req] t] fs IH]; intros [|y l]; cbn [fields_of get_fields map]; try reflexivity.
  cbn [field_in fst snd]. rewrite IH. destruct (req || (0 <? v_count n v)); [|reflexivity]. destruct (at_key n v) as [w|er| | |]; try reflexivity.
  unfold try_get. cbn [built_in into_]. destruct (from_val e t w y) as [z [[]|er| | |]]; reflexivity.
Qed.

Lemma store_put : forall e rf t a y c, fair e -> wf_ty t -> typed t y ->
  store rf a (to_val e t y VNull) c = put [a] (to_val e t y VNull) c.
Proof. intros e rf t a y c F W T. destruct (to_image e t F W y T) as (v & -> & _). reflexivity. Qed.
Lemma store_seq_put : forall e rf t l i c, fair e -> wf_ty t -> Forall (typed t) l ->
  store_seq rf (fun y => to_val e t y VNull) i l c = put_seq (fun y => to_val e t y VNull) i l c.
Proof.
  intros e rf t l i c F W H. revert i c. induction H as [|y l T H IH]; intros i c; cbn [store_seq put_seq]; [reflexivity|].
  rewrite store_put by assumption. destruct (put [RefIdx i] (to_val e t y VNull) c) as [c' [[]|er| | |]]; cbn [seq_]; auto.
Qed.
Lemma store_map_put : forall e rf t m c, fair e -> wf_ty t -> Forall (fun p => typed t (snd p)) m ->
  store_map rf (fun y => to_val e t y VNull) m c = put_map (fun y => to_val e t y VNull) m c.
Proof.
  intros e rf t m c F W H. revert c. induction H as [|[k y] m T H IH]; intros c; cbn [store_map put_map]; [reflexivity|].
  rewrite store_put by assumption. destruct (put [RefKey k] (to_val e t y VNull) c) as [c' [[]|er| | |]]; cbn [seq_]; auto.
Qed.
Lemma written_seq : forall e rf k t d x c, k <> KSet -> k <> KUSet -> fair e -> wf_ty (TySeq k t) -> typed (TySeq k t) x ->
  to_ (seq_conv rf k (built_in e t) d) x c = to_val e (TySeq k t) x c.
Proof.
  intros e rf k t d x c K1 K2 F W T. inversion W; subst. inversion T; subst. cbn [seq_conv of_into to_ built_in].
  rewrite store_seq_put by assumption. destruct k; try contradiction; reflexivity.
Qed.
Lemma written_array : forall e rf n t d x c, fair e -> wf_ty (TyArray n t) -> typed (TyArray n t) x ->
  to_ (array_conv rf n (built_in e t) d) x c = to_val e (TyArray n t) x c.
Proof.
  intros e rf n t d x c F W T. inversion W; subst. inversion T; subst. cbn [array_conv of_into to_ built_in to_val].
  rewrite store_seq_put by assumption. reflexivity.
Qed.
Lemma written_map : forall e rf h t d x c, fair e -> wf_ty (TyMap h t) -> typed (TyMap h t) x ->
  to_ (map_conv e rf h (built_in e t) d) x c = to_val e (TyMap h t) x c.
Proof.
  intros e rf h t d x c F W T. inversion W; subst. inversion T; subst. cbn [map_conv of_into to_ built_in].
  rewrite store_map_put; try assumption; [destruct h; reflexivity|]. destruct h; [|assumption].
  destruct F as [_ Fm]. apply (Permutation_Forall (Permutation_sym (Fm m))). assumption.
Qed.
Lemma written_ptr : forall e t x c, typed (TyPtr t) x -> to_ (ptr_conv (built_in e t)) x c = to_val e (TyPtr t) x c.
Proof. intros e t x c T. inversion T; reflexivity. Qed.
Lemma seq_ext : forall X (r : X * outcome unit) k1 k2, (forall c, k1 c = k2 c) -> seq_ r k1 = seq_ r k2.
Proof. intros X [c [[]|er| | |]] k1 k2 H; cbn [seq_]; auto. Qed.
Lemma written_struct : forall e rf fs d x c, fair e -> wf_ty (TyStruct fs) -> typed (TyStruct fs) x ->
  to_ (struct_conv rf (map (field_in e) fs) d) x c = to_val e (TyStruct fs) x c.
Proof.
  intros e rf fs d x c F W T. inversion W as [| | | | | | | | | | |? _ Wf]; subst. inversion T as [| | | | | | | | | | | | |? l Tl]; subst. clear W T.
  cbn [struct_conv of_into to_ to_val]. revert l c Tl. induction fs as [|[[n req] t] fs IH]; intros l c Tl; inversion Tl as [|? y ? l' Ty Tl']; subst; [reflexivity|].
  inversion Wf as [|? ? Wt Wf']; subst. cbn [map store_fields]. cbn [field_in fst snd built_in differs to_]. cbn [snd] in Ty, Wt.
  rewrite store_put by assumption.
  apply seq_ext. intro c'. apply IH; assumption.
Qed.

(** ** Corollaries *)
Lemma seq_throws : forall rf k t d v vs er, k = KVector \/ k = KDeque \/ k = KList -> seq_items v vs ->
  (get_ (seq_conv rf k t d) v = Throw er <->
   exists vs1 w vs2, vs = vs1 ++ w :: vs2 /\ (forall u, In u vs1 -> exists y, get_ t u = Ret y) /\ get_ t w = Throw er).
Proof.
  intros rf k t d v vs er K I.
  assert (Ge : exists ys rest o, runs (get_ t) vs ys rest o /\ void (get_ (seq_conv rf k t d) v) = o).
  { destruct (runs_total _ _ (get_ t) vs) as (ys & rest & o & R). exists ys, rest, o. split; [assumption|].
    change (get_ (seq_conv rf k t d) v) with (fresh (into_ (seq_conv rf k t d) v (CSeq []))).
    assert (X : exists z, into_ (seq_conv rf k t d) v (CSeq []) = (z, o)).
    { destruct K as [K|[K| ->]]; [eexists; apply (reads_vec rf k t d v vs [] ys rest o (or_introl K) I R)
        |eexists; apply (reads_vec rf k t d v vs [] ys rest o (or_intror K) I R)|eexists; apply (reads_list rf t d v vs [] ys rest o I R)]. }
    destruct X as (z & ->). destruct o as [[]|er'| | |]; reflexivity. }
  destruct Ge as (ys & rest & o & R & V).
  split.
  - intro G. rewrite G in V. cbn [void bind] in V. subst o. destruct (runs_cut _ _ _ _ _ _ _ R) as (vs1 & w & vs2 & -> & _ & F & E).
    exists vs1, w, vs2. split; [reflexivity|]. split; [|assumption]. clear -F. induction F as [|a b l bs E F IH]; [intros u []|]. intros u [<-|U]; eauto.
  - intros (vs1 & w & vs2 & -> & F & E).
    assert (X : exists bs, Forall2 (fun a b => get_ t a = Ret b) vs1 bs).
    { clear -F. induction vs1 as [|a l IH]; [exists []; constructor|]. destruct (F a (or_introl eq_refl)) as [b B]. destruct IH as [bs Bs]; [intros u U; apply F; right; assumption|].
      exists (b :: bs). constructor; assumption. }
    destruct X as [bs Bs]. pose proof (runs_to_cut _ _ _ vs1 w vs2 bs er Bs E) as R'.
    destruct (runs_unique _ _ _ _ _ _ _ _ _ _ R R') as (_ & _ & ->). destruct (get_ (seq_conv rf k t d) v); cbn [void bind] in V; congruence.
Qed.
Lemma into_bool : forall E P c v x, behaves E P c -> ordered v -> P x -> exists y b, try_get c v x = (y, Ret b) /\ P y /\
  (b = true <-> into_ c v x = (y, Ret tt)).
Proof.
  intros E P c v x B O Px. destruct (b_into _ _ _ B v x O Px) as (y & o & G & Py & [->|(er & -> & _)]); unfold try_get; rewrite G.
  - exists y, true. repeat split. assumption.
  - exists y, false. repeat split; [assumption|discriminate|discriminate].
Qed.
Lemma user_behaves : forall (E : exn -> Prop) (P : cval -> Prop) u, P (u_zero u) ->
  (forall x, P x -> exists v o, u_to u x VNull = (v, o) /\ fine E o /\ (o = Ret tt -> ordered v)) ->
  (match u_from u with
   | Fills f => forall v x, ordered v -> P x -> exists y o, f v x = (y, o) /\ P y /\ fine E o
   | Makes g => forall v, ordered v -> (exists x, g v = Ret x /\ P x) \/ (exists er, g v = Throw er /\ E er)
   | Both f g => (forall v x, ordered v -> P x -> exists y o, f v x = (y, o) /\ P y /\ fine E o) /\
                 (forall v, ordered v -> (exists x, g v = Ret x /\ P x) \/ (exists er, g v = Throw er /\ E er))
   end) -> behaves E P (user u).
Proof.
  intros E P u Z T H. constructor; cbn [user zero get_ into_].
  - assumption.
  - intros x X. unfold make. cbn [user to_]. destruct (T x X) as (v & o & -> & [->|(er & -> & Ee)] & O); [left; exists v|right; exists er]; (split; [reflexivity|auto]).
  - intros v O. destruct (u_from u) as [f|g|f g]; [|auto|destruct H; auto].
    destruct (H v _ O Z) as (y & o & -> & Py & [->|(er & -> & Ee)]); [left; exists y|right; exists er]; (split; [reflexivity|assumption]).
  - intros v x O X. destruct (u_from u) as [f|g|f g]; [exact (H v x O X)| |destruct H as [H _]; exact (H v x O X)].
    destruct (H v O) as [(y & -> & Py)|(er & -> & Ee)]; cbn [assign void bind]; eexists; eexists; (split; [reflexivity|]); (split; [assumption|]); [left; reflexivity|right; eauto].
Qed.
Lemma made_whole : forall u g v x, u_from u = Makes g ->
  (forall y, g v = Ret y -> into_ (user u) v x = (y, Ret tt)) /\ (forall o, ends (g v) o -> into_ (user u) v x = (x, o)).
Proof.
  intros u g v x H. cbn [user into_]. rewrite H. split.
  - intros y ->. reflexivity.
  - intros o E. destruct (ends_eq _ _ _ E) as [<- N]. destruct (g v) as [y|er| | |]; try reflexivity. destruct (N y eq_refl).
Qed.
