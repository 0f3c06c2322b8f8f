(** Reading when memory runs out: never undefined, no other exceptions than
    with enough memory, and all that the specification allows can happen. *)
From Coq Require Import Sorted Permutation Floats.SpecFloat Lia ZifyBool ZifyNat ZifyN.
From Verif Require Import Base Value Compare ValueOps Iterator SpecGrammar SpecText ObjFacts SpecValue ValueProofs SpecIter IterProofs
  SpecCompare CompareProofs Cpp Message Convert SpecConv ConvOrder ConvFloat ConvTo ConvFrom ConvRead ConvSafe ConvMem SpecConvMem ConvMemStep ConvMemSound.
Open Scope N_scope.

(** ** Types without bound structs *)
Lemma ordered_unbound : forall t, ordered_ty t -> unbound t.
Proof. intros t H. induction H; constructor; assumption. Qed.
Lemma unbound_reads : forall t, unbound t -> forall v x y, may_read t v x y -> reads t v x y.
Proof.
  intros t H. induction H as [|w sg| | | | |raw|t U IH|n t U IH|k t U IH|h t U IH]; intros v x y R; inversion R; subst; try (constructor; auto; fail).
  - econstructor; [eassumption|]. eapply Forall2_in; [eassumption|]. intros; auto.
  - eapply rd_seq; try eassumption. eapply Forall2_in; [eassumption|]. intros; auto.
  - eapply rd_set; try eassumption. eapply Forall2_in; [eassumption|]. intros; auto.
  - eapply rd_map; try eassumption. eapply Forall2_in; [eassumption|]. cbn beta. intros a b _ [E1 E2]. auto.
Qed.

Lemma set_self : forall k t v vs w y, wf_ty (TySeq k t) -> k = KSet \/ k = KUSet -> seq_items v vs -> In w vs -> safe (TySeq k t) v ->
  reads t w (dflt t) y -> ceqb y y = true.
Proof.
  intros k t v vs w y W K I Hw S R. inversion W as [| | | | | | | | |? ? Wt Ws Wu| |]; subst.
  assert (Ot : ordered_ty t) by (destruct K as [->| ->]; [auto|apply hashed_ordered; auto]).
  apply (reads_self t Ot w (dflt t) y R); [|apply self_dflt, Ot].
  intros [Hf Hn]. destruct K as [->| ->]; [|apply (hashed_no_float t (Wu eq_refl) Hf)].
  apply S. eapply ns_here; eassumption.
Qed.
Lemma set_unbound : forall k t, wf_ty (TySeq k t) -> k = KSet \/ k = KUSet -> unbound t.
Proof.
  intros k t W K. inversion W as [| | | | | | | | |? ? Wt Ws Wu| |]; subst. apply ordered_unbound. destruct K as [->| ->]; [auto|apply hashed_ordered; auto].
Qed.

Lemma wf_elem : forall k t, wf_ty (TySeq k t) -> wf_ty t.
Proof. intros k t W. inversion W. assumption. Qed.

Section Env.
Variable e : env.

(** ** Never undefined *)
Definition mtotal (t : cty) : Prop := forall r v x, ordered v -> typed t x -> safe t v -> defined (snd (from_mem e r t v x)).

Lemma mt_get : forall t, wf_ty t -> mtotal t -> forall r v, ordered v -> safe t v -> defined (get_mem e r t v).
Proof.
  intros t W T r v O S. specialize (T (sub 2 r) v (dflt t) O (dflt_typed t W) S). unfold get_mem, made, fresh.
  destruct (inits t && refused (sub 1 r) 0); [right; eauto|].
  destruct (from_mem e (sub 2 r) t v (dflt t)) as [x o]. cbn [snd] in T. destruct T as [[[] ->]|[er ->]]; cbn [bind]; [left|right]; eauto.
Qed.
Lemma mt_set : forall k t v vs r p, wf_ty (TySeq k t) -> mtotal t -> k = KSet \/ k = KUSet -> seq_items v vs -> In (snd p) vs -> ordered v ->
  safe (TySeq k t) v -> defined (elem_set e r t p).
Proof.
  intros k t v vs r p W T K I Hp O S. pose proof (wf_elem k t W) as Wt.
  assert (Ow : ordered (snd p)) by (eapply items_ordered; eassumption). assert (Sw : safe t (snd p)) by (eapply safe_items; eassumption).
  unfold elem_set. destruct (mt_get t Wt T (sub (fst p) r) (snd p) Ow Sw) as [[y E]|[er E]]; unfold elem; rewrite E; cbn [bind]; [|right; eauto].
  apply (so_get e t Wt (snd_all e t Wt)) in E; [|assumption]. apply unbound_reads in E; [|eapply set_unbound; eassumption].
  rewrite (set_self k t v vs (snd p) y W K I Hp S E). apply need_defined. left. eauto.
Qed.

Lemma mt_seq : forall k t, wf_ty (TySeq k t) -> mtotal t -> mtotal (TySeq k t).
Proof.
  intros k t W T r v x O Tx S. inversion Tx as [| | | | | | | | | | |k' t' l Tl Ts| |]; subst. pose proof (wf_elem k t W) as Wt.
  destruct (items_dec v) as [[vs I]|N0].
  - pose proof (items_ordered v vs I O) as Ov. rewrite (mem_seq e k r t v vs l I). cbn [snd].
    assert (Sf : forall w, In w vs -> safe t w) by (intros w Hw; eapply safe_items; eassumption).
    assert (G : forall us, (forall w, In w us -> In w vs) -> forall p, In p (enum 0 us) -> defined (elem e r t p)).
    { intros us Hu p Hp. apply enum_in in Hp. apply mt_get; auto. }
    assert (Z : k = KSet \/ k = KUSet -> defined (snd (scan (elem_set e r t) (enum 0 vs)))).
    { intro K. apply total_scan. intros p Hp. apply enum_in in Hp. eapply mt_set; eassumption. }
    pose proof (total_scan _ _ (elem e r t) (enum 0 vs) (G vs (fun w H => H))) as Sc.
    assert (V : defined (snd (if (len l <? len vs) && refused r 0 then (l, Throw EAlloc) else
        let '(ys, o) := scan (elem e r t) (enum 0 vs) in (ys ++ skipn (length ys) (resize (dflt t) (length vs) l), o)))).
    { destruct ((len l <? len vs) && refused r 0); [right; eexists; reflexivity|]. destruct (scan (elem e r t) (enum 0 vs)). exact Sc. }
    destruct k; cbn [seq_mem]; auto.
    + apply total_scan. intros p Hp. apply need_defined. apply (G vs); auto.
    + assert (G' : defined (snd (scan (elem_node e r t) (enum 0 (rev vs))))).
      { apply total_scan. intros p Hp. apply need_defined. apply (G (rev vs)); [|assumption]. intros w. apply in_rev. }
      destruct (scan (elem_node e r t) (enum 0 (rev vs))). exact G'.
    + specialize (Z (or_introl eq_refl)). destruct (scan (elem_set e r t) (enum 0 vs)). exact Z.
    + specialize (Z (or_intror eq_refl)). destruct (scan (elem_set e r t) (enum 0 vs)). exact Z.
  - rewrite (mem_seq_kind e k r t v l N0). destruct k; try destruct ((len l <? v_size v) && refused r 0); right; eexists; reflexivity.
Qed.

Lemma mt_fields : forall fs, Forall (fun f => mtotal (snd f)) fs -> forall r v l, ordered v ->
  Forall2 (fun f x => typed (snd f) x) fs l -> fields_safe fs v ->
  defined (snd (fields_mem e v r fs l)).
Proof.
  induction fs as [|[[n req] t] fs IH]; intros Tf r v l O T S; inversion T as [|? x ? l0 Tx Tl]; subst; [left; eexists; reflexivity|].
  inversion Tf as [|? ? Tt Tfs]; subst. cbn [snd] in *.
  assert (I : defined (snd (fields_mem e v (sub 4 r) fs l0))).
  { apply IH; try assumption. eapply fields_safe_tail; eassumption. }
  clear IH. cbn [fields_mem]. destruct (fields_mem e v (sub 4 r) fs l0) as [q o] eqn:Er. cbn [snd] in I.
  assert (D : defined (if req then Ret true else need r 0 (Ret (0 <? v_count n v)))).
  { destruct req; [left; eauto|apply need_defined; left; eauto]. }
  destruct D as [[b ->]|[er ->]]; [|right; eexists; reflexivity]. destruct b; [|exact I].
  unfold need. cbn [bind]. destruct (refused r 1); [right; eexists; reflexivity|].
  destruct (obj_or_not v) as [[m ->]|Ty].
  - destruct (obj_find n m) as [w|] eqn:Fn.
    + rewrite (at_key_obj _ _ _ Fn), saying_ret.
      assert (D : defined (snd (from_mem e (sub 3 r) t w x))).
      { apply Tt; try assumption; [eapply ordered_find; eassumption|].
        apply find_in' in Fn. apply (S n req t m w); [left; reflexivity|reflexivity|assumption]. }
      destruct (from_mem e (sub 3 r) t w x) as [x' o']. cbn [snd] in D. destruct D as [[[] ->]|[er ->]]; exact I.
    + rewrite (at_key_missing _ _ Fn). right. eexists. reflexivity.
  - rewrite (at_key_kind n v Ty). right. eexists. reflexivity.
Qed.

Theorem mt_all : forall t, wf_ty t -> mtotal t.
Proof.
  induction t as [|w sg| | | | |raw|t IH|n t IH|k t IH|h t IH|fs IH] using cty_deep; intro W;
    try (intros r v x O T S; destruct v; cbn [from_mem snd saying]; (left; eexists; reflexivity) || (right; eexists; reflexivity)).
  - intros r v x O T S. destruct v; cbn [from_mem snd saying]; try (right; eexists; reflexivity). unfold need. cbn [bind].
    destruct (refused r 0); [right|left]; eexists; reflexivity.
  - intros r v x O T S. cbn [from_mem]. unfold need. cbn [bind]. destruct (owns v); [destruct (refused r 0)|]; [right|left|left]; eexists; reflexivity.
  - intros r v x O T S. destruct raw, v as [|z|f|s|a|m|b]; cbn [from_mem snd saying]; try (left; eexists; reflexivity); try (right; eexists; reflexivity).
    + destruct (copies r 0 m); [right|left]; eexists; reflexivity.
    + inversion T; subst. destruct (copies r 0 a); [right|left]; eexists; reflexivity.
  - inversion W; subst. intros r v x O T S. destruct (value_null_dec v) as [->|Nv]; [left; eexists; reflexivity|].
    rewrite ptr_mem by assumption. assert (St : safe t v) by (apply safe_ptr; assumption).
    destruct (need_defined _ r 0 _ (mt_get t H0 (IH H0) r v O St)) as [[y ->]|[er ->]]; [left|right]; eexists; reflexivity.
  - inversion W; subst. intros r v x O T S. inversion T as [| | | | | | | | | |n' t' l Ln Tl| | |]; subst n' t' x.
    destruct (items_dec v) as [[vs I]|N0].
    + pose proof (items_ordered v vs I O) as Ov. rewrite (mem_array e n r t v vs l I Ln).
      assert (D : defined (snd (scan (elem e r t) (enum 0 (firstn n vs))))).
      { apply total_scan. intros p Hp. apply enum_in in Hp. assert (Iw : In (snd p) vs) by (rewrite <- (firstn_skipn n vs); apply in_or_app; left; assumption).
        apply mt_get; auto. eapply safe_array; eassumption. }
      destruct (scan (elem e r t) (enum 0 (firstn n vs))). exact D.
    + destruct n as [|n]; [rewrite mem_array0; left; eexists; reflexivity|].
      rewrite (mem_array_kind e (Datatypes.S n) r t v l N0) by discriminate. right. eexists. reflexivity.
  - inversion W; subst. apply mt_seq; auto.
  - inversion W; subst. intros r v x O T S. inversion T as [| | | | | | | | | | | |h' t' m Tm Ts|]; subst.
    destruct (obj_or_not v) as [[o ->]|Ty].
    + rewrite (mem_map e h r t o m O). cbn [snd]. apply total_scan. intros [i [k w]] Hw. apply enum_in in Hw. cbn [snd] in Hw. unfold pair_mem. cbn [fst snd].
      assert (Ow : ordered w) by (inversion O; subst; eauto).
      assert (Sw : safe t w) by (eapply safe_entry; eassumption).
      apply need_defined. destruct (mt_get t H0 (IH H0) (sub i r) w Ow Sw) as [[y ->]|[er ->]]; [left|right]; eexists; reflexivity.
    + destruct (none_dec v) as [I|Ni].
      * rewrite (mem_map_none e h r t v m I). left. eexists. reflexivity.
      * destruct (mem_map_kind e h r t v m O Ty Ni) as (w & es & El & E); rewrite E.
        assert (Ow : ordered w) by (apply (elem_ordered v _ El O None); left; reflexivity).
        assert (Sw : safe t w) by (eapply (safe_elem h t v _ None); [eassumption|assumption|left; reflexivity]).
        unfold first_mem. destruct (e_key1 e); [right; eexists; reflexivity|].
        destruct (mt_get t H0 (IH H0) (sub 0 r) w Ow Sw) as [[y ->]|[er ->]]; right; eexists; reflexivity.
  - inversion W as [| | | | | | | | | | |fs' Nd Wf]; subst. intros r v x O T S. inversion T; subst. rewrite mem_struct. cbn [snd].
    apply mt_fields; try assumption.
    + clear - IH Wf. induction IH; constructor; inversion Wf; subst; auto.
    + apply safe_fields. assumption.
Qed.

(** ** Enough memory *)
Definition quiet (r : refusals) : Prop := forall p k, r p k = false.
Lemma quiet_sub : forall r i, quiet r -> quiet (sub i r).
Proof. intros r i Q p k. apply Q. Qed.
Lemma quiet_need : forall A r k (o : outcome A), quiet r -> need r k o = o.
Proof. intros A r k o Q. unfold need, refused. rewrite Q. destruct o; reflexivity. Qed.
Lemma quiet_saying : forall A r k (o : outcome A), quiet r -> saying r k o = o.
Proof. intros A r k o Q. unfold saying, refused. rewrite Q. destruct o; reflexivity. Qed.
Lemma scan_enum : forall A B (g : N * A -> outcome B) g0 vs i, (forall p, In p (enum i vs) -> g p = g0 (snd p)) -> scan g (enum i vs) = scan g0 vs.
Proof.
  intros A B g g0. induction vs as [|v vs IH]; intros i H; cbn [enum scan]; [reflexivity|].
  rewrite (H (i, v)) by (left; reflexivity). cbn [snd]. destruct (g0 v); try reflexivity. rewrite IH; [reflexivity|]. intros p Hp. apply H. right. assumption.
Qed.

Definition same (t : cty) : Prop := forall r v x, quiet r -> ordered v -> typed t x -> from_mem e r t v x = from_val e t v x.
Lemma same_get : forall t, wf_ty t -> same t -> forall r v, quiet r -> ordered v -> get_mem e r t v = get e t v.
Proof.
  intros t W H r v Q O. unfold get_mem, made. rewrite (H (sub 2 r) v (dflt t) (quiet_sub r 2 Q) O (dflt_typed t W)).
  unfold refused, sub. rewrite Q, andb_false_r. reflexivity.
Qed.
Lemma same_fields : forall fs, Forall (fun f => same (snd f)) fs -> forall r v l, quiet r -> ordered v ->
  Forall2 (fun f x => typed (snd f) x) fs l -> fields_mem e v r fs l = fields_of e v fs l.
Proof.
  induction fs as [|[[n req] t] fs IH]; intros Sf r v l Q O T; inversion T as [|? x ? l0 Tx Tl]; subst; [reflexivity|].
  inversion Sf as [|? ? St Sfs]; subst. cbn [snd] in *. cbn [fields_mem fields_of]. rewrite !quiet_need, quiet_saying by assumption.
  rewrite (IH Sfs (sub 4 r) v l0 (quiet_sub r 4 Q) O Tl).
  assert (E : (if req then Ret true else Ret (0 <? v_count n v)) = Ret (req || (0 <? v_count n v))) by (destruct req; reflexivity).
  rewrite E. destruct (req || (0 <? v_count n v)); [|reflexivity].
  destruct (obj_or_not v) as [[m ->]|Ty].
  - destruct (obj_find n m) as [w|] eqn:Fn.
    + rewrite (at_key_obj _ _ _ Fn). rewrite (St (sub 3 r) w x (quiet_sub r 3 Q) (ordered_find _ _ _ O Fn) Tx). reflexivity.
    + rewrite (at_key_missing _ _ Fn). reflexivity.
  - rewrite (at_key_kind n v Ty). reflexivity.
Qed.
Lemma quiet_copies : forall {A} r (l : list A) i, quiet r -> copies r i l = None.
Proof.
  intros A r. induction l as [|w l IH]; intros i Q; [reflexivity|]. cbn [copies]. rewrite IH by assumption.
  unfold refused. rewrite (quiet_sub _ i Q). reflexivity.
Qed.
Theorem same_all : forall t, wf_ty t -> same t.
Proof.
  induction t as [|w sg| | | | |raw|t IH|n t IH|k t IH|h t IH|fs IH] using cty_deep; intro W;
    try (intros r v x Q O T; cbn [from_mem from_val]; rewrite ?quiet_saying by assumption; reflexivity).
  - intros r v x Q O T. cbn [from_mem from_val]. rewrite ?quiet_saying by assumption. destruct v; try reflexivity. rewrite quiet_need by assumption. reflexivity.
  - intros r v x Q O T. cbn [from_mem from_val]. rewrite quiet_need by assumption. destruct (owns v); reflexivity.
  - intros r v x Q O T. cbn [from_mem from_val]. rewrite ?quiet_saying by assumption. destruct raw, v; rewrite ?quiet_saying by assumption; rewrite ?quiet_copies by assumption; reflexivity.
  - inversion W; subst. intros r v x Q O T. destruct (value_null_dec v) as [->|Nv]; [reflexivity|].
    rewrite ptr_mem by assumption. rewrite quiet_need, (same_get t H0 (IH H0)) by assumption. destruct v; try reflexivity. destruct Nv. reflexivity.
  - inversion W; subst. intros r v x Q O T. inversion T as [| | | | | | | | | |n' t' l Ln Tl| | |]; subst n' t' x.
    destruct (items_dec v) as [[vs I]|N0].
    + rewrite (mem_array e n r t v vs l I Ln), (from_array e n t v vs l I Ln). rewrite (scan_enum _ _ _ (get e t)); [reflexivity|].
      intros p Hp. apply enum_in in Hp. apply same_get; auto; [apply quiet_sub, Q|]. eapply items_ordered; try eassumption.
      rewrite <- (firstn_skipn n vs). apply in_or_app. left. assumption.
    + destruct n as [|n]; [rewrite mem_array0, from_array0; reflexivity|].
      rewrite (mem_array_kind e (S n) r t v l N0), (from_array_kind e (S n) t v l N0) by discriminate.
      unfold said_not_array, refused, sub. rewrite Q. reflexivity.
  - pose proof (wf_elem k t W) as Wt. intros r v x Q O T. inversion T as [| | | | | | | | | | |k' t' l Tl Ts| |]; subst.
    destruct (items_dec v) as [[vs I]|N0].
    + rewrite (mem_seq e k r t v vs l I), (from_seq e k t v vs l I).
      assert (G : forall us, (forall w, In w us -> In w vs) -> forall p, In p (enum 0 us) -> elem e r t p = get e t (snd p)).
      { intros us Hu p Hp. apply enum_in in Hp. apply same_get; auto; [apply quiet_sub, Q|]. eapply items_ordered; eauto. }
      assert (Gn : forall us, (forall w, In w us -> In w vs) -> forall p, In p (enum 0 us) -> elem_node e r t p = get e t (snd p)).
      { intros us Hu p Hp. unfold elem_node. rewrite quiet_need by (apply quiet_sub, Q). eapply G; eassumption. }
      assert (Gs : forall p, In p (enum 0 vs) -> elem_set e r t p = get_cmp e t (snd p)).
      { intros p Hp. unfold elem_set, get_cmp. rewrite (G vs) by auto. destruct (get e t (snd p)); try reflexivity. cbn [bind].
        rewrite quiet_need by (apply quiet_sub, Q). reflexivity. }
      destruct k; cbn [seq_mem seq_read].
      * unfold refused at 1 2. rewrite Q, andb_false_r. rewrite (scan_enum _ _ _ (get e t)) by (apply G; auto). reflexivity.
      * unfold refused at 1 2. rewrite Q, andb_false_r. rewrite (scan_enum _ _ _ (get e t)) by (apply G; auto). reflexivity.
      * rewrite (scan_enum _ _ _ (get e t)) by (apply Gn; auto). reflexivity.
      * rewrite (scan_enum _ _ _ (get e t)) by (apply Gn; intros w; apply in_rev). reflexivity.
      * rewrite (scan_enum _ _ _ (get_cmp e t)) by apply Gs. reflexivity.
      * rewrite (scan_enum _ _ _ (get_cmp e t)) by apply Gs. reflexivity.
    + rewrite (mem_seq_kind e k r t v l N0), (from_seq_kind e k t v l N0). unfold said_not_array, refused, sub. rewrite !Q, andb_false_r. destruct k; reflexivity.
  - inversion W; subst. intros r v x Q O T. inversion T as [| | | | | | | | | | | |h' t' m Tm Ts|]; subst.
    destruct (obj_or_not v) as [[o ->]|Ty].
    + rewrite (mem_map e h r t o m O), (from_map e h t o m O). rewrite (scan_enum _ _ _ (pair_get e t)); [reflexivity|].
      intros [i [k w]] Hp. apply enum_in in Hp. unfold pair_mem, pair_get. cbn [fst snd] in *. rewrite quiet_need by (apply quiet_sub, Q).
      rewrite (same_get t H0 (IH H0)); [reflexivity|apply quiet_sub, Q|]. inversion O; subst. eauto.
    + destruct (none_dec v) as [I|Ni].
      * rewrite (mem_map_none e h r t v m I), (from_map_none e h t v m I). reflexivity.
      * destruct (mem_map_kind e h r t v m O Ty Ni) as (w & es & El & E). rewrite E. clear E.
        assert (Ow : ordered w) by (apply (elem_ordered v _ El O None); left; reflexivity).
        assert (Sz : 0 < v_size v) by (rewrite <- (elements_size _ _ El); cbn [length]; lia).
        cbn [from_val]. destruct (begin_pos (fun _ => v) 0) as (it & -> & At).
        destruct (read_pos (fun _ => v) 0 0 it ((None, w) :: es) None w O At El eq_refl) as [Rd [K _]].
        destruct (N.to_nat (v_size v)) as [|n] eqn:En; [lia|]. cbn [each].
        destruct (end_pos (fun _ => v) 0) as (en & -> & Pe). cbn [bind]. cbn beta in Pe. rewrite En in Pe.
        rewrite (eq_pos (fun _ => v) 0 0 (S n) it en At Pe) by (intro Tn; destruct v; try discriminate; cbn in En; discriminate).
        cbn [Nat.eqb]. rewrite Rd, K. cbn [bind]. rewrite get_fresh. unfold first_mem.
        rewrite (same_get t H0 (IH H0)) by (assumption || apply quiet_sub, Q). rewrite quiet_saying by (apply quiet_sub, Q).
        destruct (e_key1 e); [reflexivity|]. destruct (get e t w); reflexivity.
  - inversion W as [| | | | | | | | | | |fs' Nd Wf]; subst. intros r v x Q O T. inversion T; subst. rewrite mem_struct, from_struct.
    rewrite same_fields; try assumption; [reflexivity|]. clear - IH Wf. induction IH; constructor; inversion Wf; subst; auto.
Qed.

(** ** No other exceptions *)
Definition follows {A B} (o : outcome A) (o0 : outcome B) : Prop :=
  (forall a, o = Ret a -> exists b, o0 = Ret b) /\ (forall er, o = Throw er -> er = EAlloc \/ o0 = Throw er).
Lemma follows_need : forall A B r k (o : outcome A) (o0 : outcome B), follows o o0 -> follows (need r k o) o0.
Proof.
  intros A B r k o o0 [F1 F2]. split.
  - intros a H. apply need_ret in H. destruct H as [H _]. eauto.
  - intros er H. apply need_throw in H. destruct H as [H|(_ & _ & ->)]; auto.
Qed.
Lemma scan_follows : forall A B C (g : N * A -> outcome B) (g0 : A -> outcome C) vs i, (forall p, In p (enum i vs) -> follows (g p) (g0 (snd p))) ->
  follows (snd (scan g (enum i vs))) (snd (scan g0 vs)).
Proof.
  intros A B C g g0. induction vs as [|v vs IH]; intros i H; cbn [enum scan].
  - split; intros; [eexists; reflexivity|discriminate].
  - destruct (H (i, v) (or_introl eq_refl)) as [F1 F2]. cbn [snd] in F1, F2. destruct (g (i, v)) as [b|er| | |]; cbn [snd void bind]; try (split; intros; discriminate).
    + destruct (F1 b eq_refl) as [b0 ->]. cbn [snd]. apply IH. intros p Hp. apply H. right. assumption.
    + destruct (F2 er eq_refl) as [->| ->]; (split; intros; [discriminate|]).
      * left. congruence.
      * right. cbn [snd void bind]. congruence.
Qed.
Definition sim (t : cty) : Prop := forall r v x, ordered v -> typed t x -> safe t v -> follows (snd (from_mem e r t v x)) (snd (from_val e t v x)).
Lemma sim_get : forall t, wf_ty t -> sim t -> forall r v, ordered v -> safe t v -> follows (get_mem e r t v) (get e t v).
Proof.
  intros t W H r v O S. specialize (H (sub 2 r) v (dflt t) O (dflt_typed t W) S). unfold get_mem, made. destruct (inits t && refused (sub 1 r) 0).
  - split; intros; [discriminate|]. left. congruence.
  - unfold get, fresh. destruct (from_mem e (sub 2 r) t v (dflt t)) as [y o], (from_val e t v (dflt t)) as [y0 o0]. cbn [snd] in H. destruct H as [F1 F2]. split.
    + intros a H. destruct o as [[]| | | |]; try discriminate. destruct (F1 tt eq_refl) as [[] ->]. cbn [bind]. eauto.
    + intros er H. destruct o as [|c| | |]; try discriminate. cbn [bind] in H. injection H as ->. destruct (F2 er eq_refl) as [->| ->]; auto.
Qed.
Lemma follows_said : forall A B r k er, follows (saying (A := A) r k (Throw er)) (Throw (A := B) er).
Proof. intros A B r k er. split; [intros; discriminate|]. intros c H. cbn [saying] in H. injection H as <-. destruct (refused r k); auto. Qed.
Lemma follows_alloc : forall A B (o : outcome B), follows (@Throw A EAlloc) o.
Proof. intros A B o. split; [intros; discriminate|]. intros c H. left. congruence. Qed.
Lemma follows_said_array : forall A B r, follows (@Throw A (said_not_array r)) (@Throw B not_array).
Proof. intros A B r. unfold said_not_array. split; [intros; discriminate|]. intros c H. injection H as <-. destruct (refused (sub 0 r) 0); auto. Qed.

Lemma sim_fields : forall fs, Forall (fun f => wf_ty (snd f)) fs -> Forall (fun f => sim (snd f)) fs -> forall r v l, ordered v ->
  Forall2 (fun f x => typed (snd f) x) fs l -> fields_safe fs v -> follows (snd (fields_mem e v r fs l)) (snd (fields_of e v fs l)).
Proof.
  induction fs as [|[[n req] t] fs IH]; intros Wf Sf r v l O T S; inversion T as [|? x ? l0 Tx Tl]; subst; [split; intros; [eexists; reflexivity|discriminate]|].
  inversion Sf as [|? ? St Sfs]; inversion Wf as [|? ? Wt Wfs]; subst. cbn [snd] in *.
  assert (I : follows (snd (fields_mem e v (sub 4 r) fs l0)) (snd (fields_of e v fs l0))).
  { apply IH; try assumption. eapply fields_safe_tail; eassumption. }
  clear IH. cbn [fields_mem fields_of].
  destruct (fields_mem e v (sub 4 r) fs l0) as [q o], (fields_of e v fs l0) as [q0 o0]. cbn [snd] in I.
  assert (E : (if req then Ret true else need r 0 (Ret (0 <? v_count n v))) = Ret (req || (0 <? v_count n v)) \/
              (if req then Ret true else need r 0 (Ret (0 <? v_count n v))) = Throw EAlloc).
  { destruct req; [left; reflexivity|]. unfold need. cbn [bind orb]. destruct (refused r 0); auto. }
  destruct E as [-> | ->]; [|apply follows_alloc]. destruct (req || (0 <? v_count n v)); [|exact I].
  unfold need. cbn [bind]. destruct (refused r 1); [apply follows_alloc|].
  destruct (obj_or_not v) as [[m ->]|Ty].
  - destruct (obj_find n m) as [w|] eqn:Fn.
    + rewrite (at_key_obj _ _ _ Fn), saying_ret. assert (Ow : ordered w) by (eapply ordered_find; eassumption).
      assert (Sw : safe t w) by (apply find_in' in Fn; apply (S n req t m w); [left; reflexivity|reflexivity|assumption]).
      pose proof (mt_all t Wt (sub 3 r) w x Ow Tx Sw) as D1. pose proof (total_ok e t Wt w x Ow Tx Sw) as D2.
      destruct (from_mem e (sub 3 r) t w x) as [x' o'], (from_val e t w x) as [x1 o1]. cbn [snd] in D1, D2.
      destruct D1 as [[[] ->]|[er ->]], D2 as [[[] ->]|[er' ->]]; exact I.
    + rewrite (at_key_missing _ _ Fn). apply (follows_said unit).
  - rewrite (at_key_kind n v Ty). apply (follows_said unit).
Qed.

Theorem sim_all : forall t, wf_ty t -> sim t.
Proof.
  assert (Rt : forall A (o : outcome A), follows (@Ret unit tt) (@Ret unit tt)) by (intros; split; intros; [eauto|discriminate]).
  induction t as [|w sg| | | | |raw|t IH|n t IH|k t IH|h t IH|fs IH] using cty_deep; intro W;
    try (intros r v x O T S; destruct v; cbn [from_mem from_val snd]; first [apply (Rt unit UB)|apply follows_said]).
  - intros r v x O T S; destruct v; cbn [from_mem from_val snd]; try apply follows_said. unfold need. cbn [bind].
    destruct (refused r 0); [apply follows_alloc|apply (Rt unit UB)].
  - intros r v x O T S. cbn [from_mem from_val snd]. unfold need. cbn [bind]. destruct (owns v); [destruct (refused r 0)|];
      [apply follows_alloc|apply (Rt unit UB)|apply (Rt unit UB)].
  - intros r v x O T S. destruct raw, v as [|z|f|s|a|m|b]; cbn [from_mem from_val snd]; try apply follows_said; try apply (Rt unit UB).
    + destruct (copies r 0 m); [apply follows_alloc|apply (Rt unit UB)].
    + inversion T; subst. destruct (copies r 0 a); [apply follows_alloc|apply (Rt unit UB)].
  - inversion W; subst. intros r v x O T S. destruct (value_null_dec v) as [->|Nv]; [apply (Rt unit UB)|].
    rewrite ptr_mem by assumption. assert (E : from_val e (TyPtr t) v x = assign x (get e t v) (fun y => CPtr (Some y))) by (destruct v; try reflexivity; destruct Nv; reflexivity).
    rewrite E. pose proof (sim_get t H0 (IH H0) r v O (safe_ptr t v S)) as F. apply (follows_need _ _ r 0) in F. destruct F as [F1 F2].
    destruct (need r 0 (get_mem e r t v)) as [y|er| | |]; try (split; intros; discriminate).
    + destruct (F1 y eq_refl) as [y0 ->]. apply (Rt unit UB).
    + destruct (F2 er eq_refl) as [->| ->]; [apply follows_alloc|]. split; intros; [discriminate|right; cbn [assign snd void bind] in *; congruence].
  - inversion W; subst. intros r v x O T S. inversion T as [| | | | | | | | | |n' t' l Ln Tl| | |]; subst n' t' x.
    destruct (items_dec v) as [[vs I]|N0].
    + rewrite (mem_array e n r t v vs l I Ln), (from_array e n t v vs l I Ln).
      assert (F : follows (snd (scan (elem e r t) (enum 0 (firstn n vs)))) (snd (scan (get e t) (firstn n vs)))).
      { apply scan_follows. intros p Hp. apply enum_in in Hp. assert (Iw : In (snd p) vs) by (rewrite <- (firstn_skipn n vs); apply in_or_app; left; assumption).
        apply sim_get; auto; [eapply items_ordered; eassumption|eapply safe_array; eassumption]. }
      destruct (scan (elem e r t) (enum 0 (firstn n vs))), (scan (get e t) (firstn n vs)). exact F.
    + destruct n as [|n]; [rewrite mem_array0, from_array0; apply (Rt unit UB)|].
      rewrite (mem_array_kind e (Datatypes.S n) r t v l N0), (from_array_kind e (Datatypes.S n) t v l N0) by discriminate. apply follows_said_array.
  - pose proof (wf_elem k t W) as Wt. specialize (IH Wt). intros r v x O T S. inversion T as [| | | | | | | | | | |k' t' l Tl Ts| |]; subst.
    destruct (items_dec v) as [[vs I]|N0].
    + rewrite (mem_seq e k r t v vs l I), (from_seq e k t v vs l I). cbn [snd].
      assert (G : forall us, (forall w, In w us -> In w vs) -> forall p, In p (enum 0 us) -> follows (elem e r t p) (get e t (snd p))).
      { intros us Hu p Hp. apply enum_in in Hp. apply sim_get; auto; [eapply items_ordered; eauto|eapply safe_items; eauto]. }
      pose proof (scan_follows _ _ _ _ _ vs 0 (G vs (fun w H => H))) as Sc.
      assert (Scn : forall us, (forall w, In w us -> In w vs) -> follows (snd (scan (elem_node e r t) (enum 0 us))) (snd (scan (get e t) us))).
      { intros us Hu. apply scan_follows. intros p Hp. apply follows_need. apply (G us); assumption. }
      assert (Z : k = KSet \/ k = KUSet -> follows (snd (scan (elem_set e r t) (enum 0 vs))) (snd (scan (get_cmp e t) vs))).
      { intro K. apply scan_follows. intros p Hp. pose proof (G vs (fun w H => H) p Hp) as [G1 G2]. apply enum_in in Hp. unfold elem_set, get_cmp.
        destruct (elem e r t p) as [y|er| | |]; cbn [bind]; try (split; intros; discriminate).
        - destruct (G1 y eq_refl) as [y0 E]. rewrite E. cbn [bind].
          assert (C : ceqb y0 y0 = true).
          { eapply set_self; try eassumption. apply (fwd_get e t Wt (fwd_ok e t Wt)); [eapply items_ordered; eassumption|exact E]. }
          rewrite C. destruct (ceqb y y); [|split; intros; discriminate]. apply follows_need. split; intros; [eauto|discriminate].
        - destruct (G2 er eq_refl) as [->|E]; [apply follows_alloc|]. rewrite E. split; intros; [discriminate|right; cbn [bind]; congruence]. }
      assert (V : follows (snd (if (len l <? len vs) && refused r 0 then (l, Throw EAlloc) else
        let '(ys, o) := scan (elem e r t) (enum 0 vs) in (ys ++ skipn (length ys) (resize (dflt t) (length vs) l), o)))
        (snd (let '(ys, o) := scan (get e t) vs in (ys ++ skipn (length ys) (resize (dflt t) (length vs) l), o)))).
      { destruct ((len l <? len vs) && refused r 0); [apply follows_alloc|]. destruct (scan (elem e r t) (enum 0 vs)), (scan (get e t) vs). exact Sc. }
      destruct k; cbn [seq_mem seq_read]; auto.
      * assert (F : follows (snd (scan (elem_node e r t) (enum 0 (rev vs)))) (snd (scan (get e t) (rev vs)))) by (apply Scn; intros w; apply in_rev).
        destruct (scan (elem_node e r t) (enum 0 (rev vs))), (scan (get e t) (rev vs)). exact F.
      * specialize (Z (or_introl eq_refl)). destruct (scan (elem_set e r t) (enum 0 vs)), (scan (get_cmp e t) vs). exact Z.
      * specialize (Z (or_intror eq_refl)). destruct (scan (elem_set e r t) (enum 0 vs)), (scan (get_cmp e t) vs). exact Z.
    + rewrite (mem_seq_kind e k r t v l N0), (from_seq_kind e k t v l N0).
      destruct k; try destruct ((len l <? v_size v) && refused r 0); cbn [snd]; first [apply follows_alloc|apply follows_said_array].
  - inversion W; subst. intros r v x O T S. inversion T as [| | | | | | | | | | | |h' t' m Tm Ts|]; subst.
    destruct (obj_or_not v) as [[o ->]|Ty].
    + rewrite (mem_map e h r t o m O), (from_map e h t o m O). cbn [snd]. apply scan_follows.
      intros [i [k w]] Hp. apply enum_in in Hp. unfold pair_mem, pair_get. cbn [fst snd] in *. apply follows_need.
      assert (Ow : ordered w) by (inversion O; subst; eauto). assert (Sw : safe t w) by (eapply safe_entry; eassumption).
      destruct (sim_get t H0 (IH H0) (sub i r) w Ow Sw) as [G1 G2].
      destruct (get_mem e (sub i r) t w) as [y|er| | |]; cbn [bind]; try (split; intros; discriminate).
      * destruct (G1 y eq_refl) as [y0 ->]. split; intros; [eexists; reflexivity|discriminate].
      * destruct (G2 er eq_refl) as [->| ->]; [apply follows_alloc|]. split; intros; [discriminate|right; cbn [bind]; congruence].
    + destruct (none_dec v) as [I|Ni].
      * rewrite (mem_map_none e h r t v m I), (from_map_none e h t v m I). apply (Rt unit UB).
      * destruct (mem_map_kind e h r t v m O Ty Ni) as (w & es & El & E). rewrite E. clear E.
        assert (Ow : ordered w) by (apply (elem_ordered v _ El O None); left; reflexivity).
        assert (Sw : safe t w) by (eapply (safe_elem h t v _ None); [eassumption|assumption|left; reflexivity]).
        assert (Q : quiet (fun _ _ => false)) by (intros p k; reflexivity).
        rewrite <- (same_all (TyMap h t) W (fun _ _ => false) v (CMap m) Q O T).
        destruct (mem_map_kind e h (fun _ _ => false) t v m O Ty Ni) as (w' & es' & El' & ->).
        assert (Ew : w' = w) by (clear - El El'; inversion El; subst; inversion El'; subst; congruence). subst w'.
        cbn [snd]. unfold first_mem. destruct (e_key1 e); [apply follows_said|].
        rewrite (same_get t H0 (same_all t H0) (sub 0 (fun _ _ => false)) w (quiet_sub _ 0 Q) Ow).
        destruct (sim_get t H0 (IH H0) (sub 0 r) w Ow Sw) as [G1 G2].
        destruct (get_mem e (sub 0 r) t w) as [y|er| | |]; cbn [bind]; try (split; intros; discriminate).
        -- destruct (G1 y eq_refl) as [y0 ->]. cbn [bind]. rewrite (quiet_saying _ (sub 0 (fun _ _ => false))) by (apply quiet_sub, Q). apply follows_said.
        -- destruct (G2 er eq_refl) as [->| ->]; [apply follows_alloc|]. split; intros; [discriminate|right; cbn [bind]; congruence].
  - inversion W as [| | | | | | | | | | |fs' Nd Wf]; subst. intros r v x O T S. inversion T; subst. rewrite mem_struct, from_struct. cbn [snd].
    apply sim_fields; try assumption; [|apply safe_fields; assumption]. clear - IH Wf. induction IH; constructor; inversion Wf; subst; auto.
Qed.
End Env.
