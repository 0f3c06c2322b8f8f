(** to_value builds the specified image. *)
From Coq Require Import Sorted Permutation Lia ZifyBool ZifyNat ZifyN.
From Verif Require Import Base Value Compare ValueOps Iterator SpecGrammar SpecText ObjFacts SpecValue ValueProofs SpecIter
  Cpp Convert SpecConv ConvOrder.


Lemma ss_sorted : forall A (m : list (str * A)), StronglySorted (fun p q => str_ltb (fst p) (fst q) = true) m <-> sorted m.
Proof.
  intros A m. split.
  - induction 1 as [|[k v] m H IH F]; constructor; [|assumption]. eapply Forall_impl; [|exact F].
    intros q Q. apply str_ltb_iff. exact Q.
  - induction 1 as [|k v m F H IH]; constructor; [assumption|]. eapply Forall_impl; [|exact F].
    intros q Q. apply str_ltb_iff. exact Q.
Qed.

(** ** Writing elements *)
Lemma set_at_end : forall A (l : list A) x y, set_nth (length l) x (l ++ [y]) = l ++ [x].
Proof. induction l as [|z l IH]; intros; cbn [length set_nth app]; [reflexivity|]. rewrite IH. reflexivity. Qed.

Lemma put_next : forall l v, put [RefIdx (len l)] (v, Ret tt) (VArr l) = (VArr (l ++ [v]), Ret tt).
Proof.
  intros l v. unfold put, run. cbn [via via1]. unfold via_idx, run_op. rewrite N.leb_refl.
  replace (len l + 18446744073709551616 - len l + 1) with (1 + 1 * 18446744073709551616) by lia.
  unfold u64. rewrite N.mod_add by lia. change (N.to_nat (1 mod 18446744073709551616)) with 1%nat. cbn [repeat].
  unfold in_elem, len. rewrite Nat2N.id, nth_error_app2 by lia. rewrite Nat.sub_diag. cbn [nth_error].
  rewrite set_at_end. reflexivity.
Qed.

Lemma put_seq_all : forall conv l vs acc, Forall2 (fun y v => conv y = (v, Ret tt)) l vs ->
  put_seq conv (len acc) l (VArr acc) = (VArr (acc ++ vs), Ret tt).
Proof.
  intros conv l vs acc F. revert acc. induction F as [|y v l vs H _ IH]; intro acc; cbn [put_seq].
  - rewrite app_nil_r. reflexivity.
  - rewrite H, put_next. cbn [seq_]. replace (len acc + 1) with (len (acc ++ [v])).
    + rewrite IH, <- app_assoc. reflexivity.
    + unfold len. rewrite app_length. cbn [length]. lia.
Qed.

Lemma set_emplace : forall (k : str) (v d : value) m, sorted m -> obj_set k v (obj_emplace k d m) = obj_set k v m.
Proof.
  intros k v d m H. apply sorted_unique; try (apply set_sorted; try apply emplace_sorted; assumption).
  intros k2 x. rewrite <- !find_iff. rewrite !find_set by (try apply emplace_sorted; assumption).
  rewrite find_emplace by assumption. destruct (str_eqb k2 k) eqn:E; [tauto|].
  destruct (obj_find k2 m) eqn:F; rewrite ?E; tauto.
Qed.

Lemma put_member : forall k v m, sorted m -> put [RefKey k] (v, Ret tt) (VObj m) = (VObj (obj_set k v m), Ret tt).
Proof.
  intros k v m H. unfold put, run. cbn [via via1]. unfold via_key, run_op, in_member.
  rewrite find_emplace, str_eqb_refl by assumption.
  destruct (obj_find k m) as [x|]; cbn [void bind]; rewrite set_emplace by assumption; reflexivity.
Qed.
Lemma put_first : forall k v, put [RefKey k] (v, Ret tt) VNull = (VObj (obj_set k v []), Ret tt).
Proof. intros k v. apply (put_member k v []). constructor. Qed.

Definition set_all (ps m : list (str * value)) : list (str * value) := fold_left (fun m p => obj_set (fst p) (snd p) m) ps m.

Lemma set_all_sorted : forall ps m, sorted m -> sorted (set_all ps m).
Proof.
  induction ps as [|[k v] ps IH]; intros m H; [assumption|]. cbn [set_all fold_left fst snd]. apply IH, set_sorted, H.
Qed.
Lemma set_all_find : forall ps m k, sorted m -> NoDup (map fst ps) ->
  obj_find k (set_all ps m) = match obj_find k ps with Some v => Some v | None => obj_find k m end.
Proof.
  induction ps as [|[j v] ps IH]; intros m k H N; [reflexivity|]. cbn [set_all fold_left fst snd obj_find].
  inversion N as [|? ? Nj Nd]; subst. change (fold_left _ ps (obj_set j v m)) with (set_all ps (obj_set j v m)).
  rewrite IH by (try apply set_sorted; assumption). rewrite find_set by assumption.
  destruct (str_eqb k j) eqn:E; [|reflexivity]. apply str_eqb_iff in E. subst k.
  destruct (obj_find j ps) eqn:F; [|reflexivity]. exfalso. apply Nj. apply find_in' in F.
  apply (in_map fst) in F. exact F.
Qed.

Lemma put_map_all : forall conv ps qs m, sorted m -> Forall2 (fun p q => fst p = fst q /\ conv (snd p) = (snd q, Ret tt)) ps qs ->
  put_map conv ps (VObj m) = (VObj (set_all qs m), Ret tt).
Proof.
  intros conv ps qs m H F. revert m H. induction F as [|[k y] [k' v] ps qs [E C] _ IH]; intros m H; [reflexivity|].
  cbn [fst snd] in *. subst k'. cbn [put_map]. rewrite C, put_member by assumption. cbn [seq_].
  rewrite IH by (apply set_sorted; assumption). reflexivity.
Qed.

(** ** The image *)
Lemma Forall2_perm : forall A B (R : A -> B -> Prop) l l' m, Permutation l l' -> Forall2 R l m -> exists m', Permutation m m' /\ Forall2 R l' m'.
Proof.
  intros A B R l l' m P. revert m. induction P as [|x l l' P IH|x y l|l l' l'' P1 IH1 P2 IH2]; intros m F.
  - inversion F; subst. exists []. split; constructor.
  - inversion F as [|? z ? m0 Hx Hl]; subst. destruct (IH m0 Hl) as (m' & Pm & F'). exists (z :: m'). split; [apply perm_skip; assumption|constructor; assumption].
  - inversion F as [|? z ? m0 Hx Hl]; subst. inversion Hl as [|? z' ? m1 Hx' Hl']; subst.
    exists (z' :: z :: m1). split; [apply perm_swap|]. repeat constructor; assumption.
  - destruct (IH1 m F) as (m' & Pm & F'). destruct (IH2 m' F') as (m'' & Pm' & F''). exists m''. split; [eapply perm_trans; eassumption|assumption].
Qed.

Lemma Forall_ex : forall A B (R : A -> B -> Prop) (l : list A), Forall (fun x => exists y, R x y) l -> exists m, Forall2 R l m.
Proof.
  intros A B R l F. induction F as [|x l [y H] _ (m & IH)]; [exists []; constructor|]. exists (y :: m). constructor; assumption.
Qed.
Lemma Forall2_impl' : forall A B (R Q : A -> B -> Prop) l m, (forall a b, R a b -> Q a b) -> Forall2 R l m -> Forall2 Q l m.
Proof. intros A B R Q l m I F. induction F; constructor; auto. Qed.
Lemma Forall2_keys : forall A B (R : A -> B -> Prop) (m : list (str * A)) (o : list (str * B)),
  Forall2 (fun p q => fst p = fst q /\ R (snd p) (snd q)) m o -> map fst m = map fst o.
Proof. intros A B R m o F. induction F as [|p q m o [E _] _ IH]; [reflexivity|]. cbn [map]. congruence. Qed.

Lemma sorted_keys : forall A B (m : list (str * A)) (o : list (str * B)), map fst m = map fst o -> sorted m -> sorted o.
Proof.
  intros A B m o E H. revert o E. induction H as [|k v m F H IH]; intros [|[k' w] o] E; try discriminate; [constructor|].
  cbn [map fst] in E. injection E as E1 E2. subst k'. constructor; [|apply IH; assumption].
  apply Forall_forall. intros [j u] Hj. cbn [fst]. apply (in_map fst) in Hj. rewrite <- E2 in Hj. apply in_map_iff in Hj.
  destruct Hj as ([j' u'] & Ej & Hj). cbn [fst] in Ej. subst j'. rewrite Forall_forall in F. apply (F (j, u') Hj).
Qed.
Lemma sorted_nodup : forall A (m : list (str * A)), sorted m -> NoDup (map fst m).
Proof.
  induction 1 as [|k v m F H IH]; constructor; [|assumption]. intro X. apply in_map_iff in X. destruct X as ([j u] & E & I).
  cbn [fst] in E. subst j. rewrite Forall_forall in F. exact (key_lt_irrefl _ (F _ I)).
Qed.

Lemma set_all_perm : forall o o', sorted o -> Permutation o o' -> set_all o' [] = o.
Proof.
  intros o o' H P. apply sorted_unique; [apply set_all_sorted; constructor|assumption|].
  assert (N' : NoDup (map fst o')).
  { eapply Permutation_NoDup; [apply Permutation_map; exact P|]. apply sorted_nodup. assumption. }
  assert (Q : forall (k : str) (v : value) (m : list (str * value)), NoDup (map fst m) -> (obj_find k m = Some v <-> In (k, v) m)).
  { clear. intros k v m. induction m as [|[j w] m IH]; intro N; [split; [discriminate|intros []]|]. cbn [obj_find In map fst] in *.
    inversion N as [|? ? Nj Nd]; subst. specialize (IH Nd). destruct (str_eqb k j) eqn:E.
    - apply str_eqb_iff in E. subst j. split; [intro X; left; congruence|]. intros [X|X]; [congruence|].
      exfalso. apply Nj. apply (in_map fst) in X. exact X.
    - rewrite IH. split; [auto|]. intros [X|X]; [|assumption]. exfalso. injection X as -> ->. rewrite str_eqb_refl in E. discriminate. }
  intros k v. rewrite <- !find_iff. rewrite set_all_find by (constructor || assumption).
  assert (X : obj_find k o' = Some v <-> In (k, v) o').
  { apply Q. assumption. }
  cbn [obj_find]. destruct (obj_find k o') as [w|] eqn:F.
  - split; intro G.
    + injection G as ->. apply Q; [apply sorted_nodup; assumption|]. apply (Permutation_in _ (Permutation_sym P)). apply X. reflexivity.
    + apply Q in G; [|apply sorted_nodup; assumption]. apply (Permutation_in _ P) in G. apply X in G. exact G.
  - split; [discriminate|]. intro G. apply Q in G; [|apply sorted_nodup; assumption]. apply (Permutation_in _ P) in G. apply X in G. discriminate.
Qed.

Lemma set_all_map_of : forall ws, NoDup (map fst ws) -> map_of ws (set_all ws []).
Proof.
  intros ws N. split; [apply set_all_sorted; constructor|]. intros k v. rewrite <- !find_iff, set_all_find by (constructor || assumption).
  destruct (obj_find k ws); [reflexivity|]. cbn [obj_find]. reflexivity.
Qed.

Lemma members_names : forall fs l ws, members fs l ws -> forall n, In n (map fst ws) -> In n (map (fun f => fst (fst f)) fs).
Proof.
  intros fs l ws M. induction M; intros m Hm; cbn [map fst In] in *; [assumption|destruct Hm as [<-|Hm]; auto|auto].
Qed.
Lemma members_nodup : forall fs l ws, members fs l ws -> NoDup (map (fun f => fst (fst f)) fs) -> NoDup (map fst ws).
Proof.
  intros fs l ws M. induction M; intro N; cbn [map fst] in *; [constructor| |].
  - inversion N; subst. constructor; [|auto]. intro X. eapply members_names in X; [|eassumption]. contradiction.
  - inversion N; subst. auto.
Qed.

Theorem to_image : forall e t, fair e -> wf_ty t -> forall x, typed t x -> exists v, to_val e t x VNull = (v, Ret tt) /\ image t x v.
Proof.
  intros e t [Fs Fm]. induction t as [|w sg| | | | |raw|t IH|n t IH|k t IH|h t IH|fs IH] using cty_deep; intros W x T; inversion T; subst.
  - eexists. split; [reflexivity|constructor].
  - eexists. split; [reflexivity|]. constructor. split; [apply wrap_range|apply wrap_cong]; lia.
  - eexists. split; [reflexivity|constructor].
  - eexists. split; [reflexivity|constructor].
  - eexists. split; [reflexivity|constructor].
  - eexists. split; [reflexivity|constructor].
  - eexists. split; [reflexivity|constructor].
  - eexists. split; [reflexivity|constructor].
  - eexists. split; [reflexivity|constructor].
  - inversion W; subst. destruct (IH ltac:(assumption) x0 ltac:(assumption)) as (v & E & I).
    exists v. cbn [to_val]. rewrite E. split; [reflexivity|constructor; assumption].
  - inversion W; subst.
    destruct (Forall_ex _ _ (fun x v => to_val e t x VNull = (v, Ret tt) /\ image t x v) l) as (vs & F).
    { eapply Forall_impl; [|eassumption]. intros y Ty. apply IH; assumption. }
    exists (VArr vs). cbn [to_val of_type]. change 0 with (len (@nil value)). rewrite (put_seq_all _ l vs []).
    + split; [reflexivity|]. constructor. eapply Forall2_impl'; [|exact F]. cbn beta. tauto.
    + eapply Forall2_impl'; [|exact F]. cbn beta. tauto.
  - inversion W as [| | | | | | | | |? ? Wt _ _| |]; subst.
    destruct (Forall_ex _ _ (fun x v => to_val e t x VNull = (v, Ret tt) /\ image t x v) l) as (vs & F).
    { eapply Forall_impl; [|eassumption]. intros y Ty. apply IH; assumption. }
    destruct (Forall2_perm _ _ _ _ (e_set e l) _ (Permutation_sym (Fs l)) F) as (vs' & Pv & F').
    assert (P1 : k <> KUSet -> put_seq (fun y => to_val e t y VNull) 0 l (VArr []) = (VArr vs, Ret tt)).
    { intros _. change 0 with (len (@nil value)). apply (put_seq_all _ l vs []). eapply Forall2_impl'; [|exact F]. cbn beta. tauto. }
    assert (P2 : put_seq (fun y => to_val e t y VNull) 0 (e_set e l) (VArr []) = (VArr vs', Ret tt)).
    { change 0 with (len (@nil value)). apply (put_seq_all _ _ vs' []). eapply Forall2_impl'; [|exact F']. cbn beta. tauto. }
    assert (I1 : Forall2 (image t) l vs) by (eapply Forall2_impl'; [|exact F]; cbn beta; tauto).
    assert (I2 : Forall2 (image t) (e_set e l) vs') by (eapply Forall2_impl'; [|exact F']; cbn beta; tauto).
    destruct k; cbn [to_val of_type];
      try (exists (VArr vs); split; [apply P1; discriminate|constructor; [discriminate|assumption]]).
    exists (VArr vs'). split; [assumption|]. econstructor; [apply Permutation_sym, Fs|assumption].
  - inversion W; subst. apply ss_sorted in H3.
    destruct (Forall_ex _ _ (fun p q => fst p = fst q /\ (to_val e t (snd p) VNull = (snd q, Ret tt) /\ image t (snd p) (snd q))) m) as (o & F).
    { eapply Forall_impl; [|eassumption]. intros [k y] Ty. cbn [fst snd] in *. destruct (IH ltac:(assumption) y Ty) as (v & E & I).
      exists (k, v). cbn [fst snd]. auto. }
    assert (So : sorted o) by (eapply sorted_keys; [eapply Forall2_keys with (R := fun a b => to_val e t a VNull = (b, Ret tt) /\ image t a b); exact F|assumption]).
    destruct (Forall2_perm _ _ _ _ (e_map e m) _ (Permutation_sym (Fm m)) F) as (o' & Po & F').
    exists (VObj o). assert (Im : Forall2 (fun p q => fst p = fst q /\ image t (snd p) (snd q)) m o) by (eapply Forall2_impl'; [|exact F]; cbn beta; tauto).
    split; [|constructor; assumption]. destruct h; cbn [to_val of_type].
    + erewrite put_map_all; [|constructor|eapply Forall2_impl'; [|exact F']; cbn beta; tauto]. rewrite (set_all_perm o o'); [reflexivity|assumption|assumption].
    + erewrite put_map_all; [|constructor|eapply Forall2_impl'; [|exact F]; cbn beta; tauto]. rewrite (set_all_perm o o); [reflexivity|assumption|apply Permutation_refl].
  - inversion W as [| | | | | | | | | | |? Nd Wf]; subst. clear W T. cbn [to_val].
    match goal with |- exists v, ?g fs l VNull = _ /\ _ => set (go := g) end.
    assert (G : exists ws, members fs l ws /\
      forall c m, (c = VNull /\ m = []) \/ (c = VObj m /\ sorted m) ->
      go fs l c = (match ws with [] => c | _ => VObj (set_all ws m) end, Ret tt)).
    { clear Nd. revert l H0. induction fs as [|[[n req] t] fs IHfs]; intros l H0.
      - inversion H0; subst. exists []. split; [constructor|]. reflexivity.
      - inversion H0 as [|? y ? l' Ty Tl]; subst. inversion IH as [|? ? IHt IHr]; inversion Wf as [|? ? Wt Wr]; subst. cbn [snd] in *.
        destruct (IHfs IHr Wr l' Tl) as (ws & M & G). clear IHfs.
        destruct (IHt Wt y Ty) as (v & E & I).
        destruct (req || negb (ceqb y (dflt t))) eqn:Q.
        + exists ((n, v) :: ws). split.
          { constructor; [|assumption|assumption]. apply orb_prop in Q. destruct Q as [Q|Q]; [left; assumption|right].
            destruct (ceqb y (dflt t)); [discriminate|reflexivity]. }
          intros c m C. cbn [go]. rewrite Q, E. 
          assert (Pc : put [RefKey n] (v, Ret tt) c = (VObj (obj_set n v m), Ret tt)).
          { destruct C as [[-> ->]|[-> Sm]]; [apply put_first|apply put_member; assumption]. }
          rewrite Pc. cbn [seq_]. fold go.
          assert (Sm : sorted (obj_set n v m)) by (apply set_sorted; destruct C as [[_ ->]|[_ Sm]]; [constructor|assumption]).
          rewrite (G (VObj (obj_set n v m)) (obj_set n v m)) by (right; auto). destruct ws; reflexivity.
        + exists ws. apply orb_false_elim in Q. destruct Q as [-> Q]. apply negb_false_iff in Q.
          split; [constructor; assumption|]. intros c m C. cbn [go orb]. rewrite Q. cbn [negb seq_]. fold go. apply G. assumption. }
    destruct G as (ws & M & G). eexists. split; [apply (G VNull []); left; auto|].
    econstructor; [exact M| |].
    + intros ->. reflexivity.
    + intro Nw. exists (set_all ws []). destruct ws; [congruence|]. split; [reflexivity|].
      apply set_all_map_of. eapply members_nodup; eassumption.
Qed.
