(** The model parser computes what the list machine computes. *)
From Coq Require Import Lia ZifyBool ZifyNat ZifyN.
From Verif Require Import Base Stream Encoding Value Token Message Parser Feeds ListMachine.

Inductive at_ (cf : pcfg) (st : pst) : list N -> term -> Prop :=
| at_cons l t : is_good (p_is st) = true ->
    feeds (src_enc cf) (src_ck cf) (p_is st) l t ->
    at_ cf st (p_cur st :: l) t
| at_end : p_cur st = 0 -> is_eof (p_is st) = true -> at_ cf st [] TEof.

Definition same (st st' : pst) : Prop :=
  p_neg st' = p_neg st /\ p_int st' = p_int st /\ p_flt st' = p_flt st.

Lemma same_refl : forall st, same st st.
Proof. repeat split. Qed.
Lemma same_trans : forall a b c, same a b -> same b c -> same a c.
Proof. unfold same. intros a b c (A & B & C) (D & E & F). rewrite D, E, F. auto. Qed.

Definition sim {A B} (R : A -> B -> Prop) (r : outcome A) (ar : outcome B) : Prop :=
  match r, ar with
  | Ret a, Ret b => R a b
  | Throw e, Throw e' => e = e'
  | Abort, Abort => True
  | UB, UB => True
  | _, _ => False
  end.

Lemma sim_bind : forall A B C D (R : A -> B -> Prop) (Q : C -> D -> Prop) r ar k ak,
  sim R r ar -> (forall a b, R a b -> sim Q (k a) (ak b)) ->
  sim Q (bind r k) (bind ar ak).
Proof.
  intros A B C D R Q r ar k ak H K. destruct r, ar; cbn in *; try contradiction; auto.
Qed.

Lemma sim_weaken : forall A B (R Q : A -> B -> Prop) r ar,
  sim R r ar -> (forall a b, R a b -> Q a b) -> sim Q r ar.
Proof. intros A B R Q r ar H K. destruct r, ar; cbn in *; auto. Qed.

Lemma sim_ret : forall A B (R : A -> B -> Prop) a b, R a b -> sim R (Ret a) (Ret b).
Proof. intros. assumption. Qed.

Lemma sim_fail : forall A B (R : A -> B -> Prop) m, sim R (fail m) (fail m).
Proof. intros. reflexivity. Qed.

(** State relation: position [l], auxiliary fields as in [st0]. *)
Definition on (cf : pcfg) (t : term) (st0 : pst) (st : pst) (l : list N) : Prop :=
  at_ cf st l t /\ same st0 st.

Lemma at_cur : forall cf st l t, at_ cf st l t -> p_cur st = hd0 l.
Proof. intros cf st l t H. inversion H; subst; [reflexivity|assumption]. Qed.

Lemma at_eof : forall cf st l t, at_ cf st l t ->
  is_eof (p_is st) = match l with [] => true | _ => false end.
Proof.
  intros cf st l t H. inversion H as [l' t' G F|C E]; subst; [|assumption].
  unfold is_good in G. destruct (is_eof (p_is st)); [discriminate|reflexivity].
Qed.

Lemma at_nil : forall cf st t, at_ cf st [] t -> t = TEof.
Proof. intros cf st t H. inversion H; reflexivity. Qed.

Lemma guard_nil_eof : forall A t l (k : outcome A), t = TEof \/ l <> [] -> guard t l k = k.
Proof. intros A t l k H. destruct l, t; cbn; auto. destruct H as [H|H]; [discriminate|contradiction]. Qed.

Lemma at_guard : forall A cf st l t (k : outcome A), at_ cf st l t -> guard t l k = k.
Proof.
  intros A cf st l t k H. apply guard_nil_eof. inversion H; subst; [right; discriminate|left; reflexivity].
Qed.

(** read_next advances the list by one. *)
Lemma read_sim : forall cf st l t, at_ cf st l t ->
  sim (fun st' _ => on cf t st st' (tl l)) (read_next cf st) (guard t (tl l) (Ret tt)).
Proof.
  intros cf st l t H. unfold read_next. inversion H as [l' t' G F|C E]; subst.
  - cbn [tl]. inversion F as [i i' D|i c i' D Gb|i c i' l2 t2 D Gg F2]; subst.
    + destruct (D (p_cur st)) as [c Dc]. rewrite Dc. cbn.
      split; [|repeat split]. apply at_end; [reflexivity|]. exact (decode_false_eof _ _ _ _ _ _ Dc).
    + rewrite D, Gb. cbn. reflexivity.
    + rewrite D, Gg. cbn. split; [|repeat split].
      apply (at_cons cf (mkP i' c (p_neg st) (p_int st) (p_flt st)) l2 t); assumption.
  - cbn [tl]. destruct (decode_at_eof (src_enc cf) (src_ck cf) (p_is st) (p_cur st) E) as (c & i' & D & E').
    rewrite D. cbn. split; [|repeat split]. apply at_end; [reflexivity|assumption].
Qed.

Lemma guard_bind : forall A t l (k : outcome A), guard t l k = bind (guard t l (Ret tt)) (fun _ => k).
Proof. intros A t l k. destruct l, t; reflexivity. Qed.

(** The usual step: read_next on the left, guard on the right. *)
Lemma read_step : forall A B (Q : A -> B -> Prop) cf st l t k ak,
  at_ cf st l t ->
  (forall st', at_ cf st' (tl l) t -> same st st' -> sim Q (k st') ak) ->
  sim Q (bind (read_next cf st) k) (guard t (tl l) ak).
Proof.
  intros A B Q cf st l t k ak H K. rewrite guard_bind.
  eapply sim_bind; [apply read_sim; eassumption|].
  intros st' _ [H1 H2]. apply K; assumption.
Qed.

Lemma read_step_ret : forall cf st l t, at_ cf st l t ->
  sim (on cf t st) (read_next cf st) (guard t (tl l) (Ret (tl l))).
Proof.
  intros cf st l t H. pose proof (read_sim cf st l t H) as S.
  rewrite guard_bind. destruct (read_next cf st); destruct (guard t (tl l) (Ret tt)); cbn in *; auto.
Qed.

Lemma at_set : forall cf st l t b z f,
  at_ cf st l t -> at_ cf (mkP (p_is st) (p_cur st) b z f) l t.
Proof.
  intros cf st l t b z f H. inversion H as [l' t' G F|C E]; subst.
  - change (p_cur st) with (p_cur (mkP (p_is st) (p_cur st) b z f)) at 2.
    constructor; assumption.
  - constructor; assumption.
Qed.

(** ** Blanks *)

Lemma a_skip_len : forall l m t r, a_skip m t l = Ret r -> (length r <= length l)%nat.
Proof.
  intro l. remember (length l) as n eqn:Hn. assert (Hl : (length l <= n)%nat) by lia. clear Hn.
  revert l Hl. induction n as [|n IH]; intros l Hl m t r H.
  - destruct l; [|cbn in Hl; lia]. cbn in H. destruct m; inversion H; subst; cbn; lia.
  - destruct l as [|c l1]; [cbn in H; destruct m; inversion H; subst; cbn; lia|].
    cbn [length] in Hl.
    assert (G : forall A (x : outcome A) t l y, guard t l x = Ret y -> x = Ret y).
    { intros A x t0 l0 y Hy. destruct l0, t0; cbn in Hy; try discriminate; assumption. }
    destruct m; cbn [a_skip] in H.
    + destruct (is_space c).
      { apply G in H. apply IH in H; lia. }
      destruct (c =? c_slash); [|inversion H; subst; cbn; lia].
      apply G in H. destruct l1 as [|c1 l2]; [discriminate|].
      destruct (c1 =? c_slash); [apply IH in H; lia|].
      destruct (c1 =? c_star); [apply IH in H; lia|discriminate].
    + apply G in H. destruct l1 as [|c1 l2]; [inversion H; subst; cbn; lia|].
      destruct (is_nl c1); apply IH in H; lia.
    + apply G in H. destruct l1 as [|c1 l2]; [discriminate|]. cbn [length] in Hl.
      destruct (c1 =? c_star).
      { apply G in H. destruct l2 as [|c2 l3]; [discriminate|]. cbn [length] in *.
        destruct (c2 =? c_slash).
        - apply G in H. apply IH in H; lia.
        - apply IH in H; cbn; lia. }
      { apply IH in H; cbn [length]; lia. }
Qed.

(** skip_ws followed by anything = a_skip MWs up to the first non-space *)
Fixpoint drop_ws (t : term) (l : list N) : outcome (list N) :=
  match l with
  | c :: l1 => if is_space c then guard t l1 (drop_ws t l1) else Ret l
  | [] => Ret []
  end.

Lemma skip_ws_sim : forall cf t l st fuel, at_ cf st l t -> (length l < fuel)%nat ->
  sim (on cf t st) (skip_ws cf fuel st) (drop_ws t l).
Proof.
  intros cf t l. induction l as [|c l1 IH]; intros st fuel H Hf.
  - destruct fuel as [|f]; [lia|]. cbn [skip_ws drop_ws]. rewrite (at_cur _ _ _ _ H). cbn.
    split; [assumption|apply same_refl].
  - destruct fuel as [|f]; [lia|]. cbn [skip_ws drop_ws]. rewrite (at_cur _ _ _ _ H). cbn [hd0 hd].
    destruct (is_space c); [|apply sim_ret; split; [assumption|apply same_refl]].
    apply (read_step _ _ _ cf st (c :: l1) t); [assumption|].
    intros st' H' S. cbn [tl] in H'. eapply sim_weaken; [apply IH; [assumption|cbn in Hf; lia]|].
    intros a b [Ha Sa]. split; [assumption|eapply same_trans; eassumption].
Qed.

Lemma a_skip_drop : forall t l, a_skip MWs t l = bind (drop_ws t l) (a_skip MWs t).
Proof.
  intros t l. induction l as [|c l1 IH]; [reflexivity|].
  cbn [drop_ws]. destruct (is_space c) eqn:E.
  - cbn [a_skip]. rewrite E. destruct l1 as [|c1 l2]; destruct t; cbn [guard]; try reflexivity; assumption.
  - reflexivity.
Qed.

Lemma drop_ws_len : forall t l r, drop_ws t l = Ret r -> (length r <= length l)%nat.
Proof.
  intros t l. induction l as [|c l1 IH]; intros r H; cbn in H; [inversion H; subst; cbn; lia|].
  destruct (is_space c); [|inversion H; subst; cbn; lia].
  destruct l1, t; cbn [guard] in H; try discriminate; apply IH in H; cbn in *; lia.
Qed.

Lemma drop_ws_nospace : forall t l r, drop_ws t l = Ret r -> is_space (hd0 r) = false.
Proof.
  intros t l. induction l as [|c l1 IH]; intros r H; cbn in H; [inversion H; reflexivity|].
  destruct (is_space c) eqn:E; [|inversion H; subst; exact E].
  destruct l1, t; cbn [guard] in H; try discriminate; apply IH in H; assumption.
Qed.

Definition line_rel (cf : pcfg) (t : term) (st0 : pst) (L : list N) (r : bool * pst) (res : outcome (list N)) : Prop :=
  if fst r
  then exists l1, at_ cf (snd r) l1 t /\ same st0 (snd r) /\ (length l1 < length L)%nat /\ res = a_skip MWs t l1
  else at_ cf (snd r) [] t /\ same st0 (snd r) /\ res = Ret [].

Lemma line_sim : forall cf t l st fuel, at_ cf st l t -> l <> [] -> (length l <= fuel)%nat ->
  match line_comment cf fuel st with
  | Ret r => line_rel cf t st l r (a_skip MLine t l)
  | Throw e => a_skip MLine t l = Throw e
  | _ => False
  end.
Proof.
  intros cf t l. induction l as [|c l1 IH]; intros st fuel H Hne Hf; [contradiction|].
  destruct fuel as [|f]; [cbn in Hf; lia|]. cbn [line_comment a_skip].
  pose proof (read_sim cf st (c :: l1) t H) as R. cbn [tl] in R.
  destruct (read_next cf st) as [st'|e| | |] eqn:E; cbn [bind];
    destruct (guard t l1 (Ret tt)) as [|e'| | |] eqn:G; cbn in R; try contradiction;
    try (exfalso; clear -G; destruct l1, t; discriminate G).
  - destruct R as [H' S]. rewrite (at_cur _ _ _ _ H'), (at_eof _ _ _ _ H').
    rewrite (at_guard _ cf st' l1 t _ H').
    destruct l1 as [|c1 l2].
    + cbn. auto.
    + cbn [hd0 hd]. change ((c1 =? c_nl) || (c1 =? c_cr)) with (is_nl c1).
      destruct (is_nl c1) eqn:N.
      * unfold line_rel. cbn [fst snd]. exists (c1 :: l2). cbn [length]. repeat split; auto; apply S.
      * specialize (IH st' f H' ltac:(discriminate) ltac:(cbn in *; lia)).
        destruct (line_comment cf f st') as [r|e'| | |]; try assumption.
        unfold line_rel in *. destruct (fst r).
        { destruct IH as (x & Hx & Sx & Lx & Ex). exists x. repeat split; auto; try (eapply same_trans; eassumption).
          cbn [length] in *. lia. }
        { destruct IH as (Hx & Sx & Ex). repeat split; auto; eapply same_trans; eassumption. }
  - subst e'. rewrite guard_bind, G. reflexivity.
Qed.

Lemma block_sim : forall cf t n l st fuel, (length l <= n)%nat -> at_ cf st l t -> l <> [] ->
  (length l <= fuel)%nat ->
  match block_comment cf fuel st with
  | Ret st' => exists l1, at_ cf st' l1 t /\ same st st' /\ (length l1 < length l)%nat
                          /\ a_skip MBlock t l = a_skip MWs t l1
  | Throw e => a_skip MBlock t l = Throw e
  | _ => False
  end.
Proof.
  intros cf t n. induction n as [|n IH]; intros l st fuel Hn H Hne Hf.
  { destruct l; [contradiction|cbn in Hn; lia]. }
  destruct l as [|c l1]; [contradiction|].
  destruct fuel as [|f]; [cbn in Hf; lia|]. cbn [block_comment a_skip].
  pose proof (read_sim cf st (c :: l1) t H) as R. cbn [tl] in R.
  destruct (read_next cf st) as [st'|e| | |] eqn:E; cbn [bind];
    destruct (guard t l1 (Ret tt)) as [|e'| | |] eqn:G; cbn in R; try contradiction;
    try (exfalso; clear -G; destruct l1, t; discriminate G).
  2: { subst e'. rewrite guard_bind, G. reflexivity. }
  destruct R as [H' S]. rewrite (at_cur _ _ _ _ H').
  rewrite (at_guard _ cf st' l1 t _ H').
  destruct l1 as [|c1 l2].
  { cbn [hd0 hd]. change (0 =? c_star) with false. cbv iota. rewrite (at_eof _ _ _ _ H'). reflexivity. }
  cbn [hd0 hd].
  destruct (c1 =? c_star) eqn:Es.
  - pose proof (read_sim cf st' (c1 :: l2) t H') as R2. cbn [tl] in R2.
    destruct (read_next cf st') as [st2|e2| | |] eqn:E2; cbn [bind];
      destruct (guard t l2 (Ret tt)) as [|e2'| | |] eqn:G2; cbn in R2; try contradiction;
      try (exfalso; clear -G2; destruct l2, t; discriminate G2).
    2: { subst e2'. rewrite guard_bind, G2. reflexivity. }
    destruct R2 as [H2 S2]. rewrite (at_cur _ _ _ _ H2).
    rewrite (at_guard _ cf st2 l2 t _ H2).
    destruct l2 as [|c2 l3].
    { cbn [hd0 hd]. change (0 =? c_slash) with false. cbv iota. rewrite (at_eof _ _ _ _ H2). reflexivity. }
    cbn [hd0 hd]. destruct (c2 =? c_slash) eqn:Esl.
    + pose proof (read_sim cf st2 (c2 :: l3) t H2) as R3. cbn [tl] in R3.
      destruct (read_next cf st2) as [st3|e3| | |] eqn:E3;
        destruct (guard t l3 (Ret tt)) as [|e3'| | |] eqn:G3; cbn in R3; try contradiction;
        try (exfalso; clear -G3; destruct l3, t; discriminate G3).
      2: { subst e3'. rewrite guard_bind, G3. reflexivity. }
      destruct R3 as [H3 S3]. exists l3. rewrite (at_guard _ cf st3 l3 t _ H3).
      repeat split; auto; try (eapply same_trans; [|eassumption]; eapply same_trans; eassumption).
      cbn [length]. lia.
    + rewrite (at_eof _ _ _ _ H2).
      specialize (IH (c2 :: l3) st2 f). cbn [length] in *.
      specialize (IH ltac:(lia) H2 ltac:(discriminate) ltac:(lia)).
      destruct (block_comment cf f st2) as [st3|e3| | |]; try assumption.
      destruct IH as (x & Hx & Sx & Lx & Ex). exists x. repeat split; auto; try lia;
        eapply same_trans; [|eassumption| |eassumption| |eassumption]; eapply same_trans; eassumption.
  - rewrite (at_eof _ _ _ _ H').
    specialize (IH (c1 :: l2) st' f). cbn [length] in *.
    specialize (IH ltac:(lia) H' ltac:(discriminate) ltac:(lia)).
    destruct (block_comment cf f st') as [st3|e3| | |]; try assumption.
    destruct IH as (x & Hx & Sx & Lx & Ex). exists x. repeat split; auto; try lia;
      eapply same_trans; eassumption.
Qed.

Lemma on_trans : forall cf t st0 st1 st l, same st0 st1 -> on cf t st1 st l -> on cf t st0 st l.
Proof. intros cf t st0 st1 st l S [H S']. split; [assumption|eapply same_trans; eassumption]. Qed.

Lemma skip_spaces_sim : forall cf t n l st fuel, (length l <= n)%nat -> at_ cf st l t -> (length l < fuel)%nat ->
  sim (on cf t st) (skip_spaces cf fuel st) (a_skip MWs t l).
Proof.
  intros cf t n. induction n as [n IH] using lt_wf_ind. intros l st fuel Hn H Hf.
  destruct fuel as [|f]; [lia|]. cbn [skip_spaces].
  rewrite a_skip_drop.
  eapply (sim_bind _ _ _ _ (fun st' l' => on cf t st st' l' /\ drop_ws t l = Ret l')).
  { pose proof (skip_ws_sim cf t l st (S f) H Hf) as W.
    destruct (skip_ws cf (S f) st), (drop_ws t l); cbn in *; auto. }
  intros st1 l1 [[H1 S1] Hd].
  pose proof (drop_ws_nospace _ _ _ Hd) as Ns. pose proof (drop_ws_len _ _ _ Hd) as Len.
  rewrite (at_cur _ _ _ _ H1).
  destruct l1 as [|c l2].
  { cbn. split; assumption. }
  cbn [hd0 hd] in *. cbn [a_skip]. rewrite Ns.
  destruct (c =? c_slash) eqn:E; [|apply sim_ret; split; assumption].
  change (guard t l2 (match l2 with
               | [] => fail "unexpected character '/'"
               | c1 :: _ =>
                   if c1 =? c_slash then a_skip MLine t l2
                   else if c1 =? c_star then a_skip MBlock t l2
                   else fail "unexpected character '/'"
               end))
    with (guard t (tl (c :: l2)) (match l2 with
               | [] => fail "unexpected character '/'"
               | c1 :: _ =>
                   if c1 =? c_slash then a_skip MLine t l2
                   else if c1 =? c_star then a_skip MBlock t l2
                   else fail "unexpected character '/'"
               end)).
  apply (read_step _ _ _ cf st1 (c :: l2) t); [assumption|].
  intros st2 H2 S2. cbn [tl] in H2. rewrite (at_cur _ _ _ _ H2).
  destruct l2 as [|c1 l3]; [reflexivity|]. cbn [hd0 hd].
  cbn [length] in *.
  destruct (c1 =? c_slash) eqn:E1.
  - pose proof (line_sim cf t (c1 :: l3) st2 (S f) H2 ltac:(discriminate) ltac:(cbn; lia)) as L.
    destruct (line_comment cf (S f) st2) as [r|e| | |]; cbn [bind]; try contradiction.
    2: { rewrite L. reflexivity. }
    unfold line_rel in L. destruct (fst r).
    + destruct L as (x & Hx & Sx & Lx & ->). cbn [length] in Lx.
      eapply sim_weaken; [apply (IH (length x)); [lia|lia|eassumption|lia]|].
      intros a b Hab. eapply on_trans; [|exact Hab].
      eapply same_trans; [|exact Sx]. eapply same_trans; eassumption.
    + destruct L as (Hx & Sx & ->). split; [assumption|].
      eapply same_trans; [|exact Sx]. eapply same_trans; eassumption.
  - destruct (c1 =? c_star) eqn:E2; [|reflexivity].
    pose proof (block_sim cf t (S (length l3)) (c1 :: l3) st2 (S f) (le_n _) H2 ltac:(discriminate)
                  ltac:(cbn; lia)) as L.
    destruct (block_comment cf (S f) st2) as [st3|e| | |]; cbn [bind]; try contradiction.
    2: { rewrite L. reflexivity. }
    destruct L as (x & Hx & Sx & Lx & ->). cbn [length] in Lx.
    eapply sim_weaken; [apply (IH (length x)); [lia|lia|eassumption|lia]|].
    intros a b Hab. eapply on_trans; [|exact Hab].
    eapply same_trans; [|exact Sx]. eapply same_trans; eassumption.
Qed.

(** ** Literals and numbers *)

Lemma literal_sim : forall cf t w text k l st, at_ cf st l t ->
  sim (fun r l' => on cf t st (snd r) l' /\ fst r = k)
      (scan_literal cf w text k st) (a_literal cf t w text l).
Proof.
  intros cf t w text k. induction text as [|c text IH]; intros l st H; cbn [scan_literal a_literal].
  - apply sim_ret. cbn. split; [split; [assumption|apply same_refl]|reflexivity].
  - rewrite (at_cur _ _ _ _ H).
    destruct (c =? narrow (src_ck cf) (hd0 l)); [|reflexivity].
    apply (read_step _ _ _ cf st l t); [assumption|]. intros st' H' S.
    eapply sim_weaken; [apply IH; eassumption|].
    intros a b [Hab Hk]. split; [eapply on_trans; eassumption|assumption].
Qed.

Lemma expd_sim : forall cf t l ex st fuel, at_ cf st l t -> (length l < fuel)%nat ->
  sim (fun r r' => on cf t st (snd r) (snd r') /\ fst r = fst r')
      (exp_digits cf fuel ex st) (a_expd cf t ex l).
Proof.
  intros cf t l. induction l as [|c l1 IH]; intros ex st fuel H Hf;
    (destruct fuel as [|f]; [lia|]); cbn [exp_digits a_expd].
  - pose proof (read_sim cf st [] t H) as R. cbn [tl] in R.
    rewrite (at_nil _ _ _ H) in *. cbn [guard] in R.
    destruct (read_next cf st) as [st'|e| | |]; cbn in R; try contradiction.
    destruct R as [H' S]. cbn [bind]. rewrite (at_cur _ _ _ _ H'). cbn [hd0 hd].
    replace (is_digit cf 0) with false by (unfold is_digit; destruct (src_ck cf); reflexivity).
    apply sim_ret. cbn. split; [split; assumption|reflexivity].
  - change l1 with (tl (c :: l1)) at 1.
    apply (read_step _ _ _ cf st (c :: l1) t); [assumption|]. intros st' H' S. cbn [tl] in H'.
    rewrite (at_cur _ _ _ _ H').
    destruct (is_digit cf (hd0 l1)).
    + eapply sim_weaken; [apply IH; [eassumption|cbn in Hf; lia]|].
      intros a b [Hab E]. split; [eapply on_trans; eassumption|assumption].
    + apply sim_ret. cbn. split; [split; assumption|reflexivity].
Qed.

(** Relation for the float scanners: float in [p_flt], sign kept. *)
Definition flt_on (cf : pcfg) (t : term) (st0 : pst) (r : token * pst) (r' : f64 * list N) : Prop :=
  at_ cf (snd r) (snd r') t /\ fst r = Tfloat /\ p_flt (snd r) = fst r' /\ p_neg (snd r) = p_neg st0.

Lemma exponent_sim : forall cf t l st fuel, at_ cf st l t -> (length l < fuel)%nat ->
  sim (flt_on cf t st) (scan_exponent cf fuel st) (a_exponent cf t (p_flt st) l).
Proof.
  intros cf t l st fuel H Hf. unfold scan_exponent, a_exponent.
  apply (read_step _ _ _ cf st l t); [assumption|]. intros st1 H1 S1.
  rewrite (at_cur _ _ _ _ H1).
  assert (Hlen : (length (tl l) < fuel)%nat) by (destruct l; cbn in *; lia).
  destruct (negb _) eqn:E; [reflexivity|].
  assert (K : forall st2 l2, at_ cf st2 l2 t -> same st1 st2 -> (length l2 < fuel)%nat ->
    forall base, sim (flt_on cf t st)
      (bind (exp_digits cf fuel (u32_sub (p_cur st2) 48) st2)
        (fun r => let '(ex, st) := r in
                  Ret (Tfloat, set_flt st (fmul (p_flt st) (power_of base ex)))))
      (bind (a_expd cf t (u32_sub (hd0 l2) 48) l2)
        (fun r => Ret (fmul (p_flt st) (power_of base (fst r)), snd r)))).
  { intros st2 l2 H2 S2 Hl2 base. rewrite (at_cur _ _ _ _ H2).
    eapply sim_bind; [apply expd_sim; eassumption|].
    intros [ex st3] [ex' l3] [[H3 S3] He]. cbn in He, H3, S3. subst ex'.
    apply sim_ret. unfold flt_on. cbn [fst snd]. split; [apply at_set; assumption|].
    split; [reflexivity|]. cbn [set_flt p_flt p_neg].
    destruct S1 as (A1 & B1 & C1), S2 as (A2 & B2 & C2), S3 as (A3 & B3 & C3).
    split; congruence. }
  destruct ((hd0 (tl l) =? c_plus) || (hd0 (tl l) =? c_minus)) eqn:Es.
  - apply (read_step _ _ _ cf st1 (tl l) t); [assumption|]. intros st2 H2 S2.
    apply K; [assumption|assumption|]. destruct (tl l); cbn in *; lia.
  - cbn [bind]. rewrite (at_guard _ cf st1 (tl l) t _ H1).
    apply K; [assumption|apply same_refl|assumption].
Qed.

Lemma frac_sim : forall cf t l fraction st fuel, at_ cf st l t -> (length l < fuel)%nat -> l <> [] ->
  sim (flt_on cf t st) (frac_digits cf fuel fraction st) (a_frac cf t fraction (p_flt st) l).
Proof.
  intros cf t l. induction l as [|c l1 IH]; intros fraction st fuel H Hf Hne; [contradiction|].
  destruct fuel as [|f]; [lia|]. cbn [frac_digits a_frac].
  change l1 with (tl (c :: l1)) at 1.
  apply (read_step _ _ _ cf st (c :: l1) t); [assumption|]. intros st' H' S. cbn [tl] in H'.
  rewrite (at_cur _ _ _ _ H').
  destruct S as (Sn & Si & Sf).
  destruct ((hd0 l1 =? c_e) || (hd0 l1 =? c_E)) eqn:Ee.
  { rewrite <- Sf. eapply sim_weaken; [apply exponent_sim; [eassumption|cbn in Hf; lia]|].
    intros a b (P1 & P2 & P3 & P4). repeat split; try assumption. congruence. }
  destruct (is_digit cf (hd0 l1)) eqn:Ed.
  - rewrite <- Sf.
    set (st2 := set_flt st' _).
    assert (Hl1 : l1 <> []).
    { intros ->. unfold is_digit in Ed. cbn in Ed. destruct (src_ck cf); discriminate. }
    eapply sim_weaken; [apply (IH _ st2 f); [apply at_set; exact H'|cbn in Hf; lia|assumption]|].
    intros a b (P1 & P2 & P3 & P4). repeat split; try assumption. rewrite P4. exact Sn.
  - apply sim_ret. unfold flt_on. cbn. repeat split; assumption.
Qed.

Lemma float_sim : forall cf t l st fuel, at_ cf st l t -> (length l < fuel)%nat ->
  sim (flt_on cf t st) (scan_float cf fuel st) (a_float cf t (p_int st) l).
Proof.
  intros cf t l st fuel H Hf. unfold scan_float, a_float.
  set (st0 := set_flt st (f64_of_Z (p_int st))).
  assert (H0 : at_ cf st0 l t) by (apply at_set; assumption).
  rewrite (at_cur _ _ _ _ H0).
  destruct ((hd0 l =? c_e) || (hd0 l =? c_E)).
  { change (f64_of_Z (p_int st)) with (p_flt st0).
    eapply sim_weaken; [apply exponent_sim; eassumption|].
    intros a b (P1 & P2 & P3 & P4). repeat split; assumption. }
  apply (read_step _ _ _ cf st0 l t); [assumption|]. intros st1 H1 (Sn & Si & Sf).
  rewrite (at_cur _ _ _ _ H1).
  destruct (negb (is_digit cf (hd0 (tl l)))) eqn:Ed; [reflexivity|].
  rewrite Sf. change (p_flt st0) with (f64_of_Z (p_int st)).
  set (st2 := set_flt st1 _).
  eapply sim_weaken.
  - apply (frac_sim cf t (tl l) f64_tenth st2 fuel); [apply at_set; exact H1|destruct l; cbn in *; lia|].
    intros E. rewrite E in Ed. unfold is_digit in Ed. cbn in Ed. destruct (src_ck cf); discriminate.
  - intros a b (P1 & P2 & P3 & P4). repeat split; try assumption. rewrite P4. exact Sn.
Qed.

Definition num_on (cf : pcfg) (t : term) (st0 : pst) (r : token * pst) (r' : num * list N) : Prop :=
  at_ cf (snd r) (snd r') t /\ p_neg (snd r) = p_neg st0 /\
  match fst r' with
  | NI z => fst r = Tint /\ p_int (snd r) = z
  | NF f => fst r = Tfloat /\ p_flt (snd r) = f
  end.

Lemma float_num_sim : forall cf t l st fuel, at_ cf st l t -> (length l < fuel)%nat ->
  sim (num_on cf t st) (scan_float cf fuel st) (a_float_num cf t (p_int st) l).
Proof.
  intros cf t l st fuel H Hf. unfold a_float_num.
  pose proof (float_sim cf t l st fuel H Hf) as F.
  destruct (scan_float cf fuel st), (a_float cf t (p_int st) l); cbn in *; auto.
  destruct F as (A & B & C & D). repeat split; assumption.
Qed.

Lemma intd_sim : forall cf t l st fuel, at_ cf st l t -> (length l < fuel)%nat ->
  sim (num_on cf t st) (int_digits cf fuel st) (a_intd cf t (p_int st) l).
Proof.
  intros cf t l. induction l as [|c l1 IH]; intros st fuel H Hf;
    (destruct fuel as [|f]; [lia|]); cbn [int_digits a_intd].
  - pose proof (read_sim cf st [] t H) as R. cbn [tl] in R.
    rewrite (at_nil _ _ _ H) in *. cbn [guard] in R.
    destruct (read_next cf st) as [st'|e| | |]; cbn in R; try contradiction.
    destruct R as [H' (Sn & Si & Sf)]. cbn [bind]. rewrite (at_cur _ _ _ _ H'). cbn [hd0 hd].
    replace (is_digit cf 0) with false by (unfold is_digit; destruct (src_ck cf); reflexivity).
    apply sim_ret. unfold num_on. cbn. repeat split; assumption.
  - change l1 with (tl (c :: l1)) at 1.
    apply (read_step _ _ _ cf st (c :: l1) t); [assumption|]. intros st' H' (Sn & Si & Sf). cbn [tl] in H'.
    rewrite (at_cur _ _ _ _ H'). rewrite <- Si.
    destruct ((hd0 l1 =? c_dot) || (hd0 l1 =? c_e) || (hd0 l1 =? c_E)).
    { eapply sim_weaken; [apply float_num_sim; [eassumption|cbn in Hf; lia]|].
      intros a b (P1 & P2 & P3). repeat split; try assumption. congruence. }
    destruct (is_digit cf (hd0 l1)).
    + destruct (chk64 (p_int st' * 10)) as [z1| | | |] eqn:C1; cbn [bind]; try reflexivity;
        try (unfold chk64 in C1; destruct (in_int64 _); discriminate).
      destruct (chk64 (z1 + _)) as [z2| | | |] eqn:C2; cbn [bind]; try reflexivity;
        try (unfold chk64 in C2; destruct (in_int64 _); discriminate).
      change z2 with (p_int (set_int st' z2)) at 2.
      eapply sim_weaken; [apply IH; [apply at_set; eassumption|cbn in Hf; lia]|].
      intros a b (P1 & P2 & P3). repeat split; try assumption. rewrite P2. exact Sn.
    + apply sim_ret. unfold num_on. cbn. repeat split; assumption.
Qed.

Lemma unsigned_sim : forall cf t l st fuel, at_ cf st l t -> (length l < fuel)%nat -> p_int st = 0%Z ->
  sim (num_on cf t st)
      (if p_cur st =? c_0 then
         let* st := read_next cf st in
         if p_cur st =? c_dot then scan_float cf fuel st
         else if (p_cur st =? c_e) || (p_cur st =? c_E) then fail "invalid exponent"
         else Ret (Tint, st)
       else scan_integer cf fuel st)
      (a_unsigned cf t l).
Proof.
  intros cf t l st fuel H Hf Hz. unfold a_unsigned. rewrite (at_cur _ _ _ _ H).
  destruct (hd0 l =? c_0) eqn:E0.
  - apply (read_step _ _ _ cf st l t); [assumption|]. intros st' H' (Sn & Si & Sf).
    rewrite (at_cur _ _ _ _ H').
    destruct (hd0 (tl l) =? c_dot).
    { rewrite <- Hz, <- Si. eapply sim_weaken; [apply float_num_sim; [eassumption|destruct l; cbn in *; lia]|].
      intros a b (P1 & P2 & P3). repeat split; try assumption. congruence. }
    destruct ((hd0 (tl l) =? c_e) || (hd0 (tl l) =? c_E)); [reflexivity|].
    apply sim_ret. unfold num_on. cbn. repeat split; try assumption. congruence.
  - unfold scan_integer, a_integer. rewrite (at_cur _ _ _ _ H).
    destruct (negb (ndebug cf) && negb (is_digit cf (hd0 l))); [exact I|].
    set (st' := set_int st _).
    change (Z.of_N (u32_sub (hd0 l) 48)) with (p_int st').
    eapply sim_weaken; [apply intd_sim; [apply at_set; eassumption|assumption]|].
    intros a b (P1 & P2 & P3). repeat split; assumption.
Qed.

(** integers produced by the scanner fit and are non-negative *)
Definition num_ok (n : num) : Prop :=
  match n with NI z => (0 <= z <= int64_max)%Z | NF _ => True end.

Lemma guard_ret : forall A t l (k : outcome A) r, guard t l k = Ret r -> k = Ret r /\ at_bad t l = false.
Proof. intros A t l k r H. destruct l, t; cbn in H; try discriminate; auto. Qed.

Lemma a_float_num_NF : forall cf t z l n r, a_float_num cf t z l = Ret (n, r) -> exists f, n = NF f.
Proof.
  intros cf t z l n r H. unfold a_float_num in H.
  destruct (a_float cf t z l) as [[f l']| | | |]; try discriminate. inversion H; subst. eauto.
Qed.

Lemma u32_sub_lt : forall a b, u32_sub a b < 4294967296.
Proof. intros. unfold u32_sub. apply N.mod_lt. discriminate. Qed.

Lemma a_intd_ok : forall cf t l z n r, (0 <= z <= int64_max)%Z ->
  a_intd cf t z l = Ret (n, r) -> num_ok n.
Proof.
  intros cf t l. induction l as [|c l1 IH]; intros z n r Hz H; cbn [a_intd] in H.
  - inversion H; subst. assumption.
  - apply guard_ret in H. destruct H as [H _].
    destruct (_ || _).
    + apply a_float_num_NF in H. destruct H as [f ->]. exact I.
    + destruct (is_digit cf (hd0 l1)); [|inversion H; subst; assumption].
      unfold chk64 in H.
      destruct (in_int64 (z * 10)) eqn:E1; [|discriminate]. cbn [bind] in H.
      destruct (in_int64 (z * 10 + _)) eqn:E2; [|discriminate]. cbn [bind] in H.
      eapply IH; [|exact H]. unfold in_int64, int64_max, int64_min in *. lia.
Qed.

Lemma a_unsigned_ok : forall cf t l n r, a_unsigned cf t l = Ret (n, r) -> num_ok n.
Proof.
  intros cf t l n r H. unfold a_unsigned in H. destruct (hd0 l =? c_0).
  - apply guard_ret in H. destruct H as [H _].
    destruct (hd0 (tl l) =? c_dot); [apply a_float_num_NF in H; destruct H as [f ->]; exact I|].
    destruct (_ || _); [discriminate|]. inversion H; subst. cbn. unfold int64_max. lia.
  - unfold a_integer in H. destruct (_ && _); [discriminate|].
    eapply a_intd_ok; [|exact H]. pose proof (u32_sub_lt (hd0 l) 48). unfold int64_max. lia.
Qed.

(** Token relation. *)
Definition tok_on (cf : pcfg) (t : term) (r : token * pst) (r' : atok * list N) : Prop :=
  at_ cf (snd r) (snd r') t /\
  match fst r' with
  | AT k => fst r = k /\ k <> Tint /\ k <> Tfloat
  | AInt z => fst r = Tint /\ get_integer (snd r) = Ret z
  | AFlt f => fst r = Tfloat /\ get_float (snd r) = f
  end.

Lemma number_sim : forall cf t l st fuel, at_ cf st l t -> (length l < fuel)%nat ->
  sim (tok_on cf t) (scan_number cf fuel st) (a_number cf t l).
Proof.
  intros cf t l st fuel H Hf. unfold scan_number, a_number.
  set (st0 := set_int (set_neg st false) 0%Z).
  assert (H0 : at_ cf st0 l t) by (apply (at_set cf (mkP (p_is st) (p_cur st) false (p_int st) (p_flt st))); apply at_set; assumption).
  rewrite (at_cur _ _ _ _ H0).
  assert (K : forall st1 l1 neg, at_ cf st1 l1 t -> p_neg st1 = neg -> p_int st1 = 0%Z -> (length l1 < fuel)%nat ->
    sim (tok_on cf t)
      (if p_cur st1 =? c_0 then
         let* st := read_next cf st1 in
         if p_cur st =? c_dot then scan_float cf fuel st
         else if (p_cur st =? c_e) || (p_cur st =? c_E) then fail "invalid exponent"
         else Ret (Tint, st)
       else scan_integer cf fuel st1)
      (bind (a_unsigned cf t l1) (fun r => Ret (signed neg (fst r), snd r)))).
  { intros st1 l1 neg H1 Hn Hz Hl.
    pose proof (unsigned_sim cf t l1 st1 fuel H1 Hl Hz) as U.
    match goal with |- sim _ ?x _ => set (X := x) in * end.
    destruct (a_unsigned cf t l1) as [[n r]| | | |] eqn:EU.
    - apply a_unsigned_ok in EU.
      destruct X as [[k st2]| | | |]; cbn in U |- *; try contradiction.
      destruct U as (P1 & P2 & P3). cbn in P1, P2, P3. unfold tok_on. cbn [fst snd]. split; [assumption|].
      destruct n as [z|f]; cbn [signed].
      + destruct P3 as [-> P3]. split; [reflexivity|]. unfold get_integer. rewrite P2, Hn, P3.
        destruct neg; [|reflexivity]. unfold chk64.
        replace (in_int64 (- z)) with true; [reflexivity|].
        cbn in EU. unfold in_int64, int64_max, int64_min in *. lia.
      + destruct P3 as [-> P3]. split; [reflexivity|]. unfold get_float. rewrite P2, Hn, P3. reflexivity.
    - destruct X; cbn in U |- *; auto.
    - destruct X; cbn in U |- *; auto.
    - destruct X; cbn in U |- *; auto.
    - destruct X; cbn in U |- *; auto. }
  destruct ((hd0 l =? c_minus) || (hd0 l =? c_plus)) eqn:Es.
  - set (st1 := set_neg st0 (hd0 l =? c_minus)).
    assert (H1 : at_ cf st1 l t) by (apply at_set; assumption).
    apply (read_step _ _ _ cf st1 l t); [assumption|]. intros st2 H2 (Sn & Si & Sf).
    apply K; [assumption|assumption|assumption|]. destruct l; cbn in *; lia.
  - cbn [bind]. rewrite (at_guard _ cf st0 l t _ H0).
    apply K; [assumption| |reflexivity|assumption].
    cbn. symmetry. apply orb_false_iff in Es. apply Es.
Qed.

Lemma punct_tok : forall c k, punct c = Some k -> k <> Tint /\ k <> Tfloat.
Proof.
  intros c k H. unfold punct in H.
  repeat (match type of H with context [if ?b then _ else _] => destruct b end;
          [inversion H; subst; split; discriminate|]).
  discriminate.
Qed.

Lemma scan_tok_sim : forall cf t l st fuel, at_ cf st l t -> (length l < fuel)%nat ->
  sim (tok_on cf t)
   (if is_eof (p_is st) then Ret (Teoi, st)
    else
      let c := p_cur st in
      match punct c with
      | Some t => let* st := read_next cf st in Ret (t, st)
      | None =>
        if c =? c_t then scan_literal cf lit_true lit_true Ttrue st
        else if c =? c_f then scan_literal cf lit_false lit_false Tfalse st
        else if c =? c_n then scan_literal cf lit_null lit_null Tnull st
        else if c =? c_quote then Ret (Tstring, st)
        else if (c =? c_minus) || (c =? c_plus) || ((48 <=? c) && (c <=? 57))
        then scan_number cf fuel st
        else if c =? 0 then Ret (Teoi, st)
        else fail_code "unexpected character" c
      end)
   (a_scan_tok cf t l).
Proof.
  intros cf t l st fuel H Hf. unfold a_scan_tok. cbv zeta.
  rewrite (at_eof _ _ _ _ H), (at_cur _ _ _ _ H).
  destruct l as [|c l1].
  { apply sim_ret. unfold tok_on. cbn. repeat split; try assumption; discriminate. }
  cbn [hd0 hd].
  destruct (punct c) as [k|] eqn:P.
  { change l1 with (tl (c :: l1)) at 1. apply (read_step _ _ _ cf st (c :: l1) t); [assumption|].
    intros st' H' S. apply sim_ret. unfold tok_on. cbn. split; [assumption|].
    split; [reflexivity|]. eapply punct_tok; eassumption. }
  assert (L : forall w text k, k <> Tint -> k <> Tfloat ->
    sim (tok_on cf t) (scan_literal cf w text k st)
      (bind (a_literal cf t w text (c :: l1)) (fun r => Ret (AT k, r)))).
  { intros w text k K1 K2. pose proof (literal_sim cf t w text k (c :: l1) st H) as X.
    destruct (scan_literal cf w text k st), (a_literal cf t w text (c :: l1)); cbn in *; auto.
    destruct X as [[A B] C]. unfold tok_on. cbn. auto. }
  destruct (c =? c_t); [apply L; discriminate|].
  destruct (c =? c_f); [apply L; discriminate|].
  destruct (c =? c_n); [apply L; discriminate|].
  destruct (c =? c_quote).
  { apply sim_ret. unfold tok_on. cbn. repeat split; try assumption; discriminate. }
  destruct ((c =? c_minus) || (c =? c_plus) || ((48 <=? c) && (c <=? 57))).
  { apply number_sim; assumption. }
  destruct (c =? 0); [|reflexivity].
  apply sim_ret. unfold tok_on. cbn. repeat split; try assumption; discriminate.
Qed.

Lemma scan_sim : forall cf t l st fuel, at_ cf st l t -> (length l < fuel)%nat ->
  sim (tok_on cf t) (scan cf fuel st) (a_scan cf t l).
Proof.
  intros cf t l st fuel H Hf. unfold scan, a_scan.
  eapply (sim_bind _ _ _ _ (fun st' l' => on cf t st st' l' /\ a_skip MWs t l = Ret l')).
  { pose proof (skip_spaces_sim cf t (length l) l st fuel (le_n _) H Hf) as W.
    destruct (skip_spaces cf fuel st), (a_skip MWs t l); cbn in *; auto. }
  intros st1 l1 [[H1 S1] E]. apply a_skip_len in E.
  apply (scan_tok_sim cf t l1 st1 fuel); [assumption|lia].
Qed.

(** ** Strings *)

Lemma hex_sim : forall cf t fs code l st, at_ cf st l t ->
  sim (fun r r' => at_ cf (snd r) (snd r') t /\ fst r = fst r')
      (read_hex cf fs code st) (a_hex t fs code l).
Proof.
  intros cf t fs. induction fs as [|f fs IH]; intros code l st H; cbn [read_hex a_hex].
  - apply sim_ret. cbn. auto.
  - apply (read_step _ _ _ cf st l t); [assumption|]. intros st' H' S.
    rewrite (at_cur _ _ _ _ H'). destruct (hex_val (hd0 (tl l))); [|reflexivity].
    apply IH. assumption.
Qed.

Lemma u_sim : forall cf t l st, at_ cf st l t ->
  sim (fun r r' => at_ cf (snd r) (snd r') t /\ fst r = fst r') (read_u cf st) (a_u t l).
Proof.
  intros cf t l st H. unfold read_u, a_u.
  eapply sim_bind; [apply hex_sim; eassumption|].
  intros [cp st1] [cp' l1] [H1 E]. cbn in H1, E. subst cp'.
  destruct (is_lead_surrogate cp); [|apply sim_ret; cbn; auto].
  apply (read_step _ _ _ cf st1 l1 t); [assumption|]. intros st2 H2 _.
  rewrite (at_cur _ _ _ _ H2).
  destruct (negb (hd0 (tl l1) =? c_bslash)); [reflexivity|].
  apply (read_step _ _ _ cf st2 (tl l1) t); [assumption|]. intros st3 H3 _.
  rewrite (at_cur _ _ _ _ H3).
  destruct (negb (hd0 (tl (tl l1)) =? c_u)); [reflexivity|].
  eapply sim_bind; [apply hex_sim; eassumption|].
  intros [tr st4] [tr' l4] [H4 E]. cbn in H4, E. subst tr'.
  destruct (negb (is_trail_surrogate tr)); [reflexivity|].
  apply sim_ret. cbn. auto.
Qed.

Lemma a_hex_len : forall t fs code l r l', a_hex t fs code l = Ret (r, l') ->
  (length l' + length fs <= length l)%nat.
Proof.
  intros t fs. induction fs as [|f fs IH]; intros code l r l' H; cbn [a_hex] in H.
  - inversion H; subst. cbn. lia.
  - apply guard_ret in H. destruct H as [H _].
    destruct (hex_val (hd0 (tl l))) eqn:E; [|discriminate].
    apply IH in H. destruct l as [|c l]; [discriminate|]. cbn [tl length] in *. lia.
Qed.

Lemma a_u_len : forall t l r l', a_u t l = Ret (r, l') -> (length l' + 4 <= length l)%nat.
Proof.
  intros t l r l' H. unfold a_u in H.
  destruct (a_hex4 t l) as [[cp l1]| | | |] eqn:E; try discriminate. cbn [bind] in H.
  apply a_hex_len in E. cbn [length] in E.
  destruct (is_lead_surrogate cp); [|inversion H; subst; assumption].
  apply guard_ret in H. destruct H as [H _].
  destruct (negb (hd0 (tl l1) =? c_bslash)); [discriminate|].
  apply guard_ret in H. destruct H as [H _].
  destruct (negb _); [discriminate|].
  destruct (a_hex4 t (tl (tl l1))) as [[tr l2]| | | |] eqn:E2; try discriminate. cbn [bind] in H.
  apply a_hex_len in E2. cbn [length] in E2.
  destruct (negb _); [discriminate|]. inversion H; subst.
  assert (length (tl (tl l1)) <= length l1)%nat.
  { destruct l1 as [|? l1]; [cbn; lia|]. cbn. destruct l1; cbn; lia. }
  lia.
Qed.

Definition sres_sim (cf : pcfg) (t : term) (r : ostream * outcome pst) (r' : ostream * outcome (list N)) : Prop :=
  fst r = fst r' /\ sim (fun st l => at_ cf st l t) (snd r) (snd r').

Lemma string_sim : forall cf t n l o st, at_ cf st l t -> (length l <= n)%nat -> n <> 0%nat ->
  sres_sim cf t (scan_string cf n o st) (a_string cf t n o l).
Proof.
  intros cf t n. induction n as [|n IH]; intros l o st H Hl Hn; [contradiction|].
  cbn [scan_string a_string].
  pose proof (read_sim cf st l t H) as R.
  destruct (tl l) as [|c l2] eqn:El.
  { destruct t; cbn [guard] in R; destruct (read_next cf st) as [st'|e| | |]; cbn in R; try contradiction.
    - destruct R as [H' S]. rewrite (at_eof _ _ _ _ H'). split; reflexivity.
    - subst e. split; reflexivity. }
  assert (G : guard t (c :: l2) (Ret tt) = Ret tt) by (destruct t; reflexivity).
  rewrite G in R. destruct (read_next cf st) as [st'|e| | |]; cbn in R; try contradiction.
  destruct R as [H' S].
  rewrite (at_eof _ _ _ _ H'), (at_cur _ _ _ _ H'). cbn [hd0 hd].
  assert (Hlen : (length l2 + 2 <= length l)%nat).
  { destruct l as [|x l0]; [discriminate|]. cbn [tl] in El. subst l0. cbn. lia. }
  destruct (c =? c_quote).
  { split; [reflexivity|]. cbn [fst snd]. pose proof (read_step_ret cf st' (c :: l2) t H') as Q.
    cbn [tl] in Q. eapply sim_weaken; [exact Q|]. intros a b [P _]. exact P. }
  destruct (c <=? 31); [split; reflexivity|].
  destruct (c =? c_bslash).
  - pose proof (read_sim cf st' (c :: l2) t H') as R2. cbn [tl] in R2.
    destruct (at_bad t l2) eqn:B.
    { destruct l2, t; try discriminate. cbn [guard] in R2.
      destruct (read_next cf st'); cbn in R2; try contradiction. subst. split; reflexivity. }
    assert (G2 : guard t l2 (Ret tt) = Ret tt) by (destruct l2, t; try discriminate; reflexivity).
    rewrite G2 in R2. destruct (read_next cf st') as [st2|e| | |]; cbn in R2; try contradiction.
    destruct R2 as [H2 S2]. rewrite (at_cur _ _ _ _ H2).
    destruct (simple_escape (hd0 l2)) as [e|] eqn:Es.
    { apply IH; [assumption|lia|]. destruct l2; [discriminate|]. cbn in Hlen. lia. }
    destruct (hd0 l2 =? c_u); [|split; reflexivity].
    pose proof (u_sim cf t l2 st2 H2) as U.
    destruct (a_u t l2) as [[cp l3]| | | |] eqn:Eu;
      destruct (read_u cf st2) as [[cp' st3]| | | |]; cbn in U; try contradiction.
    + destruct U as [H3 ->]. destruct (os_fail _); [split; reflexivity|].
      apply a_u_len in Eu. apply IH; [assumption|lia|lia].
    + subst. split; reflexivity.
    + split; reflexivity.
    + split; reflexivity.
  - destruct (os_fail _); [split; reflexivity|].
    apply IH; [assumption|cbn; lia|lia].
Qed.

Lemma get_string_sim : forall cf t n l st, at_ cf st l t -> (length l <= n)%nat -> n <> 0%nat ->
  fst (get_string cf n st) = fst (a_get_string cf t n l) /\
  sim (fun st l => at_ cf st l t) (snd (get_string cf n st)) (snd (a_get_string cf t n l)).
Proof.
  intros cf t n l st H Hl Hn. unfold get_string, a_get_string.
  pose proof (string_sim cf t n l (mkOs [] false) st H Hl Hn) as [E S].
  destruct (scan_string cf n (mkOs [] false) st), (a_string cf t n (mkOs [] false) l).
  cbn in *. subst. auto.
Qed.
