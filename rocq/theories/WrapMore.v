(** Stream insertion followed by extraction; other types than json values. *)
From Coq Require Import Lia ZifyBool ZifyNat ZifyN.
From Verif Require Import Base Stream Encoding SpecUnicode SpecGrammar SpecText SpecRfc SpecDump Value Token Parser FloatFmt Serializer Cpp Convert
  EncodingProofs Feeds ListMachine Simulation SimParse Mono Reach SpecStream StreamProofs NulProofs DumpFacts RfcFacts RoundTrip DumpMore Wrapper WrapProofs.
Open Scope N_scope.

(** ** A text without NUL is read to its end *)
Lemma take_whole : forall cf sp sk s c l v, (forall x, sp x = true -> x <= 32) -> ~ In 0 l ->
  feeds (src_enc cf) (src_ck cf) (sis s) l TEof -> units_below cf s -> parse_string cf s = Ret v ->
  take_json cf sp (mkIn true sk s) c = (v, Ret (mkIn true sk [])).
Proof.
  intros cf sp sk s c l v Low Nz F U P. destruct (take_parsed cf sp sk s c v Low P) as [t T].
  assert (Sp : sk = true -> exists w s', s = w ++ s' /\ Forall (fun c => sp c = true) w /\ exists x s2, s' = x :: s2 /\ sp x = false).
  { intros ->. clear - T. assert (G : skip_sp sp s <> [] \/ skip_sp sp s = []) by (destruct (skip_sp sp s); [right|left]; congruence).
    destruct G as [G|G]; [|unfold take_json, sentry in T; cbn [i_good i_skipws i_text] in T; rewrite G in T; discriminate].
    clear T. induction s as [|x s IH]; [exfalso; apply G; reflexivity|]. cbn in G. destruct (sp x) eqn:X.
    - destruct (IH G) as (w & s' & -> & W & Q). exists (x :: w), s'. auto.
    - exists [], (x :: s). split; [reflexivity|]. split; [constructor|]. eauto. }
  assert (Sf : forall w s' l, Forall (fun c => sp c = true) w -> feeds (src_enc cf) (src_ck cf) (sis (w ++ s')) l TEof -> ~ In 0 l ->
    exists l', ~ In 0 l' /\ feeds (src_enc cf) (src_ck cf) (sis s') l' TEof).
  { clear - Low. induction w as [|x w IH]; intros s' l W F Nz; [eauto|]. inversion W as [|? ? X W']; subst. cbn [app] in F.
    assert (L : x < 128) by (specialize (Low _ X); lia).
    inversion F as [i i' H|i c0 i' E H|i cp i' l0 t0 E H F']; subst.
    - destruct (H 0) as [? H0]. rewrite low_step in H0 by assumption. discriminate.
    - specialize (E 0). rewrite low_step in E by assumption. injection E as <- <-. apply (IH s' l0 W' F'). intro Z. apply Nz. right. exact Z. }
  assert (Us : forall w s', units_below cf (w ++ s') -> units_below cf s').
  { intros w s' [H|H]; [left; apply Forall_app in H; tauto|right; assumption]. }
  rewrite T. f_equal. f_equal.
  destruct sk.
  - destruct (Sp eq_refl) as (w & s' & -> & W & Q). destruct (Sf _ _ _ W F Nz) as (l' & Nz' & F').
    eapply (take_all cf sp true w s' c l'); [exact Nz'|exact F'|eapply Us; exact U|right; auto|exact T].
  - eapply (take_all cf sp false [] s c l); [exact Nz|exact F|exact U|left; auto|exact T].
Qed.

(** ** No NUL in JSON texts *)
Definition pos (l : list N) : Prop := Forall (fun c => 0 < c) l.
Lemma pos_app : forall a b, pos a -> pos b -> pos (a ++ b).
Proof. intros a b H G. apply Forall_app. auto. Qed.
Lemma pos_cons : forall c l, 0 < c -> pos l -> pos (c :: l).
Proof. intros. constructor; assumption. Qed.
Lemma pos_nil : pos [].
Proof. constructor. Qed.
Lemma pos_ws : forall g, ws g -> pos g.
Proof. intros g H. eapply Forall_impl; [|exact H]. intros c. cbn. lia. Qed.
Lemma pos_digits : forall l, Forall ascii_digit l -> pos l.
Proof. intros g H. eapply Forall_impl; [|exact H]. intros c. unfold ascii_digit. lia. Qed.
Lemma pos_numeral : forall z w, numeral z w -> pos w.
Proof. intros z w H. destruct H; repeat (apply pos_cons; [lia|]); auto using pos_nil, pos_digits. Qed.
Lemma pos_hex4 : forall w n, hex4 w n -> pos w.
Proof. intros w n H. destruct H. repeat match goal with X : hexd _ _ |- _ => destruct X end; repeat (apply pos_cons; [lia|]); auto using pos_nil. Qed.
Lemma pos_short : forall e c, short e c -> 0 < e.
Proof. intros e c H. destruct H; lia. Qed.
Create HintDb posdb.
#[local] Hint Resolve pos_app pos_nil pos_ws pos_digits pos_numeral pos_hex4 : posdb.
#[local] Hint Extern 2 (pos (_ :: _)) => (apply pos_cons; [lia|]) : posdb.

Combined Scheme rfc_mutind from rfc_val_mut, rfc_elems_mut, rfc_members_mut.
Lemma pos_rfc : forall A e ck,
  (forall w v, rfc_val A e ck w v -> pos w) /\ (forall w v, rfc_elems A e ck w v -> pos w) /\ (forall w v, rfc_members A e ck w v -> pos w).
Proof.
  intros A e ck.
  assert (Mi : forall p neg, minus p neg -> pos p) by (intros ? ? []; auto with posdb).
  assert (Fr : forall z w f, rfc_frac z w f -> pos w) by (intros ? ? ? []; auto with posdb).
  assert (Ex : forall f w g, rfc_exp A f w g -> pos w).
  { intros f w g []; match goal with X : is_e _ |- _ => unfold is_e in X end; auto with posdb. }
  assert (Nu : forall w v, rfc_number A w v -> pos w) by (intros ? ? []; eauto 10 with posdb).
  assert (Ch : forall w c, rfc_char A w c -> pos w).
  { intros w c []; eauto with posdb. - apply pos_cons; [lia|]. apply pos_cons; [eapply pos_short; eassumption|apply pos_nil]. - apply pos_cons; [lia|]. apply pos_cons; [lia|]. apply pos_app; eauto with posdb. }
  assert (Cs : forall w c, rfc_chars A w c -> pos w) by (intros w c H; induction H; eauto with posdb).
  assert (St : forall w s, rfc_string A e ck w s -> pos w) by (intros ? ? []; eauto 6 with posdb).
  apply (rfc_mutind A e ck); eauto 20 with posdb.
Qed.

Lemma pos_text : forall A e ck l v, rfc_text A e ck l v -> ~ In 0 l.
Proof.
  intros A e ck l v [a w b u Wa H Wb] I. assert (P : pos (a ++ w ++ b)).
  { destruct (pos_rfc A e ck) as [P _]. specialize (P _ _ H). auto with posdb. }
  unfold pos in P. rewrite Forall_forall in P. specialize (P _ I). lia.
Qed.

(** ** Insertion, then extraction *)
Lemma below : forall pc L w, src_enc pc = auto_enc (src_ck pc) -> out_text (src_enc pc) (src_ck pc) L = Some w -> units_below pc w.
Proof.
  intros pc L w A E. unfold units_below. rewrite A in E. destruct (src_ck pc); [right; reflexivity| |]; left; revert w E;
    induction L as [|c L IH]; intros w E; cbn [out_text] in E; try (injection E as <-; constructor);
    destruct (out_units _ _ c) as [us|] eqn:U; try discriminate; destruct (out_text _ _ L) as [s|]; try discriminate;
    injection E as <-; (apply Forall_app; split; [|apply IH; reflexivity]); clear IH; cbn [auto_enc eof_unit] in *; unfold out_units in U.
  - unfold units16 in U. destruct (c <? 65536) eqn:C.
    + cbn in U. destruct (c =? 65535) eqn:D; [discriminate|]. injection U as <-. apply Forall_cons; [lia|apply Forall_nil].
    + destruct (c <? 1114112) eqn:D; [|discriminate]. match type of U with (if ?b then _ else _) = _ => destruct b; [discriminate|] end.
      apply some_inj in U; subst us. pose proof (N.mod_lt (c - 65536) 1024 ltac:(discriminate)). assert ((c - 65536) / 1024 < 1024) by (apply N.div_lt_upper_bound; lia).
      apply Forall_cons; [lia|]. apply Forall_cons; [lia|]. apply Forall_nil.
  - unfold units32 in U. destruct (c <? 1114112) eqn:D; [|discriminate]. match type of U with (if ?b then _ else _) = _ => destruct b; [discriminate|] end.
    injection U as <-. apply Forall_cons; [lia|apply Forall_nil].
Qed.

Lemma auto_ok : forall ck, enc_ok (auto_enc ck) ck = true.
Proof. intros []; reflexivity. Qed.

Lemma put_take : forall pc vck ock v o sp sk c, let cf := ser_cfg vck ock (o_fmt o) [] in
  ock <> C16 -> o_good o = true -> reads pc cf ->
  ((0 < f_width (o_fmt o))%Z -> space (f_fill (o_fmt o))) -> (forall x, sp x = true -> x <= 32) -> ok_value plain cf v ->
  exists w, put_json vck ock v o = (mkOut true (no_width (o_fmt o)) (o_text o ++ w), Ret tt) /\ take_json pc sp (mkIn true sk w) c = (v, Ret (mkIn true sk [])).
Proof.
  intros pc vck ock v [g [wd fl p ff] tx] sp sk c cf O16 G R Sp Low O. cbn [o_good o_fmt o_text f_width f_fill] in *. subst g.
  assert (Eo : out_enc cf = auto_enc ock /\ out_ck cf = ock /\ val_enc cf = auto_enc vck /\ val_ck cf = vck /\ s_pretty cf = (0 <? wd)%Z /\ s_ichar cf = fl)
    by (destruct ff; repeat split; reflexivity).
  destruct Eo as (E1 & E2 & E3 & E4 & E5 & E6).
  assert (Ho : enc_ok (out_enc cf) (out_ck cf) = true) by (rewrite E1, E2; apply auto_ok).
  assert (Hv : enc_ok (val_enc cf) (val_ck cf) = true) by (rewrite E3, E4; apply auto_ok).
  assert (Ig : out_enc cf = Ignore -> s_esc cf = true) by (rewrite E1; destruct ock; discriminate).
  assert (Wo : wide_out cf) by (unfold wide_out; rewrite E1, E2; destruct ock; cbn; [exact Logic.I|congruence|reflexivity]).
  assert (B : blank_indent cf).
  { intro P. rewrite E5 in P. rewrite E6. apply Sp. lia. }
  destruct (round_trip_all pc cf v R Ho Hv Wo Ig B O) as (w & D & P). exists w. split.
  - apply (put_string_iff vck ock v (mkOut true (mkFmt wd fl p ff) tx) w eq_refl). exact D.
  - destruct (dump_rfc plain cf v w Ho Hv B O D) as (L & T & E & Pl). destruct R as (R1 & R2 & R3 & R4).
    apply (take_whole pc sp sk w c L v Low); [eapply pos_text; exact T| | |exact P].
    + rewrite R1, R2. apply feeds_enc_text; [assumption|rewrite <- out_text_enc; assumption|].
      eapply Forall_impl; [|exact Pl]. intros x [X|[Es X]].
      * apply faithful_rt. unfold faithful, SpecGrammar.lead. destruct (out_enc cf); try exact Logic.I; lia.
      * apply faithful_rt. unfold faithful. destruct X as (_ & Lx & _). rewrite E1. destruct ock; try exact Logic.I. intro Y. exact (Lx Y).
    + apply (below pc L); [rewrite R1, R2, E1, E2; reflexivity|rewrite R1, R2; exact E].
Qed.

(** ** Other types *)
Lemma put_conv : forall e vck ock t x o v, of_cpp e t x = Ret v -> put_typed e vck ock t x o = put_json vck ock v o.
Proof. intros e vck ock t x o v H. unfold put_typed, put_json. rewrite H. reflexivity. Qed.
Lemma put_fail : forall e vck ock t x o r, o_good o = true -> of_cpp e t x = Throw r -> put_typed e vck ock t x o = (o, Throw r).
Proof. intros e vck ock t x o r G H. unfold put_typed. rewrite G, H. reflexivity. Qed.

Lemma take_conv : forall e cf sp t i x, 
  (forall v i' , take_json cf sp i VNull = (v, Ret i') -> i_good i' = true ->
     take_typed e cf sp t i x = match get e t v with Ret y => (y, Ret i') | r => (x, stop r) end) /\ (forall v i' , take_json cf sp i VNull = (v, Ret i') -> i_good i' = false -> take_typed e cf sp t i x = (x, Ret i')) /\ (forall v r, take_json cf sp i VNull = (v, Throw r) -> take_typed e cf sp t i x = (x, Throw r)).
Proof.
  intros e cf sp t i x. unfold take_json, take_typed. destruct (sentry sp i) as [[j|] k] eqn:S.
  - destruct (parse_keep cf (fuel_for (i_text j)) VNull (IStr (i_text j))) as [v r].
    split; [|split].
    + intros v' i' H G. destruct r; try discriminate. cbn [bind] in H. injection H as <- <-. reflexivity.
    + intros v' i' H G. destruct r; try discriminate. cbn [bind] in H. injection H as <- <-. discriminate.
    + intros v' r' H. destruct r; try discriminate. cbn [bind] in H. injection H as <- <-. reflexivity.
  - assert (K : i_good k = false).
    { unfold sentry in S. destruct (i_good i) eqn:G; [destruct (i_skipws i); [destruct (skip_sp sp (i_text i)); [|discriminate]|discriminate]|]; injection S as <-; [reflexivity|assumption]. }
    split; [|split]; intros v' r'; try discriminate; intros H; injection H as <- <-; intros; [congruence|reflexivity].
Qed.

(** what an extraction does past the blanks, without the stream's buffer *)
Lemma take_same : forall cf sp sk w s c v r,
  (sk = false /\ w = []) \/ (sk = true /\ Forall (fun c => sp c = true) w /\ exists x s', s = x :: s' /\ sp x = false) ->
  take_json cf sp (mkIn true sk (w ++ s)) c = (v, r) ->
  parse_into cf HNone c s = (v, (unit_of r, ""%string)) /\ (forall i, r = Ret i -> i_good i = true /\ i_skipws i = sk).
Proof.
  intros cf sp sk w s c v r Q H. destruct (take_rest cf sp sk w s c Q) as [E1 E2]. rewrite H in *. cbn [fst snd] in *.
  rewrite E2. injection E1 as -> ->. split.
  - unfold parse_into. rewrite keep_parse. reflexivity.
  - intros i Hi. destruct (snd (parse_keep cf (fuel_for s) c (IStr s))); try discriminate. cbn [bind] in Hi. injection Hi as <-. split; reflexivity.
Qed.
