(** Stream insertion and extraction. *)
From Coq Require Import Lia ZifyBool ZifyNat ZifyN.
From Verif Require Import Base Stream Encoding SpecUnicode SpecGrammar SpecText SpecDump Value Token Parser FloatFmt Serializer Cpp Convert
  EncodingProofs Feeds ListMachine Simulation SimParse Mono Reach SpecStream StreamProofs NulProofs DumpFacts RoundTrip Wrapper.
Open Scope N_scope.

(** ** Output *)
Lemma put_good : forall vck ock v o t r m, o_good o = true ->
  dump_to (ser_cfg vck ock (o_fmt o) []) HNone (mkOs [] false) v = (t, (r, m)) ->
  put_json vck ock v o = (mkOut true (no_width (o_fmt o)) (o_text o ++ t), r).
Proof. intros vck ock v o t r m G H. unfold put_json, dump_stream. rewrite G, H. reflexivity. Qed.

Lemma put_string_iff : forall vck ock v o w, o_good o = true ->
  (put_json vck ock v o = (mkOut true (no_width (o_fmt o)) (o_text o ++ w), Ret tt) <-> dump_string (ser_cfg vck ock (o_fmt o) []) v = Ret w).
Proof.
  intros vck ock v o w G. unfold put_json, dump_stream, dump_string. rewrite G.
  destruct (dump_to _ HNone (mkOs [] false) v) as [t [r m]]. split; intro H.
  - injection H as H ->. apply app_inv_head in H. subst. reflexivity.
  - destruct r as [[]| | | |]; try discriminate. cbn [bind] in H. injection H as ->. reflexivity.
Qed.

Lemma put_always : forall vck ock v o o' r, put_json vck ock v o = (o', r) ->
  o_good o' = o_good o /\ (exists t, o_text o' = o_text o ++ t) /\ (o_good o = true -> o_fmt o' = no_width (o_fmt o)) /\
  (o_good o = false -> o' = o /\ r = Ret tt).
Proof.
  intros vck ock v o o' r H. unfold put_json, dump_stream in H. destruct (o_good o) eqn:G.
  - destruct (dump_to _ HNone (mkOs [] false) v) as [t [r' m]]. injection H as <- <-. cbn. split; [congruence|]. split; [eauto|]. split; [reflexivity|discriminate].
  - injection H as <- <-. split; [assumption|]. split; [exists []; symmetry; apply app_nil_r|]. split; [discriminate|auto].
Qed.

(** width and fill against the option with_indent *)
Lemma fmt_options : forall vck ock f, (0 <= f_width f < 256)%Z ->
  ser_cfg vck ock f [] = ser_cfg vck ock fmt_default [OIndent (Z.to_N (f_width f)) (f_fill f); OPrecision (f_prec f) (f_ff f)].
Proof.
  intros vck ock [w fl p ff] H. cbn [f_width f_fill f_prec f_ff] in *. unfold ser_cfg, prepare.
  cbn [f_width f_fill f_prec f_ff fold_left apply_opt val_ck val_enc out_ck out_enc s_pretty s_step s_ichar s_esc s_prec s_ff fmt_default].
  rewrite Z.mod_small by lia. replace (0 <? w)%Z with (0 <? Z.to_N w) by lia. reflexivity.
Qed.

Definition shown (ff : ffield) : ffield := match ff with FHex => FGeneral | _ => ff end.

Lemma put_layout : forall vck ock v o w, o_good o = true ->
  let done := put_json vck ock v o = (mkOut true (no_width (o_fmt o)) (o_text o ++ w), Ret tt) in
  let text lay := rend (unit_string (ser_cfg vck ock (o_fmt o) [])) (float_text (shown (f_ff (o_fmt o))) (f_prec (o_fmt o))) lay 0 v w in
  ((f_width (o_fmt o) <= 0)%Z -> (done <-> text compact)) /\
  ((0 < f_width (o_fmt o) < 256)%Z -> f_fill (o_fmt o) <> 0 -> height v < 65536 ->
   (done <-> text (indented (Z.to_N (f_width (o_fmt o))) (f_fill (o_fmt o))))).
Proof.
  intros vck ock v [g [wd fl p ff] tx] w G. cbn [o_good o_fmt o_text f_width f_fill f_prec f_ff] in *. subst g. cbv zeta.
  pose proof (put_string_iff vck ock v (mkOut true (mkFmt wd fl p ff) tx) w eq_refl) as I. cbn [o_fmt o_text] in I.
  set (cf := ser_cfg vck ock (mkFmt wd fl p ff) []) in *.
  assert (Ok : enc_ok (out_enc cf) (out_ck cf) = true) by (destruct ff, ock; reflexivity).
  assert (Ff : s_ff cf = shown ff) by (destruct ff; reflexivity). assert (Pr : s_prec cf = p) by (destruct ff; reflexivity).
  assert (Pp : s_pretty cf = (0 <? wd)%Z) by (destruct ff; reflexivity).
  assert (St : s_step cf = Z.to_N (wd mod 256)) by (destruct ff; reflexivity). assert (Ch : s_ichar cf = fl) by (destruct ff; reflexivity).
  clearbody cf. split.
  - intro L. rewrite I, <- Ff, <- Pr. apply compact_iff; [assumption|]. rewrite Pp. lia.
  - intros L F H. rewrite I, <- Ff, <- Pr, <- Ch. replace (Z.to_N wd) with (s_step cf) by (rewrite St, Z.mod_small by lia; reflexivity).
    apply pretty_iff; [assumption|rewrite Pp; lia|rewrite Ch; assumption|assumption].
Qed.

Lemma put_options : forall vck ock v o, o_good o = true -> (0 <= f_width (o_fmt o) < 256)%Z ->
  let d := dump_to (ser_cfg vck ock fmt_default [OIndent (Z.to_N (f_width (o_fmt o))) (f_fill (o_fmt o)); OPrecision (f_prec (o_fmt o)) (f_ff (o_fmt o))])
             HNone (mkOs [] false) v in
  put_json vck ock v o = (mkOut true (no_width (o_fmt o)) (o_text o ++ fst d), fst (snd d)).
Proof.
  intros vck ock v o G W. cbv zeta. unfold put_json, dump_stream. rewrite G, <- fmt_options by assumption.
  destruct (dump_to (ser_cfg vck ock (o_fmt o) []) HNone (mkOs [] false) v) as [t [r m]]. reflexivity.
Qed.

(** ** Input *)
Lemma keep_parse : forall cf n c b, parse_ibuf cf HNone n c b =
  (fst (parse_keep cf n c b), (let* _ := snd (parse_keep cf n c b) in Ret tt, ""%string)).
Proof.
  intros cf n c b. unfold parse_ibuf, parse_keep. destruct (read_next cf (init_pst b)) as [st| | | |]; try reflexivity.
  unfold parse_body. destruct (do_parse cf n c None st) as [v [st1|e| | |]]; try reflexivity. cbn [bind fst snd].
  destruct (scan cf n st1) as [[t st2]|e| | |]; try reflexivity. cbn [bind fst snd]. destruct t; reflexivity.
Qed.

(** what the parser has left of a string *)
Section Left.
Variables (cf : pcfg) (l0 : list N).
Hypothesis nz : ~ In 0 l0.
Definition units_below (s : list N) : Prop := Forall (fun u => u < eof_unit (src_ck cf)) s \/ src_ck cf = C8.
Definition mark (st : pst) : Prop :=
  (exists pre l s, l0 = pre ++ p_cur st :: l /\ feeds (src_enc cf) (src_ck cf) (p_is st) l TEof /\ p_is st = sis s /\ units_below s) \/
  (is_eof (p_is st) = true /\ is_buf (p_is st) = IStr []).

Lemma eof_buf : forall s c i', units_below s -> (forall cur, exists c, decode (src_enc cf) (src_ck cf) (sis s) cur = (false, c, i')) ->
  decode (src_enc cf) (src_ck cf) (sis s) 0 = (false, c, i') -> is_eof i' = true /\ is_buf i' = IStr [].
Proof.
  intros s c i' U _ D. split; [eapply decode_false_eof; eassumption|].
  destruct s as [|u s].
  - destruct (src_enc cf); cbn in D; unfold ignore_decode, utf8_decode, utf16_decode, utf32_decode in D; cbn in D;
      rewrite ?Z.eqb_refl in D; cbn in D; injection D as _ <-; reflexivity.
  - exfalso. destruct U as [U|U]; [inversion U; subst; eapply no_early_end; eassumption|].
    assert (Ne : Z.eqb (Z.of_N u) (eof_int (src_ck cf)) = false) by (rewrite U; cbn; lia).
    assert (G : is_get (src_ck cf) (sis (u :: s)) = (Z.of_N u, sis s)) by (unfold is_get, is_good, sis; cbn [is_eof is_fail negb andb is_buf throws uflow]; rewrite Ne; reflexivity).
    destruct (src_enc cf); cbn [decode] in D.
    + unfold ignore_decode in D. rewrite G in D. discriminate.
    + unfold utf8_decode, is_peek, is_good, sis in D. cbn [is_eof is_fail negb andb is_buf throws underflow] in D. rewrite Ne in D. cbn [is_eof] in D.
      destruct (utf8_read _ _ _ _). discriminate.
    + unfold utf16_decode in D. rewrite G in D. cbn [is_eof sis] in D. destruct (is_lead_surrogate _); [destruct (is_get _ _); destruct (is_trail_surrogate _)|]; discriminate.
    + unfold utf32_decode in D. rewrite G in D. discriminate.
Qed.

Lemma mark_step : forall i l s, feeds (src_enc cf) (src_ck cf) i l TEof -> i = sis s -> units_below s -> forall st st', p_is st = i ->
  (exists pre, l0 = pre ++ l) -> read_next cf st = Ret st' -> mark st'.
Proof.
  intros i l s F -> U st st' E [pre L] H. unfold read_next in H. rewrite E in H.
  inversion F as [? i' D| |? c i' l' t D G F']; subst.
  - destruct (D (p_cur st)) as [c Dc]. rewrite Dc in H. injection H as <-. right. cbn [p_is]. destruct (D 0) as [c0 D0]. eapply eof_buf; eassumption.
  - rewrite D, G in H. injection H as <-. left. cbn [p_is p_cur]. destruct (decode_suffix _ _ _ _ _ _ (D 0) G) as (ps & s' & -> & ->).
    exists pre, l', s'. split; [assumption|]. split; [assumption|]. split; [reflexivity|].
    destruct U as [U|U]; [left; apply Forall_app in U; apply U|right; assumption].
Qed.

Lemma mark_read : forall st st', mark st -> read_next cf st = Ret st' -> mark st'.
Proof.
  intros st st' [(pre & l & s & L & F & E & U)|[E B]] H.
  - eapply mark_step; [exact F|exact E|exact U|reflexivity| |exact H]. exists (pre ++ [p_cur st]). rewrite <- app_assoc. exact L.
  - right. destruct (decode_at_eof (src_enc cf) (src_ck cf) (p_is st) (p_cur st) E) as (c & i' & D & E'). unfold read_next in H. rewrite D in H.
    injection H as <-. cbn [p_is]. split; [assumption|].
    assert (Ng : is_good (p_is st) = false) by (unfold is_good; rewrite E; reflexivity).
    destruct (p_is st) as [b e f] eqn:Ei. cbn [is_buf is_eof] in *. subst b e. clear -D.
    destruct (src_enc cf); cbn in D; unfold ignore_decode, utf8_decode, utf16_decode, utf32_decode in D; cbn in D; injection D as _ <-; reflexivity.
Qed.

Lemma mark_reach : forall st st', reach cf st st' -> mark st -> mark st'.
Proof.
  intros st st' H. induction H; intro M; auto.
  - apply IHreach. eapply mark_read; eassumption.
Qed.

Lemma mark_end : forall st, mark st -> is_eof (p_is st) = true \/ p_cur st = 0 -> left_in (p_is st) = [].
Proof.
  intros st [(pre & l & s & L & F & E & U)|[E B]] H.
  - exfalso. destruct H as [H|H]; [rewrite E in H; discriminate|]. apply nz. rewrite L, H. apply in_or_app. right. left. reflexivity.
  - unfold left_in. rewrite B. reflexivity.
Qed.
End Left.

Lemma keep_all : forall cf n c s l v i, ~ In 0 l -> feeds (src_enc cf) (src_ck cf) (sis s) l TEof -> units_below cf s ->
  parse_keep cf n c (IStr s) = (v, Ret i) -> left_in i = [].
Proof.
  intros cf n c s l v i Nz F U H. unfold parse_keep in H. destruct (read_next cf (init_pst (IStr s))) as [st| | | |] eqn:E; try discriminate.
  assert (M : mark cf l st).
  { eapply mark_step; [exact F|reflexivity|exact U| |exists []; reflexivity|exact E]. reflexivity. }
  destruct (do_parse cf n c None st) as [w r] eqn:Ed. injection H as _ H. destruct r as [st1| | | |]; try discriminate. cbn [bind] in H.
  destruct (scan cf n st1) as [[t st2]| | | |] eqn:Es; try discriminate. cbn [bind fst snd] in H. destruct t; try discriminate. injection H as <-.
  destruct (r_values cf n) as [Rv _]. apply Rv in Ed. apply r_scan in Es. cbn [fst snd] in Es. destruct Es as [Es Ee].
  eapply mark_end; [exact Nz| |exact (Ee eq_refl)]. eapply mark_reach; [exact Es|]. eapply mark_reach; [exact Ed|exact M].
Qed.

(** ** Leading blanks *)
Lemma low_step : forall e ck u s, u < 128 -> forall cur, decode e ck (sis (u :: s)) cur = (true, u, sis s).
Proof.
  intros e ck u s H cur.
  assert (G : is_get ck (sis (u :: s)) = (Z.of_N u, sis s)).
  { unfold is_get, is_good, sis. cbn [is_eof is_fail negb andb is_buf throws uflow].
    destruct (Z.eqb_spec (Z.of_N u) (eof_int ck)) as [E|E]; [destruct ck; cbn in E; lia|]. reflexivity. }
  assert (E16 : z_u16 (Z.of_N u) = u) by (unfold z_u16; rewrite Z.mod_small by lia; lia).
  assert (E32 : z_u32 (Z.of_N u) = u) by (unfold z_u32; rewrite Z.mod_small by lia; lia).
  destruct e; [|apply ascii_step; assumption| |]; cbn [decode].
  - unfold ignore_decode. rewrite G. cbn [is_eof sis negb]. rewrite E32.
    replace (narrow ck u) with u by (destruct ck; unfold narrow, u8, u16, u32; symmetry; apply N.mod_small; lia).
    replace (z_u32 (int_of_char ck u)) with u; [reflexivity|]. destruct ck; cbn [int_of_char]; rewrite <- E32 at 1; f_equal.
    destruct (N.ltb_spec u 128); [reflexivity|lia].
  - unfold utf16_decode. rewrite G. cbn [is_eof sis]. rewrite E16. replace (is_lead_surrogate u) with false by (unfold is_lead_surrogate; lia).
    destruct (N.ltb_spec 1114111 u); [lia|reflexivity].
  - unfold utf32_decode. rewrite G. cbn [is_eof sis]. rewrite E32. destruct (N.ltb_spec 1114111 u); [lia|reflexivity].
Qed.

Lemma blank_first : forall cf c x s, space x -> parse_into cf HNone c (x :: s) = parse_into cf HNone c s.
Proof.
  intros cf c x s Sp. destruct (feeds_string (src_enc cf) (src_ck cf) s) as (l & t & F & _).
  assert (F2 : feeds (src_enc cf) (src_ck cf) (sis (x :: s)) (x :: l) t).
  { eapply F_cons; [apply low_step; destruct Sp as [->|[->|[->| ->]]]; reflexivity|reflexivity|exact F]. }
  rewrite (parse_into_top cf HNone c _ _ _ F), (parse_into_top cf HNone c _ _ _ F2).
  assert (Is : is_space x = true) by (apply space_iff; assumption).
  assert (Hs : a_scan cf t (x :: l) = guard t l (a_scan cf t l)).
  { unfold a_scan. cbn [a_skip]. rewrite Is. destruct l, t; reflexivity. }
  unfold top, a_top. assert (B : at_bad t (x :: l) = false) by reflexivity. rewrite B.
  assert (N1 : exists n, Mono.need (x :: l) = S n) by (exists (2 * length l + 2)%nat; unfold Mono.need; cbn [length]; lia). destruct N1 as [n N1].
  destruct (at_bad t l) eqn:B2.
  - assert (Q : l = [] /\ exists x0, t = TBad x0) by (destruct l, t; try discriminate; eauto). destruct Q as [-> [x0 ->]].
    rewrite N1. unfold a_body. cbn [a_parse]. rewrite Hs. reflexivity.
  - assert (G : guard t l (a_scan cf t l) = a_scan cf t l) by (destruct l, t; try discriminate; reflexivity).
    replace (a_body cf t (Mono.need (x :: l)) c (x :: l)) with (a_body cf t (Mono.need (x :: l)) c l).
    2: { rewrite N1. unfold a_body. replace (a_parse cf t (S n) c None (x :: l)) with (a_parse cf t (S n) c None l); [reflexivity|].
         cbn [a_parse]. rewrite Hs, G. reflexivity. }
    rewrite (mono_body cf t (Mono.need l)) with (m := Mono.need (x :: l)); [reflexivity| |unfold Mono.need; cbn; lia].
    apply (body_nofuel cf c (IStr s) l t (Mono.need l)); [exact F|assumption|lia].
Qed.

Lemma low_first : forall cf c x s v, x <= 32 -> parse_into cf HNone c (x :: s) = (v, (Ret tt, ""%string)) -> space x.
Proof.
  intros cf c x s v Lx H. unfold parse_into, parse_ibuf, read_next in H. cbn [init_pst p_is p_cur p_neg p_int p_flt] in H. unfold is_open in H.
  change (mkIs (IStr (x :: s)) false false) with (sis (x :: s)) in H. rewrite low_step in H by lia. change (is_good (sis s)) with true in H. cbv iota in H.
  destruct (is_space x) eqn:Is; [apply space_iff; assumption|]. exfalso.
  set (st := mkP (sis s) x false 0 f64_zero) in *. unfold fuel_for in H. set (n := (2 * length (x :: s) + 3)%nat) in *.
  assert (exists m, n = S m) as [m E] by (exists (2 * length (x :: s) + 2)%nat; subst n; lia). clearbody n. subst n.
  assert (Sk : skip_spaces cf (S m) st = Ret st).
  { cbn [skip_spaces skip_ws]. change (p_cur st) with x. rewrite Is. cbn [bind]. change (p_cur st) with x. destruct (N.eqb_spec x c_slash); [lia|reflexivity]. }
  assert (Pn : punct x = None).
  { unfold punct. repeat (match goal with |- (if ?a =? ?b then _ else _) = _ => destruct (N.eqb_spec a b); [lia|] end). reflexivity. }
  assert (Sc : (exists e, scan cf (S m) st = fail e) \/ scan cf (S m) st = Ret (Teoi, st)).
  { unfold scan. rewrite Sk. cbn [bind]. change (is_eof (p_is st)) with false. cbv iota zeta. change (p_cur st) with x. rewrite Pn.
    repeat (match goal with |- context [if ?a =? ?b then _ else _] => destruct (N.eqb_spec a b); [try lia|] end);
      destruct (_ || _) eqn:O; [exfalso; lia| |exfalso; lia|]; [right; reflexivity|left; eexists; reflexivity]. }
  unfold parse_body in H. cbn [do_parse] in H. destruct Sc as [[e Sc]|Sc]; rewrite Sc in H; discriminate.
Qed.

Lemma any_start : forall cf c c' s v, parse_into cf HNone c s = (v, (Ret tt, ""%string)) -> parse_into cf HNone c' s = (v, (Ret tt, ""%string)).
Proof.
  intros cf c c' s v H. unfold parse_into, parse_ibuf in *. destruct (read_next cf (init_pst (IStr s))) as [st| | | |]; try discriminate.
  unfold parse_body in *. unfold fuel_for in *. set (n := (2 * length s + 3)%nat) in *. assert (exists m, n = S m) as [m E] by (subst n; eexists; rewrite Nat.add_succ_r; reflexivity). rewrite E in *.
  assert (K : forall v st', do_parse cf (S m) c None st = (v, Ret st') -> do_parse cf (S m) c' None st = (v, Ret st')).
  { intros w st' K. cbn [do_parse] in *. destruct (scan cf (S m) st) as [[t a]| | | |]; try discriminate. destruct t; try discriminate; assumption. }
  destruct (do_parse cf (S m) c None st) as [w [st'| | | |]]; try discriminate. rewrite (K _ _ eq_refl). exact H.
Qed.

(** ** Extraction *)
Lemma take_bad : forall cf sp i c, i_good i = false -> take_json cf sp i c = (c, Ret i).
Proof. intros cf sp i c G. unfold take_json, sentry. rewrite G. reflexivity. Qed.
Lemma skip_all : forall sp l, Forall (fun c => sp c = true) l -> skip_sp sp l = [].
Proof. intros sp l H. induction H as [|c l Hc H IH]; [reflexivity|]. cbn. rewrite Hc. assumption. Qed.
Lemma skip_app : forall sp w x s, Forall (fun c => sp c = true) w -> sp x = false -> skip_sp sp (w ++ x :: s) = x :: s.
Proof. intros sp w x s H E. induction H as [|c w Hc H IH]; cbn; [rewrite E; reflexivity|]. rewrite Hc. assumption. Qed.
Lemma take_blank : forall cf sp c t, Forall (fun c => sp c = true) t -> take_json cf sp (mkIn true true t) c = (c, Ret (mkIn false true [])).
Proof. intros cf sp c t H. unfold take_json, sentry. cbn [i_good i_skipws i_text]. rewrite (skip_all _ _ H). reflexivity. Qed.

Definition unit_of {A} (r : outcome A) : outcome unit := let* _ := r in Ret tt.

Lemma take_rest : forall cf sp sk w s c, (sk = false /\ w = []) \/ (sk = true /\ Forall (fun c => sp c = true) w /\ exists x s', s = x :: s' /\ sp x = false) ->
  take_json cf sp (mkIn true sk (w ++ s)) c =
  (fst (parse_into cf HNone c s), let* i := snd (parse_keep cf (fuel_for s) c (IStr s)) in Ret (mkIn true sk (left_in i))) /\
  unit_of (snd (take_json cf sp (mkIn true sk (w ++ s)) c)) = fst (snd (parse_into cf HNone c s)).
Proof.
  intros cf sp sk w s c H.
  assert (E : take_json cf sp (mkIn true sk (w ++ s)) c = let '(v, r) := parse_keep cf (fuel_for s) c (IStr s) in (v, let* i := r in Ret (mkIn true sk (left_in i)))).
  { unfold take_json, sentry. cbn [i_good i_skipws i_text]. destruct H as [[-> ->]|(-> & W & x & s' & -> & X)].
    - reflexivity.
    - rewrite (skip_app _ _ _ _ W X). reflexivity. }
  rewrite E. unfold parse_into. rewrite keep_parse. destruct (parse_keep cf (fuel_for s) c (IStr s)) as [v r]. cbn [fst snd].
  split; [reflexivity|]. destruct r; reflexivity.
Qed.

Lemma take_parsed : forall cf sp sk s c v, (forall x, sp x = true -> x <= 32) -> parse_string cf s = Ret v ->
  exists t, take_json cf sp (mkIn true sk s) c = (v, Ret (mkIn true sk t)).
Proof.
  intros cf sp sk s c v Low P.
  assert (P0 : parse_into cf HNone c s = (v, (Ret tt, ""%string))).
  { unfold parse_string in P. apply (any_start cf VNull). unfold parse_into in *. rewrite keep_parse in *. destruct (parse_keep cf (fuel_for s) VNull (IStr s)) as [w r].
    cbn [fst snd] in *. destruct r; try discriminate. cbn [bind] in P. injection P as ->. reflexivity. }
  clear P. assert (Sp : exists w s', s = w ++ s' /\ parse_into cf HNone c s' = (v, (Ret tt, ""%string)) /\
    ((sk = false /\ w = []) \/ (sk = true /\ Forall (fun c => sp c = true) w /\ exists x s2, s' = x :: s2 /\ sp x = false))).
  { destruct sk; [|exists [], s; split; [reflexivity|]; split; [assumption|]; left; auto].
    induction s as [|x s IH].
    - exfalso. destruct (feeds_string (src_enc cf) (src_ck cf) []) as (l & t & F & Ll). assert (l = []) as -> by (destruct l; [reflexivity|cbn in Ll; lia]).
      rewrite (parse_into_top cf HNone c _ _ _ F) in P0. unfold top, a_top in P0. destruct t; cbn in P0; discriminate.
    - destruct (sp x) eqn:X.
      + assert (space x) as Bx by (eapply low_first; [apply Low; assumption|exact P0]). rewrite (blank_first cf c x s Bx) in P0.
        destruct (IH P0) as (w & s' & -> & P' & [[K _]|(_ & W & Q)]); [discriminate|]. exists (x :: w), s'. split; [reflexivity|]. split; [assumption|].
        right. split; [reflexivity|]. split; [constructor; assumption|assumption].
      + exists [], (x :: s). split; [reflexivity|]. split; [assumption|]. right. split; [reflexivity|]. split; [constructor|]. eauto. }
  destruct Sp as (w & s' & -> & P & Q). destruct (take_rest cf sp sk w s' c Q) as [E1 E2]. rewrite E1 in *. rewrite P in *. cbn [fst snd] in *.
  destruct (parse_keep cf (fuel_for s') c (IStr s')) as [v' [i| | | |]]; try discriminate. cbn [snd bind]. eauto.
Qed.

Lemma take_all : forall cf sp sk w s c l v i, ~ In 0 l -> feeds (src_enc cf) (src_ck cf) (sis s) l TEof -> units_below cf s ->
  (sk = false /\ w = []) \/ (sk = true /\ Forall (fun c => sp c = true) w /\ exists x s', s = x :: s' /\ sp x = false) ->
  take_json cf sp (mkIn true sk (w ++ s)) c = (v, Ret i) -> i = mkIn true sk [].
Proof.
  intros cf sp sk w s c l v i Nz F U Q H. destruct (take_rest cf sp sk w s c Q) as [E _]. rewrite E in H. injection H as _ H.
  destruct (parse_keep cf (fuel_for s) c (IStr s)) as [v' [j| | | |]] eqn:K; try discriminate. cbn [snd bind] in H. injection H as <-.
  rewrite (keep_all cf _ _ _ _ _ _ Nz F U K). reflexivity.
Qed.
