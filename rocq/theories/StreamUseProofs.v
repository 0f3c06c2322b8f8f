(** Facts about streams with state bits and masks, and loops over them. *)
From Coq Require Import Lia ZifyBool ZifyNat ZifyN.
From Verif Require Import Base Stream Encoding SpecUnicode SpecGrammar SpecText SpecRfc SpecDump Value Token Parser FloatFmt Serializer Cpp Convert SpecConv
  EncodingProofs Feeds ListMachine Simulation SimParse Mono Reach SpecStream StreamProofs TextFacts GrammarLex GrammarTok GrammarFacts NulProofs DumpFacts RfcFacts
  RoundTrip DumpMore Wrapper WrapProofs WrapMore Reuse SpecReuse ReuseParse ReuseMain StreamUse.
Open Scope N_scope.

(** ** The sentry *)
Lemma low_not_end : forall ck u, u <= 32 -> ends_input ck u = false.
Proof. intros ck u H. unfold ends_input. destruct ck; cbn [eof_int]; lia. Qed.
Lemma below_not_end : forall cf s, units_below cf s -> Forall (fun u => ends_input (src_ck cf) u = false) s.
Proof.
  intros cf s [H|H].
  - eapply Forall_impl; [|exact H]. intros u L. cbn in L. unfold ends_input. destruct (src_ck cf); cbn [eof_int eof_unit] in *; lia.
  - rewrite H. apply Forall_forall. intros u _. unfold ends_input. cbn [eof_int]. lia.
Qed.

Lemma join_fail : forall b, join b just_fail = mkIos (b_eof b) true (b_bad b).
Proof. intros [[] [] []]; reflexivity. Qed.
Lemma join_good : forall b, good b = true -> b = mkIos false false false.
Proof. intros [[] [] []]; cbn; intro; try discriminate; reflexivity. Qed.

Definition blank_unit (ck : ckind) (sp : N -> bool) (u : N) : bool := negb (ends_input ck u) && sp u.

Lemma skip_split : forall f l, exists w r, l = w ++ r /\ Forall (fun u => f u = true) w /\ skip_sp f l = r /\ (r = [] \/ exists x r', r = x :: r' /\ f x = false).
Proof.
  intros f l. induction l as [|x l (w & r & E & W & S & C)].
  - exists [], []. repeat split; auto.
  - cbn [skip_sp]. destruct (f x) eqn:X.
    + exists (x :: w), r. split; [cbn; rewrite E; reflexivity|]. split; [constructor; assumption|]. split; assumption.
    + exists [], (x :: l). repeat split; auto. right. eauto.
Qed.

Lemma skip_to : forall f w x s, Forall (fun u => f u = true) w -> f x = false -> skip_sp f (w ++ x :: s) = x :: s.
Proof. exact skip_app. Qed.

(** nothing to read *)
Lemma prefix_bad : forall ck sp s, good (c_ios s) = false ->
  prefix ck sp s = inl (mkIos (b_eof (c_ios s)) true (b_bad (c_ios s)), Some (c_text s),
    if meets (mkIos (b_eof (c_ios s)) true (b_bad (c_ios s))) (c_mask s) then Failure else Went).
Proof. intros ck sp s G. unfold prefix, setstate. rewrite G, join_fail. reflexivity. Qed.

Lemma prefix_none : forall ck sp s w r, good (c_ios s) = true -> c_skip s = true -> c_text s = w ++ r ->
  Forall (fun u => ends_input ck u = false /\ sp u = true) w -> (r = [] \/ exists u r', r = u :: r' /\ ends_input ck u = true) ->
  prefix ck sp s = inl (eof_fail, Some r, if meets eof_fail (c_mask s) then Failure else Went).
Proof.
  intros ck sp s w r G K T W R. unfold prefix, setstate. rewrite G, K, T.
  assert (S : skip_sp (blank_unit ck sp) (w ++ r) = r).
  { destruct R as [->|(u & r' & -> & U)].
    - rewrite app_nil_r. apply skip_all. eapply Forall_impl; [|exact W]. intros u [A B]. unfold blank_unit. rewrite A, B. reflexivity.
    - apply skip_to; [|unfold blank_unit; rewrite U; reflexivity]. eapply Forall_impl; [|exact W]. intros v [A B]. unfold blank_unit. rewrite A, B. reflexivity. }
  unfold blank_unit in S. cbv zeta. rewrite S. rewrite (join_good _ G).
  replace (match r with [] => true | u :: _ => ends_input ck u end) with true; [reflexivity|].
  destruct R as [->|(u & r' & -> & U)]; [reflexivity|symmetry; exact U].
Qed.

(** something to read *)
Lemma prefix_some : forall ck sp s w r, good (c_ios s) = true -> c_text s = w ++ r ->
  (c_skip s = false /\ w = []) \/
  (c_skip s = true /\ Forall (fun u => ends_input ck u = false /\ sp u = true) w /\ exists u r', r = u :: r' /\ ends_input ck u = false /\ sp u = false) ->
  prefix ck sp s = inr r.
Proof.
  intros ck sp s w r G T [[K ->]|(K & W & u & r' & -> & U & V)]; unfold prefix; rewrite G, K, T; [reflexivity|].
  assert (S : skip_sp (blank_unit ck sp) (w ++ u :: r') = u :: r').
  { apply skip_to; [|unfold blank_unit; rewrite U, V; reflexivity]. eapply Forall_impl; [|exact W]. intros x [A B]. unfold blank_unit. rewrite A, B. reflexivity. }
  unfold blank_unit in S. cbv zeta. rewrite S, U. reflexivity.
Qed.

Lemma keep_into : forall cf c l, parse_into cf HNone c l =
  (fst (parse_keep cf (fuel_for l) c (IStr l)), (unit_of (snd (parse_keep cf (fuel_for l) c (IStr l))), ""%string)).
Proof. intros. unfold parse_into. rewrite keep_parse. reflexivity. Qed.
Lemma ends_unit : forall A (r : outcome A), ends r = ends (unit_of r).
Proof. intros A [x| | | |]; reflexivity. Qed.

(** ** Documents: what extraction reads, and what it leaves *)
Lemma blank_tail_low : forall x l l1, x <= 32 -> blank (x :: l) l1 -> (match l1 with [] => True | c :: _ => 32 < c end) -> blank l l1.
Proof.
  intros x l l1 X B C. inversion B; subst; try assumption; try lia.
Qed.
Lemma val_low : forall cf x l v r, x <= 32 -> val cf (x :: l) v r -> val cf l v r.
Proof.
  intros cf x l v r X V. inversion V as [? l1 ? ? B K|? l1 ? ? B K|? l1 ? ? B K|? l1 ? ? B K|? l1 ? ? ? B K K']; subst.
  - eapply v_lit; [eapply blank_tail_low; [exact X|exact B|]|exact K]. destruct (literal_start _ _ _ _ K) as (c & l2 & -> & Q). cbn. lia.
  - eapply v_num; [eapply blank_tail_low; [exact X|exact B|]|exact K]. destruct (number_start _ _ _ _ _ K) as (c & l2 & -> & Q). cbn. unfold num_start in Q. lia.
  - eapply v_str; [eapply blank_tail_low; [exact X|exact B|]|exact K]. inversion K; subst; cbn; lia.
  - eapply v_arr; [eapply blank_tail_low; [exact X|exact B|]|exact K]. cbn. lia.
  - eapply v_obj; [eapply blank_tail_low; [exact X|exact B|]|exact K|exact K']. cbn. lia.
Qed.
Lemma doc_low : forall cf x l v rest, x <= 32 -> document cf (x :: l) v rest -> document cf l v rest.
Proof.
  intros cf x l v rest X D. inversion D; subst.
  - eapply doc_end; [eapply val_low; eassumption|assumption].
  - eapply doc_nul; [eapply val_low; eassumption|assumption].
Qed.

Lemma doc_nonempty : forall cf v rest, enc_ok (tgt_enc cf) (tgt_ck cf) = true -> ~ document cf [] v rest.
Proof. intros cf v rest Hok D. apply document_shorter in D; [|assumption]. cbn in D. lia. Qed.

(** what is left is an end of the text *)
Definition suf (s0 : list N) (st : pst) : Prop := is_good (p_is st) = true -> exists p t, s0 = p ++ t /\ p_is st = sis t.
Lemma suf_read : forall cf l s0 st st', mark cf l st -> suf s0 st -> read_next cf st = Ret st' -> suf s0 st'.
Proof.
  intros cf l s0 st st' M S H G. unfold read_next in H. destruct M as [(pre & l2 & s & _ & _ & E & _)|[E _]].
  - destruct S as (p & t & -> & E'); [rewrite E; reflexivity|]. rewrite E' in H. destruct (decode (src_enc cf) (src_ck cf) (sis t) (p_cur st)) as [[ok c] i'] eqn:D.
    destruct ok.
    + destruct (is_good i') eqn:Gi; [|discriminate]. injection H as <-. cbn [p_is] in *. destruct (decode_suffix _ _ _ _ _ _ D Gi) as (q & t' & -> & ->).
      exists (p ++ q), t'. rewrite <- app_assoc. auto.
    + injection H as <-. cbn [p_is] in G. apply decode_false_eof in D. unfold is_good in G. rewrite D in G. discriminate.
  - exfalso. destruct (decode_at_eof (src_enc cf) (src_ck cf) (p_is st) (p_cur st) E) as (c & i' & D & E'). rewrite D in H.
    injection H as <-. cbn [p_is] in G. unfold is_good in G. rewrite E' in G. discriminate.
Qed.
Lemma suf_reach : forall cf l s0 st st', reach cf st st' -> mark cf l st -> suf s0 st -> suf s0 st'.
Proof.
  intros cf l s0 st st' H. induction H; intros M S; auto. apply IHreach; [eapply mark_read; eassumption|eapply suf_read; eassumption].
Qed.

(** what follows the document is left, as units *)
Lemma keep_doc : forall cf c s l v rest n, enc_ok (tgt_enc cf) (tgt_ck cf) = true ->
  feeds (src_enc cf) (src_ck cf) (sis s) l TEof -> units_below cf s -> document cf l v rest -> (2 * length l + 1 <= n)%nat ->
  exists i, parse_keep cf n c (IStr s) = (v, Ret i) /\ (rest = [] -> left_in i = []) /\
    forall l1, rest = 0 :: l1 -> feeds (src_enc cf) (src_ck cf) (sis (left_in i)) l1 TEof /\ units_below cf (left_in i) /\ exists p, s = p ++ left_in i.
Proof.
  intros cf c s l v rest n Hok F U D L.
  destruct (again_rest cf TEof n c (init_pst (IStr s)) l v rest Hok eq_refl F L D) as (st' & E & A); [left; reflexivity|].
  assert (M : mark cf l st' /\ suf s st').
  { unfold parse_again in E. destruct (read_next cf (init_pst (IStr s))) as [st| | | |] eqn:R; try discriminate.
    assert (M : mark cf l st).
    { eapply mark_step; [exact F|reflexivity|exact U| |exists []; reflexivity|exact R]. reflexivity. }
    destruct (do_parse cf n c None st) as [w r] eqn:Ed. injection E as _ H. destruct r as [st1| | | |]; try discriminate. cbn [bind] in H.
    destruct (scan cf n st1) as [[t st2]| | | |] eqn:Es; try discriminate. cbn [bind fst snd] in H. destruct t; try discriminate. injection H as <-.
    destruct (r_values cf n) as [Rv _]. apply Rv in Ed. apply r_scan in Es. cbn [fst snd] in Es. destruct Es as [Es Ee].
    assert (S : suf s st).
    { intro G. unfold read_next in R. cbn [init_pst p_is p_cur] in R. change (is_open (IStr s)) with (sis s) in R.
      destruct (decode (src_enc cf) (src_ck cf) (sis s) 0) as [[ok c0] i'] eqn:Dc. destruct ok.
      - destruct (is_good i') eqn:Gi; [|discriminate]. injection R as <-. cbn [p_is]. destruct (decode_suffix _ _ _ _ _ _ Dc Gi) as (q & t' & -> & ->). eauto.
      - injection R as <-. cbn [p_is] in G. apply decode_false_eof in Dc. unfold is_good in G. rewrite Dc in G. discriminate. }
    pose proof (mark_reach cf l _ _ Ed M) as M1. split; [eapply mark_reach; [exact Es|exact M1]|].
    eapply suf_reach; [exact Es|exact M1|]. eapply suf_reach; [exact Ed|exact M|exact S]. }
  destruct M as [M Su].
  exists (p_is st'). rewrite keep_again, E. cbn [fst snd bind]. split; [reflexivity|]. split.
  - intros ->. apply at_eof in A. destruct M as [(pre & l2 & s2 & _ & _ & E2 & _)|[_ B]].
    + rewrite E2 in A. discriminate.
    + unfold left_in. rewrite B. reflexivity.
  - intros l1 ->. apply at_zero in A. destruct A as [G F1]. destruct M as [(pre & l2 & s2 & _ & _ & E2 & U2)|[B _]].
    + destruct (Su G) as (p & t & -> & Et). rewrite E2 in *. split; [assumption|]. split; [assumption|]. exists p. injection Et as ->. reflexivity.
    + unfold is_good in G. rewrite B in G. discriminate.
Qed.

Lemma doc_skip : forall cf sp s l v rest, enc_ok (tgt_enc cf) (tgt_ck cf) = true -> (forall x, sp x = true -> x <= 32) ->
  feeds (src_enc cf) (src_ck cf) (sis s) l TEof -> units_below cf s -> document cf l v rest ->
  exists w s' l', s = w ++ s' /\ feeds (src_enc cf) (src_ck cf) (sis s') l' TEof /\ units_below cf s' /\ document cf l' v rest /\
    Forall (fun u => ends_input (src_ck cf) u = false /\ sp u = true) w /\ exists u r', s' = u :: r' /\ ends_input (src_ck cf) u = false /\ sp u = false.
Proof.
  intros cf sp s l v rest Hok Low. revert l. induction s as [|x s IH]; intros l F U D.
  - exfalso. destruct (feeds_string (src_enc cf) (src_ck cf) []) as (l' & t & F' & Ll). assert (l' = []) as -> by (destruct l'; [reflexivity|cbn in Ll; lia]).
    destruct (feeds_det _ _ _ _ _ F' _ _ F) as [<- _]. eapply doc_nonempty; eassumption.
  - pose proof (below_not_end cf _ U) as Ne. inversion Ne as [|? ? N1 N2]; subst. destruct (sp x) eqn:X.
    + pose proof (Low x X) as Lx. destruct (feeds_string (src_enc cf) (src_ck cf) s) as (l' & t & F' & Ll).
      assert (F2 : feeds (src_enc cf) (src_ck cf) (sis (x :: s)) (x :: l') t) by (eapply F_cons; [apply low_step; lia|reflexivity|exact F']).
      destruct (feeds_det _ _ _ _ _ F2 _ _ F) as [<- ->]. apply doc_low in D; [|assumption].
      assert (U' : units_below cf s) by (destruct U as [U|U]; [left; inversion U; assumption|right; assumption]).
      destruct (IH l' F' U' D) as (w & s' & l2 & -> & F3 & U3 & D3 & W & Q). exists (x :: w), s', l2.
      split; [reflexivity|]. repeat split; try assumption. constructor; [split; assumption|assumption].
    + exists [], (x :: s), l. repeat split; try assumption; [constructor|]. exists x, s. auto.
Qed.

(** ** One extraction *)
Lemma extract_doc : forall cf sp b m sk s l v rest, enc_ok (tgt_enc cf) (tgt_ck cf) = true -> (forall x, sp x = true -> x <= 32) -> good b = true ->
  feeds (src_enc cf) (src_ck cf) (sis s) l TEof -> units_below cf s -> document cf l v rest ->
  exists t, (forall c, extract cf sp (mkCin b m sk s) c = (v, (b, Some t, Went))) /\
    (forall e ty x, extract_typed e cf sp ty (mkCin b m sk s) x =
       match get e ty v with Ret y => (y, (b, Some t, Went)) | r => (x, (b, Some t, ends r)) end) /\
    (rest = [] -> t = []) /\ forall l1, rest = 0 :: l1 -> feeds (src_enc cf) (src_ck cf) (sis t) l1 TEof /\ units_below cf t.
Proof.
  intros cf sp b m sk s l v rest Hok Low G F U D.
  assert (X : exists w s' l', s = w ++ s' /\ feeds (src_enc cf) (src_ck cf) (sis s') l' TEof /\ units_below cf s' /\ document cf l' v rest /\
    ((sk = false /\ w = []) \/ (sk = true /\ Forall (fun u => ends_input (src_ck cf) u = false /\ sp u = true) w /\ exists u r', s' = u :: r' /\ ends_input (src_ck cf) u = false /\ sp u = false))).
  { destruct sk.
    - destruct (doc_skip cf sp s l v rest Hok Low F U D) as (w & s' & l' & E & F' & U' & D' & Q). exists w, s', l'. repeat (split; [assumption|]). right. auto.
    - exists [], s, l. repeat (split; [reflexivity || assumption|]). left. auto. }
  destruct X as (w & s' & l' & E & F' & U' & D' & Q).
  assert (P : prefix (src_ck cf) sp (mkCin b m sk s) = inr s') by (eapply prefix_some; [exact G|exact E|exact Q]).
  assert (Lf : (2 * length l' + 1 <= fuel_for s')%nat) by (pose proof (feeds_short _ _ _ _ _ F'); unfold fuel_for; lia).
  destruct (keep_doc cf VNull s' l' v rest _ Hok F' U' D' Lf) as (i & K & R1 & R2). exists (left_in i). split; [|split; [|split; [assumption|intros l1 H; destruct (R2 l1 H) as (? & ? & _); auto]]].
  - intro c'. unfold extract. rewrite P. destruct (keep_doc cf c' s' l' v rest _ Hok F' U' D' Lf) as (i' & K' & _). rewrite K'.
    assert (i' = i) as ->; [|reflexivity]. rewrite keep_again in K, K'.
    assert (Q2 : forall a st, parse_again cf (fuel_for s') VNull (init_pst (IStr s')) = (a, Ret st) -> parse_again cf (fuel_for s') c' (init_pst (IStr s')) = (a, Ret st)).
    { intros a st H. unfold parse_again in *. destruct (read_next cf (init_pst (IStr s'))) as [st0| | | |]; try discriminate.
      unfold fuel_for in *. set (n := (2 * length s' + 3)%nat) in *. assert (exists k, n = Datatypes.S k) as [k En] by (subst n; eexists; rewrite Nat.add_succ_r; reflexivity). rewrite En in *.
      assert (Z : forall v st', do_parse cf (Datatypes.S k) VNull None st0 = (v, Ret st') -> do_parse cf (Datatypes.S k) c' None st0 = (v, Ret st')).
      { intros w0 st' Z. cbn [do_parse] in *. destruct (scan cf (Datatypes.S k) st0) as [[t a0]| | | |]; try discriminate. destruct t; try discriminate; assumption. }
      destruct (do_parse cf (Datatypes.S k) VNull None st0) as [w0 [st'| | | |]]; try discriminate. rewrite (Z _ _ eq_refl). exact H. }
    destruct (parse_again cf (fuel_for s') VNull (init_pst (IStr s'))) as [a [st| | | |]]; try discriminate. rewrite (Q2 _ _ eq_refl) in K'. cbn [fst snd bind] in K, K'.
    injection K as _ <-. injection K' as _ <-. reflexivity.
  - intros e ty x. unfold extract_typed. rewrite P, K. reflexivity.
Qed.
