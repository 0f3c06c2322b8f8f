(** Main results about streams with state bits and masks. *)
From Coq Require Import Lia ZifyBool ZifyNat ZifyN.
From Verif Require Import Base Stream Encoding SpecUnicode SpecGrammar SpecText SpecRfc SpecDump Value Token Parser FloatFmt Serializer Cpp Convert SpecConv
  EncodingProofs Feeds ListMachine Simulation SimParse Mono Reach SpecStream StreamProofs TextFacts GrammarLex GrammarTok GrammarFacts NulProofs DumpFacts RfcFacts
  RoundTrip DumpMore Wrapper WrapProofs WrapMore Reuse SpecReuse ReuseParse ReuseMain StreamUse SpecStreamUse StreamUseProofs.
Open Scope N_scope.

(** ** One extraction *)
Definition masked (m : ios) (a : after) : after :=
  let '(b, t, w) := a in (b, t, match w with Went => if meets b m then Failure else Went | w => w end).
Definition no_mask : ios := mkIos false false false.

Lemma meets_none : forall b, meets b no_mask = false.
Proof. intros [[] [] []]; reflexivity. Qed.
Lemma meets_good : forall b m, good b = true -> meets b m = false.
Proof. intros b m G. rewrite (join_good b G). reflexivity. Qed.
Lemma good_not_failed : forall b, good b = true -> failed b = false.
Proof. intros b G. rewrite (join_good b G). reflexivity. Qed.

Lemma prefix_mask : forall ck sp b m sk s, prefix ck sp (mkCin b m sk s) =
  match prefix ck sp (mkCin b no_mask sk s) with inl a => inl (masked m a) | inr l => inr l end.
Proof.
  intros ck sp b m sk s. unfold prefix. cbn [c_ios c_mask c_skip c_text]. destruct (good b); [destruct sk; [cbv zeta; destruct (match _ with [] => _ | _ => _ end)|]|];
    try reflexivity; unfold setstate; cbn [masked]; rewrite meets_none; reflexivity.
Qed.

(** bits after an extraction *)
Lemma prefix_bits : forall ck sp s b t w, prefix ck sp s = inl (b, t, w) -> failed b = true /\ exists x, t = Some x.
Proof.
  intros ck sp s b t w H. unfold prefix, setstate in H. destruct (good (c_ios s)).
  - destruct (c_skip s); [|discriminate]. cbv zeta in H. destruct (match _ with [] => _ | _ => _ end); [|discriminate]. injection H as <- <- _.
    split; [|eauto]. unfold failed. cbn. rewrite Bool.orb_true_r. reflexivity.
  - injection H as <- <- _. split; [|eauto]. unfold failed. cbn. rewrite Bool.orb_true_r. reflexivity.
Qed.
Lemma prefix_good : forall ck sp s l, prefix ck sp s = inr l -> good (c_ios s) = true.
Proof. intros ck sp s l H. unfold prefix, setstate in H. destruct (good (c_ios s)); [reflexivity|discriminate]. Qed.

Definition step_ok {A} (step : cin -> A -> A * after) : Prop := forall b m sk s x,
  (let '(y, a) := step (mkCin b no_mask sk s) x in step (mkCin b m sk s) x = (y, masked m a)) /\
  (let '(_, (b', t, w)) := step (mkCin b m sk s) x in (failed b' = true \/ good b' = true) /\ (w <> Failure -> t = None -> exists r, w = Threw r) /\
     (good b' = true -> b' = b /\ w <> Failure)).

Lemma ends_not : forall A (r : outcome A), ends r <> Failure.
Proof. intros A [x| | | |]; discriminate. Qed.
Lemma masked_good : forall m b t w, good b = true -> masked m (b, t, w) = (b, t, w).
Proof. intros m b t w G. cbn. rewrite (meets_good b m G). destruct w; reflexivity. Qed.

Lemma json_step : forall cf sp, step_ok (extract cf sp).
Proof.
  intros cf sp b m sk s x. unfold extract. rewrite (prefix_mask _ _ b m). cbn [c_ios].
  destruct (prefix (src_ck cf) sp (mkCin b no_mask sk s)) as [[[b' t] w]|l] eqn:P.
  - split; [reflexivity|]. cbn [masked]. apply prefix_bits in P. destruct P as [Fl [y ->]]. split; [auto|]. split; [discriminate|].
    intro G. rewrite (good_not_failed _ G) in Fl. discriminate.
  - pose proof (prefix_good _ _ _ _ P) as G. cbn [c_ios] in G. destruct (parse_keep cf (fuel_for l) x (IStr l)) as [v r]. split; [rewrite (masked_good _ _ _ _ G); reflexivity|].
    split; [auto|]. split; [|intros _; split; [reflexivity|apply ends_not]]. intros _ T. destruct r; try discriminate; cbn; eauto.
Qed.
Lemma typed_step : forall e cf sp ty, step_ok (extract_typed e cf sp ty).
Proof.
  intros e cf sp ty b m sk s x. unfold extract_typed. rewrite (prefix_mask _ _ b m). cbn [c_ios].
  destruct (prefix (src_ck cf) sp (mkCin b no_mask sk s)) as [[[b' t] w]|l] eqn:P.
  - split; [reflexivity|]. cbn [masked]. apply prefix_bits in P. destruct P as [Fl [y ->]]. split; [auto|]. split; [discriminate|].
    intro G. rewrite (good_not_failed _ G) in Fl. discriminate.
  - pose proof (prefix_good _ _ _ _ P) as G. cbn [c_ios] in G. destruct (parse_keep cf (fuel_for l) VNull (IStr l)) as [v r].
    destruct r as [i| | | |]; [destruct (get e ty v)|..]; (split; [rewrite (masked_good _ _ _ _ G); reflexivity|]);
      (split; [auto|]); (split; [intros _ T; try discriminate; cbn; eauto|intros _; split; [reflexivity|try discriminate; apply ends_not]]).
Qed.

(** ** Loops with and without a mask *)
Lemma loop_mask : forall A (step : cin -> A -> A * after), step_ok step -> forall k b m sk s x, k <> O ->
  collect step k (mkCin b m sk s) x = let '(l, a) := collect step k (mkCin b no_mask sk s) x in (l, masked m a).
Proof.
  intros A step Ok k b m sk s x Nk.
  assert (X : forall k b s x, good b = true \/ k <> O -> collect step k (mkCin b m sk s) x = let '(l, a) := collect step k (mkCin b no_mask sk s) x in (l, masked m a)).
  { clear k b s x Nk. intro k. induction k as [|k IH]; intros b s x H.
    - destruct H as [G|H]; [|congruence]. cbn [collect c_ios c_text]. rewrite (masked_good _ _ _ _ G). reflexivity.
    - cbn [collect c_mask c_skip]. destruct (Ok b m sk s x) as [E B]. destruct (Ok b no_mask sk s x) as [_ B0].
      destruct (step (mkCin b no_mask sk s) x) as [y [[b' t] w]]. rewrite E in *. cbn [masked] in *. clear E.
      destruct B as (B1 & B2 & B3), B0 as (C1 & C2 & C3). destruct w as [| |r].
      + destruct t as [t|]; [|exfalso; destruct (C2 ltac:(discriminate) eq_refl); discriminate].
        destruct C1 as [F|G].
        * rewrite F. destruct (meets b' m) eqn:M; cbn [masked]; rewrite ?F, ?M; reflexivity.
        * rewrite (meets_good _ m G), (good_not_failed _ G). rewrite (IH b' t y (or_introl G)).
          destruct (collect step k (mkCin b' no_mask sk t) y) as [l a]. reflexivity.
      + destruct t; reflexivity.
      + destruct t; reflexivity. }
  apply X. auto.
Qed.

(** ** Loops over documents *)
Definition reads_as {A} (cf : pcfg) (step : cin -> A -> A * after) (v : value) (y : A) : Prop :=
  forall b m sk s l rest, good b = true -> feeds (src_enc cf) (src_ck cf) (sis s) l TEof -> units_below cf s -> document cf l v rest ->
  exists t, (forall x, step (mkCin b m sk s) x = (y, (b, Some t, Went))) /\
    (rest = [] -> t = []) /\ forall l1, rest = 0 :: l1 -> feeds (src_enc cf) (src_ck cf) (sis t) l1 TEof /\ units_below cf t.

Lemma json_reads : forall cf sp v, enc_ok (tgt_enc cf) (tgt_ck cf) = true -> (forall x, sp x = true -> x <= 32) -> reads_as cf (extract cf sp) v v.
Proof.
  intros cf sp v Hok Low b m sk s l rest G F U D. destruct (extract_doc cf sp b m sk s l v rest Hok Low G F U D) as (t & E & _ & R). eauto.
Qed.
Lemma typed_reads : forall e cf sp ty v y, enc_ok (tgt_enc cf) (tgt_ck cf) = true -> (forall x, sp x = true -> x <= 32) -> get e ty v = Ret y ->
  reads_as cf (extract_typed e cf sp ty) v y.
Proof.
  intros e cf sp ty v y Hok Low C b m sk s l rest G F U D. destruct (extract_doc cf sp b m sk s l v rest Hok Low G F U D) as (t & _ & E & R).
  exists t. split; [|exact R]. intro x. rewrite E, C. reflexivity.
Qed.

Lemma loop_docs : forall A cf (step : cin -> A -> A * after) b m sk l vs rest, good b = true -> docs cf l vs rest ->
  forall s ys, feeds (src_enc cf) (src_ck cf) (sis s) l TEof -> units_below cf s -> Forall2 (reads_as cf step) vs ys ->
  exists t, (rest = [] -> t = []) /\ (forall l1, rest = 0 :: l1 -> feeds (src_enc cf) (src_ck cf) (sis t) l1 TEof /\ units_below cf t) /\
    forall k x, collect step (length vs + k) (mkCin b m sk s) x =
      let '(zs, a) := collect step k (mkCin b m sk t) (last ys x) in (ys ++ zs, a).
Proof.
  intros A cf step b m sk l vs rest G D. induction D as [l v rest D|l v l1 vs rest D Ds IH]; intros s ys F U R.
  - inversion R as [|? y ? ys' R1 R2]; subst. inversion R2; subst. destruct (R1 b m sk s l rest G F U D) as (t & E & T1 & T2).
    exists t. split; [assumption|]. split; [assumption|]. intros k x. cbn [length Nat.add collect c_mask c_skip last app]. rewrite E, (good_not_failed _ G). reflexivity.
  - inversion R as [|? y ? ys' R1 R2]; subst. destruct (R1 b m sk s l (0 :: l1) G F U D) as (t & E & _ & T2). destruct (T2 l1 eq_refl) as [F1 U1].
    destruct (IH t ys' F1 U1 R2) as (t' & P1 & P2 & P3). exists t'. split; [assumption|]. split; [assumption|].
    intros k x. cbn [length Nat.add collect c_mask c_skip]. rewrite E, (good_not_failed _ G). rewrite (P3 k y).
    assert (L : last (y :: ys') x = last ys' y).
    { clear. revert y. induction ys' as [|z zs IH]; intro y; [reflexivity|]. change (last (y :: z :: zs) x) with (last (z :: zs) x). rewrite (IH z).
      destruct zs; [reflexivity|]. change (last (z :: a :: zs) y) with (last (a :: zs) y). clear. revert a. induction zs as [|c zs IH]; intro a; [reflexivity|]. cbn. apply IH. }
    rewrite L. destruct (collect step k (mkCin b m sk t') (last ys' y)) as [zs a]. reflexivity.
Qed.

Lemma feeds_none : forall cf s, units_below cf s -> feeds (src_enc cf) (src_ck cf) (sis s) [] TEof -> s = [].
Proof.
  intros cf s U F. inversion F as [? i' D| |]; subst. destruct s as [|u s]; [reflexivity|]. exfalso.
  destruct (D 0) as [c D0].
  destruct U as [U|U]; [inversion U; subst; eapply no_early_end; eassumption|].
  assert (Ne : Z.eqb (Z.of_N u) (eof_int (src_ck cf)) = false) by (rewrite U; cbn; lia).
  assert (G : is_get (src_ck cf) (sis (u :: s)) = (Z.of_N u, sis s)) by (unfold is_get, is_good, sis; cbn [is_eof is_fail negb andb is_buf throws uflow]; rewrite Ne; reflexivity).
  destruct (src_enc cf); cbn [decode] in D0.
  + unfold ignore_decode in D0. rewrite G in D0. discriminate.
  + unfold utf8_decode, is_peek, is_good, sis in D0. cbn [is_eof is_fail negb andb is_buf throws underflow] in D0. rewrite Ne in D0. cbn [is_eof] in D0.
    destruct (utf8_read _ _ _ _). discriminate.
  + unfold utf16_decode in D0. rewrite G in D0. cbn [is_eof sis] in D0. destruct (is_lead_surrogate _); [destruct (is_get _ _); destruct (is_trail_surrogate _)|]; discriminate.
  + unfold utf32_decode in D0. rewrite G in D0. discriminate.
Qed.

Lemma step_blank : forall cf sp b m s, good b = true -> Forall (fun u => ends_input (src_ck cf) u = false /\ sp u = true) s ->
  prefix (src_ck cf) sp (mkCin b m true s) = inl (eof_fail, Some [], if meets eof_fail m then Failure else Went).
Proof. intros cf sp b m s G W. eapply (prefix_none _ _ (mkCin b m true s) s []); [exact G|reflexivity|symmetry; apply app_nil_r|exact W|left; reflexivity]. Qed.

Lemma docs_end : forall A cf sp (step : cin -> A -> A * after) b m l vs rest s ys x k, good b = true -> docs cf l vs rest -> rest = [] \/ rest = [0] ->
  feeds (src_enc cf) (src_ck cf) (sis s) l TEof -> units_below cf s -> Forall2 (reads_as cf step) vs ys ->
  (forall a s x, prefix (src_ck cf) sp s = inl a -> step s x = (x, a)) -> (length vs < k)%nat ->
  collect step k (mkCin b m true s) x = (ys, (eof_fail, Some [], if meets eof_fail m then Failure else Went)).
Proof.
  intros A cf sp step b m l vs rest s ys x k G D Hr F U R St K.
  destruct (loop_docs A cf step b m true l vs rest G D s ys F U R) as (t & T1 & T2 & E).
  assert (t = []) as ->.
  { destruct Hr as [->| ->]; [auto|]. destruct (T2 [] eq_refl) as [F1 U1]. eapply feeds_none; eassumption. }
  replace k with (length vs + Datatypes.S (k - length vs - 1))%nat by lia. rewrite E. cbn [collect].
  rewrite (St _ _ _ (step_blank cf sp b m [] G (Forall_nil _))). destruct (meets eof_fail m); [rewrite app_nil_r; reflexivity|].
  change (failed eof_fail) with true. cbv iota. rewrite app_nil_r. reflexivity.
Qed.

Lemma json_stop : forall cf sp a s x, prefix (src_ck cf) sp s = inl a -> extract cf sp s x = (x, a).
Proof. intros cf sp a s x P. unfold extract. rewrite P. reflexivity. Qed.
Lemma typed_stop : forall e cf sp ty a s x, prefix (src_ck cf) sp s = inl a -> extract_typed e cf sp ty s x = (x, a).
Proof. intros e cf sp ty a s x P. unfold extract_typed. rewrite P. reflexivity. Qed.

Lemma self_reads : forall cf sp vs, enc_ok (tgt_enc cf) (tgt_ck cf) = true -> (forall x, sp x = true -> x <= 32) -> Forall2 (reads_as cf (extract cf sp)) vs vs.
Proof. intros cf sp vs Hok Low. induction vs; constructor; [apply json_reads; assumption|assumption]. Qed.

Lemma json_loop : forall cf sp b m l vs rest s x k, enc_ok (tgt_enc cf) (tgt_ck cf) = true -> (forall x, sp x = true -> x <= 32) -> good b = true ->
  feeds (src_enc cf) (src_ck cf) (is_open (IStr s)) l TEof -> (src_ck cf = C8 \/ Forall (fun u => u < eof_unit (src_ck cf)) s) ->
  docs cf l vs rest -> rest = [] \/ rest = [0] -> (length vs < k)%nat ->
  collect (extract cf sp) k (mkCin b m true s) x = (vs, (eof_fail, Some [], if meets eof_fail m then Failure else Went)).
Proof.
  intros cf sp b m l vs rest s x k Hok Low G F U D Hr K.
  apply (docs_end value cf sp (extract cf sp) b m l vs rest s vs x k G D Hr F); [destruct U; [right|left]; assumption|apply self_reads; assumption|apply json_stop|assumption].
Qed.
Lemma typed_loop : forall e cf sp ty b m l vs ys rest s x k, enc_ok (tgt_enc cf) (tgt_ck cf) = true -> (forall x, sp x = true -> x <= 32) -> good b = true ->
  feeds (src_enc cf) (src_ck cf) (is_open (IStr s)) l TEof -> (src_ck cf = C8 \/ Forall (fun u => u < eof_unit (src_ck cf)) s) ->
  docs cf l vs rest -> rest = [] \/ rest = [0] -> Forall2 (fun v y => get e ty v = Ret y) vs ys -> (length vs < k)%nat ->
  collect (extract_typed e cf sp ty) k (mkCin b m true s) x = (ys, (eof_fail, Some [], if meets eof_fail m then Failure else Went)).
Proof.
  intros e cf sp ty b m l vs ys rest s x k Hok Low G F U D Hr C K.
  apply (docs_end cval cf sp (extract_typed e cf sp ty) b m l vs rest s ys x k G D Hr F); [destruct U; [right|left]; assumption| |apply typed_stop|assumption].
  clear -Hok Low C. induction C; constructor; [apply typed_reads; assumption|assumption].
Qed.

Lemma feeds_empty : forall e ck, feeds e ck (sis []) [] TEof.
Proof.
  intros e ck. destruct (feeds_string e ck []) as (l' & tm & F' & Ll). assert (l' = []) as -> by (destruct l'; [reflexivity|cbn in Ll; lia]).
  assert (tm = TEof) as ->; [|exact F'].
  inversion F' as [|? c0 i' D0 B0|]; subst; [reflexivity|]. exfalso. specialize (D0 0).
  destruct e; cbn in D0; unfold ignore_decode, utf8_decode, utf16_decode, utf32_decode in D0; cbn in D0; rewrite ?Z.eqb_refl in D0; cbn in D0; discriminate.
Qed.

(** without skipws the loop ends with an exception *)
Lemma noskip_loop : forall cf sp b m l vs rest s x k, enc_ok (tgt_enc cf) (tgt_ck cf) = true -> (forall x, sp x = true -> x <= 32) -> good b = true ->
  feeds (src_enc cf) (src_ck cf) (is_open (IStr s)) l TEof -> (src_ck cf = C8 \/ Forall (fun u => u < eof_unit (src_ck cf)) s) ->
  docs cf l vs rest -> rest = [] \/ rest = [0] -> (length vs < k)%nat ->
  collect (extract cf sp) k (mkCin b m false s) x = (vs, (b, None, Threw (Throw (EDeser "unexpected token 'end_of_input'")))).
Proof.
  intros cf sp b m l vs rest s x k Hok Low G F U D Hr K.
  assert (U' : units_below cf s) by (destruct U; [right|left]; assumption).
  destruct (loop_docs value cf (extract cf sp) b m false l vs rest G D s vs F U' (self_reads cf sp vs Hok Low)) as (t & T1 & T2 & E).
  assert (t = []) as ->.
  { destruct Hr as [->| ->]; [auto|]. destruct (T2 [] eq_refl) as [F1 U1]. eapply feeds_none; eassumption. }
  replace k with (length vs + Datatypes.S (k - length vs - 1))%nat by lia. rewrite E. cbn [collect].
  assert (X : forall c, extract cf sp (mkCin b m false []) c = (c, (b, None, Threw (Throw (EDeser "unexpected token 'end_of_input'"))))).
  { intro c. unfold extract, prefix. cbn [c_ios c_skip c_text]. rewrite G.
    rewrite keep_again. rewrite (no_document cf TEof (fuel_for []) c (init_pst (IStr [])) [] []); [reflexivity|reflexivity|apply feeds_empty|unfold fuel_for; cbn; lia| |auto].
    apply bl_none. exact Logic.I. }
  rewrite X. rewrite app_nil_r. reflexivity.
Qed.

(** what a loop that ends without other exceptions has read *)
Lemma feeds_low : forall e ck w s l, Forall (fun u => u <= 32) w -> feeds e ck (sis (w ++ s)) l TEof -> exists l', l = w ++ l' /\ feeds e ck (sis s) l' TEof.
Proof.
  intros e ck w s l W. revert l. induction W as [|x w X W IH]; intros l F; [exists l; auto|].
  destruct (feeds_string e ck (w ++ s)) as (l' & t & F' & Ll).
  assert (F2 : feeds e ck (sis (x :: w ++ s)) (x :: l') t) by (eapply F_cons; [apply low_step; lia|reflexivity|exact F']).
  destruct (feeds_det _ _ _ _ _ F2 _ _ F) as [<- ->]. destruct (IH l' F') as (l2 & -> & F3). exists l2. auto.
Qed.

Lemma loop_series : forall cf sp b m, enc_ok (tgt_enc cf) (tgt_ck cf) = true -> (forall x, sp x = true -> x <= 32) -> good b = true ->
  forall k s l x vs b' t w, feeds (src_enc cf) (src_ck cf) (sis s) l TEof -> units_below cf s ->
  collect (extract cf sp) k (mkCin b m true s) x = (vs, (b', t, w)) -> (forall r, w <> Threw r) ->
  series cf sp s vs /\ b' = eof_fail /\ t = Some [] /\ (w = Failure <-> meets eof_fail m = true).
Proof.
  intros cf sp b m Hok Low G k. induction k as [|k IH]; intros s l x vs b' t w F U H Nt.
  { cbn [collect] in H. injection H as _ _ _ <-. exfalso. eapply Nt. reflexivity. }
  cbn [collect c_mask c_skip] in H. destruct (skip_split (blank_unit (src_ck cf) sp) s) as (q & r & E & Q & _ & C).
  assert (Q1 : Forall (fun u => ends_input (src_ck cf) u = false /\ sp u = true) q).
  { eapply Forall_impl; [|exact Q]. intros u X. cbn in X. unfold blank_unit in X. apply Bool.andb_true_iff in X. destruct X as [X1 X2]. apply Bool.negb_true_iff in X1. auto. }
  assert (Q2 : Forall (fun u => sp u = true) q) by (eapply Forall_impl; [|exact Q1]; intros u [_ X]; exact X).
  destruct C as [->|(u & r' & -> & V)].
  - rewrite app_nil_r in E. subst q. rewrite (json_stop cf sp _ _ x (step_blank cf sp b m s G Q1)) in H.
    destruct (meets eof_fail m) eqn:M.
    + injection H as <- <- <- <-. split; [apply se_none; assumption|]. repeat split; auto.
    + change (failed eof_fail) with true in H. cbv iota in H. injection H as <- <- <- <-. split; [apply se_none; assumption|]. repeat split; auto; discriminate.
  - assert (Lq : Forall (fun u => u <= 32) q) by (eapply Forall_impl; [|exact Q2]; intros a X; apply Low; exact X).
    subst s. destruct (feeds_low _ _ q (u :: r') l Lq F) as (l' & -> & F').
    assert (U' : units_below cf (u :: r')) by (destruct U as [U|U]; [left; apply Forall_app in U; apply U|right; assumption]).
    pose proof (below_not_end cf _ U') as Ne. inversion Ne as [|? ? N1 _]; subst.
    assert (Sp : sp u = false) by (unfold blank_unit in V; rewrite N1 in V; exact V).
    assert (P : prefix (src_ck cf) sp (mkCin b m true (q ++ u :: r')) = inr (u :: r')).
    { eapply prefix_some; [exact G|reflexivity|]. right. split; [reflexivity|]. split; [assumption|]. eauto. }
    assert (X : extract cf sp (mkCin b m true (q ++ u :: r')) x = let '(v, r) := parse_keep cf (fuel_for (u :: r')) x (IStr (u :: r')) in
      (v, (b, match r with Ret i => Some (left_in i) | _ => None end, ends r))) by (unfold extract; rewrite P; reflexivity).
    rewrite X in H. clear X.
    assert (Lf : (2 * length l' + 1 <= fuel_for (u :: r'))%nat) by (pose proof (feeds_short _ _ _ _ _ F'); unfold fuel_for; lia).
    destruct (parse_keep cf (fuel_for (u :: r')) x (IStr (u :: r'))) as [v o] eqn:K.
    destruct o as [i| | | |]; cbn [ends stop] in H; try (injection H as _ _ _ <-; exfalso; eapply Nt; reflexivity).
    rewrite (good_not_failed _ G) in H.
    assert (D : exists rest, document cf l' v rest).
    { rewrite keep_again in K. destruct (parse_again cf (fuel_for (u :: r')) x (init_pst (IStr (u :: r')))) as [v' [st| | | |]] eqn:A; try discriminate.
      cbn [fst snd bind] in K. injection K as -> _.
      destruct (proj1 (again_iff cf TEof _ x (init_pst (IStr (u :: r'))) l' v Hok eq_refl F' Lf) (ex_intro _ st A)) as (rest & D & _). eauto. }
    destruct D as [rest D]. destruct (keep_doc cf x (u :: r') l' v rest _ Hok F' U' D Lf) as (i' & K' & R1 & R2). rewrite K in K'. injection K' as <-.
    destruct (collect (extract cf sp) k (mkCin b m true (left_in i)) v) as [vs' [[b2 t2] w2]] eqn:Ec. injection H as <- <- <- <-.
    destruct rest as [|z l1].
    + rewrite (R1 eq_refl) in Ec. pose proof (feeds_empty (src_enc cf) (src_ck cf)) as F0.
      assert (U0 : units_below cf []) by (left; constructor).
      destruct (IH [] [] v vs' b2 t2 w2 F0 U0 Ec Nt) as (S & B).
      split; [|exact B]. destruct k as [|k]; [cbn [collect] in Ec; injection Ec as _ _ _ <-; exfalso; eapply Nt; reflexivity|].
      cbn [collect] in Ec. rewrite (json_stop cf sp _ _ v (step_blank cf sp b m [] G (Forall_nil _))) in Ec.
      assert (vs' = []) as ->.
      { destruct (meets eof_fail m); [congruence|]. change (failed eof_fail) with true in Ec. cbv iota in Ec. congruence. }
      eapply se_last; eassumption.
    + assert (z = 0) as -> by (inversion D; reflexivity). destruct (R2 l1 eq_refl) as (F1 & U1 & p & Ep).
      destruct (IH (left_in i) l1 v vs' b2 t2 w2 F1 U1 Ec Nt) as (S & B). split; [|exact B].
      rewrite Ep. rewrite Ep in F'. eapply se_more; eassumption.
Qed.

(** ** Output *)
Lemma insert_good : forall fb vck ock v b m f t, good b = true ->
  insert fb vck ock v (mkCout b m f t) = let '(o, r) := put_json vck ock v (mkOut true f t) in (mkCout b m (o_fmt o) (o_text o), ends r).
Proof. intros fb vck ock v b m f t G. unfold insert, dump_out. cbn [u_ios u_mask u_fmt u_text]. rewrite G. reflexivity. Qed.
Lemma insert_conv : forall fb e vck ock ty x b m f t, good b = true ->
  insert_typed fb e vck ock ty x (mkCout b m f t) = let '(o, r) := put_typed e vck ock ty x (mkOut true f t) in (mkCout b m (o_fmt o) (o_text o), ends r).
Proof.
  intros fb e vck ock ty x b m f t G. unfold insert_typed, put_typed, dump_out. cbn [u_ios u_mask u_fmt u_text o_good]. rewrite G.
  destruct (of_cpp e ty x); reflexivity.
Qed.
Lemma refuse_all : forall fb o, refuse fb o =
  (mkCout (mkIos (b_eof (u_ios o)) (b_fail (u_ios o) || fb (u_ios o)) (b_bad (u_ios o))) (u_mask o) (u_fmt o) (u_text o),
   if fb (u_ios o) && meets (mkIos (b_eof (u_ios o)) true (b_bad (u_ios o))) (u_mask o) then Failure else Went).
Proof.
  intros fb [b m f t]. unfold refuse, setstate. cbn [u_ios u_mask u_fmt u_text]. destruct (fb b); cbn [andb].
  - rewrite join_fail, Bool.orb_true_r. reflexivity.
  - rewrite Bool.orb_false_r. destruct b as [[] [] []]; reflexivity.
Qed.

Lemma ok_no_width : forall vck ock f v, ok_value plain (ser_cfg vck ock f []) v -> ok_value plain (ser_cfg vck ock (no_width f) []) v.
Proof.
  intros vck ock f v H x S. specialize (H x S).
  assert (K : forall s, ok_string plain (ser_cfg vck ock f []) s -> ok_string plain (ser_cfg vck ock (no_width f) []) s).
  { intros s [cps E C]. destruct f as [wd fl p []]; apply (oks _ _ _ cps); assumption. }
  destruct x; cbn in *; try assumption; [apply K; assumption|]. destruct H as [H1 H2]. split; [assumption|].
  eapply Forall_impl; [|exact H2]. intros a Ha. apply K. exact Ha.
Qed.

Lemma write_docs : forall pc fb vck ock vs b m f t, let cf := ser_cfg vck ock f [] in
  ock <> C16 -> good b = true -> reads pc cf -> ((0 < f_width f)%Z -> space (f_fill f)) -> Forall (ok_value plain cf) vs ->
  exists w L, write_all fb vck ock vs (mkCout b m f t) = (mkCout b m (match vs with [] => f | _ => no_width f end) (t ++ w), Went) /\
    out_text (auto_enc ock) ock L = Some w /\ Forall (fun x => x < 128 \/ plain_cp plain cf x) L /\ (vs = [] -> L = []) /\ (vs <> [] -> docs pc L vs [0]).
Proof.
  intros pc fb vck ock vs. induction vs as [|v vs IH]; intros b m f t cf O16 G R Sp O.
  - exists [], []. cbn [write_all out_text]. rewrite app_nil_r. repeat split; congruence || constructor.
  - inversion O as [|? ? O1 O2]; subst. destruct f as [wd fl p ff]. cbn [f_width f_fill] in Sp.
    assert (Eo : out_enc cf = auto_enc ock /\ out_ck cf = ock /\ val_enc cf = auto_enc vck /\ val_ck cf = vck /\ s_pretty cf = (0 <? wd)%Z /\ s_ichar cf = fl)
      by (destruct ff; repeat split; reflexivity).
    destruct Eo as (E1 & E2 & E3 & E4 & E5 & E6).
    assert (Ho : enc_ok (out_enc cf) (out_ck cf) = true) by (rewrite E1, E2; apply auto_ok).
    assert (Hv : enc_ok (val_enc cf) (val_ck cf) = true) by (rewrite E3, E4; apply auto_ok).
    assert (Ig : out_enc cf = Ignore -> s_esc cf = true) by (rewrite E1; destruct ock; discriminate).
    assert (Wo : wide_out cf) by (unfold wide_out; rewrite E1, E2; destruct ock; cbn; [exact Logic.I|congruence|reflexivity]).
    assert (B : blank_indent cf) by (intro P; rewrite E5 in P; rewrite E6; apply Sp; lia).
    destruct (round_trip_all pc cf v R Ho Hv Wo Ig B O1) as (w & D & _).
    destruct (dump_rfc plain cf v w Ho Hv B O1 D) as (L & T & E & Pl).
    set (f := mkFmt wd fl p ff) in *.
    assert (Ei : insert fb vck ock v (mkCout b m f t) = (mkCout b m (no_width f) (t ++ w), Went)).
    { rewrite insert_good by assumption. rewrite (proj2 (put_string_iff vck ock v (mkOut true f t) w eq_refl) D). reflexivity. }
    assert (O2' : Forall (ok_value plain (ser_cfg vck ock (no_width f) [])) vs) by (eapply Forall_impl; [|exact O2]; intros a Ha; apply ok_no_width; exact Ha).
    assert (R' : reads pc (ser_cfg vck ock (no_width f) [])) by (destruct R as (R1 & R2 & R3 & R4); subst f cf; destruct ff; repeat split; assumption).
    destruct (IH b m (no_width f) ((t ++ w) ++ [0]) O16 G R' ltac:(cbn; lia) O2') as (w2 & L2 & W2 & T2 & P2 & Z2 & D2).
    exists ((w ++ [0]) ++ w2), ((L ++ [0]) ++ L2). split; [|split; [|split; [|split; [discriminate|]]]].
    + cbn [write_all]. rewrite Ei. unfold put_char. cbn [u_ios u_mask u_fmt u_text]. rewrite G, W2. rewrite <- !app_assoc. destruct vs; reflexivity.
    + rewrite E1, E2 in E. apply out_text_app2; [apply out_text_snoc; assumption|assumption].
    + apply Forall_app. split; [apply Forall_app; split|].
      * eapply Forall_impl; [|exact Pl]. auto.
      * constructor; [left; lia|constructor].
      * eapply Forall_impl; [|exact P2]. intros a [X|[X|[X1 X2]]]; [left; assumption|left; assumption|right; right]. subst f cf. destruct ff; (split; [exact X1|exact X2]).
    + intros _. destruct R as (R1 & R2 & R3 & R4). rewrite <- R3, <- R4 in T. rewrite <- app_assoc. cbn [app]. destruct vs as [|v' vs].
      * rewrite (Z2 eq_refl). apply ds_one. apply rfc_document. assumption.
      * eapply ds_more; [apply rfc_document; assumption|]. apply D2. discriminate.
Qed.

Lemma write_collect : forall pc fb vck ock vs b m f t sp, let cf := ser_cfg vck ock f [] in
  ock <> C16 -> good b = true -> reads pc cf -> ((0 < f_width f)%Z -> space (f_fill f)) -> (forall x, sp x = true -> x <= 32) -> Forall (ok_value plain cf) vs ->
  exists w f', write_all fb vck ock vs (mkCout b m f t) = (mkCout b m f' (t ++ w), Went) /\
    forall b' m' x k, good b' = true -> (length vs < k)%nat ->
      collect (extract pc sp) k (mkCin b' m' true w) x = (vs, (eof_fail, Some [], if meets eof_fail m' then Failure else Went)).
Proof.
  intros pc fb vck ock vs b m f t sp cf O16 G R Sp Low O.
  destruct (write_docs pc fb vck ock vs b m f t O16 G R Sp O) as (w & L & W & T & P & Z & D). exists w, (match vs with [] => f | _ => no_width f end). split; [assumption|].
  intros b' m' x k G' K. destruct R as (R1 & R2 & R3 & R4).
  assert (Eo : out_enc cf = auto_enc ock /\ out_ck cf = ock /\ val_enc cf = auto_enc vck /\ val_ck cf = vck)
      by (subst cf; destruct f as [wd fl p []]; repeat split; reflexivity).
  destruct Eo as (E1 & E2 & E3 & E4). fold cf in R1, R2, R3, R4. rewrite E2 in R1. rewrite E1 in R2. rewrite E4 in R3. rewrite E3 in R4.
  destruct vs as [|v vs].
  { rewrite (Z eq_refl) in T. cbn in T. injection T as <-. destruct k as [|k]; [cbn in K; lia|]. cbn [collect].
    rewrite (json_stop pc sp _ _ x (step_blank pc sp b' m' [] G' (Forall_nil _))). destruct (meets eof_fail m'); reflexivity. }
  apply (json_loop pc sp b' m' L (v :: vs) [0] w x k); try assumption; try (right; reflexivity).
  - rewrite R3, R4. apply auto_ok.
  - change (is_open (IStr w)) with (sis w). rewrite R1, R2. apply feeds_enc_text; [apply auto_ok|rewrite <- out_text_enc; assumption|].
    eapply Forall_impl; [|exact P]. intros a [X|[X|[Es X]]]; apply faithful_rt; unfold faithful.
    + unfold SpecGrammar.lead. destruct ock; cbn; try exact Logic.I; lia.
    + unfold SpecGrammar.lead. destruct ock; cbn; try exact Logic.I; lia.
    + destruct X as (_ & Lx & _). destruct ock; cbn; try exact Logic.I. intro Y. exact (Lx Y).
  - assert (U : units_below pc w) by (apply (below pc L); rewrite R1, R2; [reflexivity|exact T]). destruct U; auto.
  - apply D. discriminate.
Qed.

(** ** For PropStreamUse.v *)
Lemma not_good : forall cf sp b m sk s, good b = false ->
  let a := (mkIos (b_eof b) true (b_bad b), Some s, if meets (mkIos (b_eof b) true (b_bad b)) m then Failure else Went) in
  (forall c, extract cf sp (mkCin b m sk s) c = (c, a)) /\ (forall e ty x, extract_typed e cf sp ty (mkCin b m sk s) x = (x, a)).
Proof.
  intros cf sp b m sk s G a. pose proof (prefix_bad (src_ck cf) sp (mkCin b m sk s) G) as P. cbn [c_ios c_mask c_text] in P. fold a in P.
  split; intros; [apply json_stop|apply typed_stop]; exact P.
Qed.

Lemma only_blank : forall cf sp b m w r, good b = true -> Forall (fun u => ends_input (src_ck cf) u = false /\ sp u = true) w ->
  (r = [] \/ exists u r', r = u :: r' /\ ends_input (src_ck cf) u = true) ->
  let a := (mkIos true true false, Some r, if b_eof m || b_fail m then Failure else Went) in
  (forall c, extract cf sp (mkCin b m true (w ++ r)) c = (c, a)) /\ (forall e ty x, extract_typed e cf sp ty (mkCin b m true (w ++ r)) x = (x, a)).
Proof.
  intros cf sp b m w r G W R a.
  assert (P : prefix (src_ck cf) sp (mkCin b m true (w ++ r)) = inl a).
  { rewrite (prefix_none _ _ (mkCin b m true (w ++ r)) w r G eq_refl eq_refl W R). unfold a. destruct m as [[] [] []]; reflexivity. }
  split; intros; [apply json_stop|apply typed_stop]; exact P.
Qed.

Lemma then_parse : forall cf sp b m sk w r, good b = true ->
  (sk = false /\ w = []) \/
  (sk = true /\ Forall (fun u => ends_input (src_ck cf) u = false /\ sp u = true) w /\
   exists u r', r = u :: r' /\ ends_input (src_ck cf) u = false /\ sp u = false) ->
  (forall c, exists t, extract cf sp (mkCin b m sk (w ++ r)) c =
     (fst (parse_into cf HNone c r), (b, t, ends (fst (snd (parse_into cf HNone c r)))))) /\
  (forall e ty x, exists t, extract_typed e cf sp ty (mkCin b m sk (w ++ r)) x =
     match parse_string cf r with
     | Ret v => match get e ty v with Ret y => (y, (b, t, Went)) | f => (x, (b, t, ends f)) end
     | f => (x, (b, t, ends f))
     end).
Proof.
  intros cf sp b m sk w r G H.
  assert (P : prefix (src_ck cf) sp (mkCin b m sk (w ++ r)) = inr r) by (eapply prefix_some; [exact G|reflexivity|exact H]).
  split.
  - intro c. unfold extract. rewrite P, keep_into. destruct (parse_keep cf (fuel_for r) c (IStr r)) as [v o]. cbn [fst snd c_ios].
    eexists. rewrite <- ends_unit. reflexivity.
  - intros e ty x. unfold extract_typed, parse_string. rewrite P, keep_into. destruct (parse_keep cf (fuel_for r) VNull (IStr r)) as [v [i|y| | |]]; cbn [fst snd c_ios unit_of bind]; try (exists None; reflexivity).
    exists (Some (left_in i)). reflexivity.
Qed.

Lemma failbit_refuted :
  ~ (forall s c v b t w, extract cfg_json classic_space (mkCin (mkIos false false false) (mkIos false false false) true s) c = (v, (b, t, w)) -> w <> Went -> b_fail b = true).
Proof.
  intro H. specialize (H [93] VNull VNull). unfold extract in H. vm_compute in H. specialize (H _ _ _ eq_refl ltac:(discriminate)). discriminate.
Qed.

Lemma mask_only : forall cf sp k b m sk s, k <> O ->
  let masked a := let '(b', t, w) := a in (b', t, match w with Went => if meets b' m then Failure else Went | _ => w end) in
  (forall x, collect (extract cf sp) k (mkCin b m sk s) x =
     let '(l, a) := collect (extract cf sp) k (mkCin b (mkIos false false false) sk s) x in (l, masked a)) /\
  (forall e ty x, collect (extract_typed e cf sp ty) k (mkCin b m sk s) x =
     let '(l, a) := collect (extract_typed e cf sp ty) k (mkCin b (mkIos false false false) sk s) x in (l, masked a)).
Proof.
  intros cf sp k b m sk s K. cbv zeta. split; intros.
  - exact (loop_mask value _ (json_step cf sp) k b m sk s x K).
  - exact (loop_mask cval _ (typed_step e cf sp ty) k b m sk s x K).
Qed.

Lemma loop_only : forall cf sp b m k s l x vs b' t w, enc_ok (tgt_enc cf) (tgt_ck cf) = true -> (forall x, sp x = true -> x <= 32) -> good b = true ->
  feeds (src_enc cf) (src_ck cf) (is_open (IStr s)) l TEof -> (src_ck cf = C8 \/ Forall (fun u => u < eof_unit (src_ck cf)) s) ->
  collect (extract cf sp) k (mkCin b m true s) x = (vs, (b', t, w)) -> (forall r, w <> Threw r) ->
  series cf sp s vs /\ b' = mkIos true true false /\ t = Some [] /\ (w = Failure <-> b_eof m = true \/ b_fail m = true).
Proof.
  intros cf sp b m k s l x vs b' t w Hok Low G F U H Nt.
  assert (U' : units_below cf s) by (destruct U; [right|left]; assumption).
  destruct (loop_series cf sp b m Hok Low G k s l x vs b' t w F U' H Nt) as (A & B & C & D). repeat (split; [assumption|]).
  rewrite D. destruct m as [[] [] []]; cbn; intuition discriminate.
Qed.

Lemma out_all : forall fb vck ock b m f t,
  (good b = true ->
   (forall v, insert fb vck ock v (mkCout b m f t) = let '(o, r) := put_json vck ock v (mkOut true f t) in (mkCout b m (o_fmt o) (o_text o), ends r)) /\
   (forall e ty x, insert_typed fb e vck ock ty x (mkCout b m f t) =
      let '(o, r) := put_typed e vck ock ty x (mkOut true f t) in (mkCout b m (o_fmt o) (o_text o), ends r))) /\
  (good b = false ->
   let a := (mkCout (mkIos (b_eof b) (b_fail b || fb b) (b_bad b)) m f t,
             if fb b && meets (mkIos (b_eof b) true (b_bad b)) m then Failure else Went) in
   (forall v, insert fb vck ock v (mkCout b m f t) = a) /\ (forall e ty x, insert_typed fb e vck ock ty x (mkCout b m f t) = a)).
Proof.
  intros fb vck ock b m f t. split; intro G.
  - split; intros; [apply insert_good|apply insert_conv]; assumption.
  - split; intros; unfold insert, insert_typed; cbn [u_ios]; rewrite G, refuse_all; reflexivity.
Qed.

Lemma blanks_refuted : forall sep, In sep [[]; [32]; [10]] ->
  ~ (forall vs, Forall (ok_value plain (ser_cfg C8 C8 fmt_default [])) vs ->
     exists k w, collect (extract cfg_json classic_space) k (mkCin (mkIos false false false) (mkIos false false false) true
         (concat (map (fun v => match dump_json [] v with Ret w => w ++ sep | _ => [] end) vs))) VNull
       = (vs, (mkIos true true false, Some [], w))).
Proof.
  intros sep I H. destruct (H [VInt 1; VInt 2]) as (k & w & E).
  { repeat constructor; intros y S; inversion S; subst; cbn; unfold int64; lia. }
  destruct I as [<-|[<-|[<-|[]]]].
  - match type of E with collect ?f ?k (mkCin ?b ?m ?q ?s) ?c = _ => let s' := eval vm_compute in s in change (collect f k (mkCin b m q s') c = (([VInt 1; VInt 2]), (eof_fail, Some [], w))) in E end.
    destruct k as [|k]; [discriminate|]. cbn [collect] in E. match type of E with context [extract ?a ?b ?c ?d] => let x := eval vm_compute in (extract a b c d) in change (extract a b c d) with x in E end.
    cbv iota beta in E. cbn [failed] in E. discriminate || (destruct (collect _ _ _ _) as [l a] in E; cbn in E; discriminate).
  - match type of E with collect ?f ?k (mkCin ?b ?m ?q ?s) ?c = _ => let s' := eval vm_compute in s in change (collect f k (mkCin b m q s') c = (([VInt 1; VInt 2]), (eof_fail, Some [], w))) in E end.
    destruct k as [|k]; [discriminate|]. cbn [collect] in E. match type of E with context [extract ?a ?b ?c ?d] => let x := eval vm_compute in (extract a b c d) in change (extract a b c d) with x in E end.
    cbv iota beta in E. discriminate.
  - match type of E with collect ?f ?k (mkCin ?b ?m ?q ?s) ?c = _ => let s' := eval vm_compute in s in change (collect f k (mkCin b m q s') c = (([VInt 1; VInt 2]), (eof_fail, Some [], w))) in E end.
    destruct k as [|k]; [discriminate|]. cbn [collect] in E. match type of E with context [extract ?a ?b ?c ?d] => let x := eval vm_compute in (extract a b c d) in change (extract a b c d) with x in E end.
    cbv iota beta in E. discriminate.
Qed.

Lemma loop_case :
  let s := chars " 1" ++ 0 :: chars "
[2, 3] // more
" ++ 0 :: chars """x""" in
  let vs := [VInt 1; VArr [VInt 2; VInt 3]; VStr (chars "x")] in
  (exists rest, docs cfg_json s vs rest) /\
  collect (extract cfg_json classic_space) 9 (mkCin (mkIos false false false) (mkIos false false false) true s) VNull = (vs, (mkIos true true false, Some [], Went)) /\
  collect (extract cfg_json classic_space) 9 (mkCin (mkIos false false false) (mkIos false true false) true s) VNull = (vs, (mkIos true true false, Some [], Failure)) /\
  series cfg_json classic_space s vs.
Proof.
  intros s vs.
  assert (F : feeds (src_enc cfg_json) (src_ck cfg_json) (sis s) s TEof) by (apply feeds_ascii; [reflexivity|repeat (constructor; [reflexivity|]); constructor]).
  assert (E : collect (extract cfg_json classic_space) 9 (mkCin (mkIos false false false) (mkIos false false false) true s) VNull = (vs, (mkIos true true false, Some [], Went)))
    by (vm_compute; reflexivity).
  split; [|split; [exact E|split; [vm_compute; reflexivity|]]].
  - assert (P : exists st, parse_calls cfg_json 200 3 (init_pst (IStr s)) = (vs, Ret st)) by (vm_compute; eexists; reflexivity).
    apply (calls_iff cfg_json TEof 200 3 (IStr s) s vs eq_refl F) in P; [destruct P as (_ & rest & D & _); eauto|cbn; lia|lia].
  - apply (loop_only cfg_json classic_space (mkIos false false false) (mkIos false false false) 9 s s VNull vs _ _ _ eq_refl) in E; [apply E| |reflexivity|exact F|left; reflexivity|discriminate].
    intros x X. unfold classic_space in X. lia.
Qed.
