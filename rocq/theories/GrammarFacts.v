(** The lemmas behind PropGrammar.v. *)
From Coq Require Import Lia ZifyBool ZifyNat ZifyN Floats.SpecFloat.
From Verif Require Import Base Stream Encoding Value Token Parser EncodingProofs Feeds ListMachine Simulation SimParse
  SpecUnicode SpecGrammar GrammarLex GrammarTok ObjFacts GrammarProofs SpecPos SpecGap PosProofs PosSound Mono Context.

(** ** From parse_string to the machine *)

Definition tops (cf : pcfg) (t : term) (l : list N) : outcome value :=
  if at_bad t l then dec_err t
  else let '(v, r) := a_body cf t (need l) VNull l in let* _ := r in Ret v.

Lemma parse_string_tops : forall cf s l t, feeds (src_enc cf) (src_ck cf) (sis s) l t ->
  parse_string cf s = tops cf t l.
Proof.
  intros cf s l t F. unfold parse_string, tops. rewrite (parse_into_top cf HNone VNull s l t F).
  unfold top, a_top. destruct (at_bad t l); [reflexivity|].
  destruct (a_body cf t (need l) VNull l) as [v [| | | |]]; reflexivity.
Qed.

Lemma parse_total : forall cf h c s, let r := fst (snd (parse_into cf h c s)) in
  r = Ret tt \/ (exists m, r = Throw (EDeser m)) \/ r = Abort \/ r = UB.
Proof.
  intros cf h c s r. subst r. destruct (feeds_string (src_enc cf) (src_ck cf) s) as (l & t & F & _).
  rewrite (parse_into_top cf h c s l t F). pose proof (top_nofuel cf t h c l (IStr s) F) as Nf.
  unfold top, a_top in *. destruct (at_bad t l); [right; left; eexists; reflexivity|].
  pose proof (nice_body cf t (need l) c l) as Ni. destruct (a_body cf t (need l) c l) as [v r]. cbn [fst snd] in *.
  destruct r as [[]|e| | |]; cbn in *; auto.
  - destruct Ni as [m ->]. destruct h; cbn; eauto.
  - congruence.
Qed.

Lemma parse_budget : forall cf h c s n, (2 * length s + 1 <= n)%nat ->
  parse_ibuf cf h n c (IStr s) = parse_into cf h c s.
Proof.
  intros cf h c s n L. destruct (feeds_string (src_enc cf) (src_ck cf) s) as (l & t & F & Ls).
  rewrite (parse_into_top cf h c s l t F). apply parse_ibuf_top; [exact F|]. unfold need. lia.
Qed.

Lemma parse_string_total : forall cf s,
  (exists v, parse_string cf s = Ret v) \/ (exists m, parse_string cf s = Throw (EDeser m)) \/
  parse_string cf s = Abort \/ parse_string cf s = UB.
Proof.
  intros cf s. pose proof (parse_total cf HNone VNull s) as H. cbn in H. unfold parse_string.
  destruct (parse_into cf HNone VNull s) as [v [r m]]. cbn [fst snd] in H.
  destruct H as [->|[(m' & ->)|[->| ->]]]; cbn; eauto.
Qed.

(** ** Accepted texts *)

Lemma tops_iff : forall cf t l v, enc_ok (tgt_enc cf) (tgt_ck cf) = true ->
  (tops cf t l = Ret v <-> exists rest, document cf l v rest /\ (t = TEof \/ rest <> [])).
Proof.
  intros cf t l v Hok. unfold tops. destruct (at_bad t l) eqn:B.
  - split; [discriminate|]. intros (rest & D & _). destruct l; [|discriminate]. exfalso.
    assert (V : exists l1, val cf [] v l1) by (inversion D; subst; eauto). destruct V as [l1 V].
    apply (complete_val cf TEof Hok) in V. destruct V as [V _]; [destruct l1; reflexivity|cbn in V; lia].
  - pose proof (body_iff cf t Hok (need l) VNull l v B (le_n _)) as I.
    destruct (a_body cf t (need l) VNull l) as [w r]. split.
    + intro H. apply bind_ret_iff in H. destruct H as ([] & -> & H). inversion H; subst. apply I. reflexivity.
    + intro H. apply I in H. inversion H; subst. reflexivity.
Qed.

Lemma dialect : forall cf s l t v, enc_ok (tgt_enc cf) (tgt_ck cf) = true ->
  feeds (src_enc cf) (src_ck cf) (sis s) l t ->
  (parse_string cf s = Ret v <-> exists rest, document cf l v rest /\ (t = TEof \/ rest <> [])).
Proof. intros cf s l t v Hok F. rewrite (parse_string_tops cf s l t F). apply tops_iff; assumption. Qed.

Lemma dialect_eof : forall cf s l v, enc_ok (tgt_enc cf) (tgt_ck cf) = true ->
  feeds (src_enc cf) (src_ck cf) (sis s) l TEof ->
  (parse_string cf s = Ret v <-> exists rest, document cf l v rest).
Proof.
  intros cf s l v Hok F. rewrite (dialect cf s l TEof v Hok F). split; intros (r & D); [destruct D; eauto|eauto].
Qed.

Lemma dialect_utf8 : forall cf s cps v, enc_ok (tgt_enc cf) (tgt_ck cf) = true -> src_enc cf = Utf8 ->
  utf8_text cps s -> (parse_string cf s = Ret v <-> exists rest, document cf cps v rest).
Proof. intros cf s cps v Hok E U. apply dialect_eof; [assumption|]. rewrite E. apply feeds_utf8_text; assumption. Qed.

Lemma utf16_text_enc : forall ck cps s, ck <> C8 -> (ck = C16 -> ~ In 65535 cps) ->
  utf16_text cps s -> enc_text Utf16 ck cps = Some s /\ Forall (rt_cp Utf16 ck) cps.
Proof.
  intros ck cps s W Nf H. induction H as [|cp us cps s Hs H IH]; [split; [reflexivity|constructor]|].
  destruct IH as [IH1 IH2]; [intros E I; apply (Nf E); right; exact I|].
  assert (Ne : ck = C16 -> cp <> 65535) by (intros E ->; apply (Nf E); left; reflexivity).
  assert (X : enc_units Utf16 ck cp = Some us /\ rt_cp Utf16 ck cp).
  { unfold enc_units, units16, rt_cp. inversion Hs as [x Sc Le|hi lo H1 H2 H3 H4]; subst.
    - replace (cp <? 65536) with true by lia. cbn [existsb]. split; [|unfold scalar in Sc; lia].
      replace (Z.of_N cp =? eof_int ck)%Z with false; [reflexivity|].
      symmetry. destruct ck; [congruence| |]; cbn [eof_int]; [specialize (Ne eq_refl)|]; lia.
    - set (cp := 65536 + (hi - 55296) * 1024 + (lo - 56320)) in *.
      replace (cp <? 65536) with false by (subst cp; lia). replace (cp <? 1114112) with true by (subst cp; lia).
      replace (55296 + (cp - 65536) / 1024) with hi by (subst cp; lia).
      replace (56320 + (cp - 65536) mod 1024) with lo by (subst cp; lia). cbn [existsb]. split; [|subst cp; lia].
      replace (Z.of_N hi =? eof_int ck)%Z with false by (destruct ck; cbn [eof_int]; lia).
      replace (Z.of_N lo =? eof_int ck)%Z with false by (destruct ck; cbn [eof_int]; lia). reflexivity. }
  destruct X as [X1 X2]. split; [|constructor; assumption]. cbn [enc_text]. rewrite X1, IH1. reflexivity.
Qed.

Lemma feeds_utf16_text : forall ck cps s, ck <> C8 -> (ck = C16 -> ~ In 65535 cps) ->
  utf16_text cps s -> feeds Utf16 ck (sis s) cps TEof.
Proof.
  intros ck cps s W Nf H. destruct (utf16_text_enc ck cps s W Nf H) as [E R].
  apply feeds_enc_text; [destruct ck; [congruence|reflexivity..]|assumption..].
Qed.

Lemma feeds_utf32_text : forall cps, Forall (fun c => c <= 1114111) cps -> feeds Utf32 C32 (sis cps) cps TEof.
Proof.
  intros cps H. apply feeds_enc_text; [reflexivity| |].
  - induction H as [|c cps Hc H IH]; [reflexivity|]. cbn [enc_text]. rewrite IH. unfold enc_units, units32.
    replace (c <? 1114112) with true by lia. cbn [existsb eof_int]. replace (Z.of_N c =? 4294967295)%Z with false by lia. reflexivity.
  - clear H. induction cps; constructor; cbn; auto.
Qed.

Lemma dialect_utf16 : forall cf s cps v, enc_ok (tgt_enc cf) (tgt_ck cf) = true -> src_enc cf = Utf16 ->
  src_ck cf <> C8 -> (src_ck cf = C16 -> ~ In 65535 cps) -> utf16_text cps s ->
  (parse_string cf s = Ret v <-> exists rest, document cf cps v rest).
Proof. intros cf s cps v Hok E W Nf U. apply dialect_eof; [assumption|]. rewrite E. apply feeds_utf16_text; assumption. Qed.

Lemma dialect_utf32 : forall cf cps v, enc_ok (tgt_enc cf) (tgt_ck cf) = true -> src_enc cf = Utf32 -> src_ck cf = C32 ->
  Forall (fun c => c <= 1114111) cps ->
  (parse_string cf cps = Ret v <-> exists rest, document cf cps v rest).
Proof. intros cf cps v Hok E W U. apply dialect_eof; [assumption|]. rewrite E, W. apply feeds_utf32_text; assumption. Qed.

(** ASCII text, in any encoding *)
Lemma feeds_ascii : forall e ck l, enc_ok e ck = true -> Forall (fun c => c < 128) l -> feeds e ck (sis l) l TEof.
Proof.
  intros e ck l Hok H. apply feeds_enc_text; [assumption| |].
  - induction H as [|c l Hc H IH]; [reflexivity|]. cbn [enc_text]. rewrite IH.
    rewrite <- out_units_eq. rewrite small_units by assumption. reflexivity.
  - induction H as [|c l Hc H IH]; constructor; auto. destruct e; cbn [rt_cp]; try exact I; [|lia].
    split; [|assumption]. rewrite narrow_low. apply low_small. lia.
Qed.

Lemma same_text : forall cf h c s1 s2 l t,
  feeds (src_enc cf) (src_ck cf) (sis s1) l t -> feeds (src_enc cf) (src_ck cf) (sis s2) l t ->
  parse_into cf h c s1 = parse_into cf h c s2.
Proof.
  intros cf h c s1 s2 l t F1 F2. rewrite (parse_into_top cf h c s1 l t F1), (parse_into_top cf h c s2 l t F2). reflexivity.
Qed.

Lemma document_unique : forall cf l v r v' r', enc_ok (tgt_enc cf) (tgt_ck cf) = true ->
  document cf l v r -> document cf l v' r' -> v = v'.
Proof.
  intros cf l v r v' r' Hok D D'.
  assert (E : tops cf TEof l = Ret v) by (apply tops_iff; [assumption|]; exists r; auto).
  assert (E' : tops cf TEof l = Ret v') by (apply tops_iff; [assumption|]; exists r'; auto).
  congruence.
Qed.

(** ** Rejected texts *)

Lemma fits_allowed : forall cf t k r x r', a_scan_tok cf t r = Ret (x, r') -> ok t r -> ~ fits k r -> allowed k x = false.
Proof.
  intros cf t k r x r' E O Nf. apply scan_tok_iff in E; [|assumption]. destruct E as [T _].
  destruct (allowed k x) eqn:A; [|reflexivity]. exfalso. apply Nf. unfold starts_val.
  assert (Hd : allowed KVal x = true -> x <> AT Tstring -> x <> AT Tbegin_arr -> x <> AT Tbegin_obj ->
    exists c l, r = c :: l /\ starts_val c).
  { intros Ax N1 N2 N3. unfold starts_val. destruct T; try discriminate; try congruence; try (cbn in *; discriminate);
      try (match goal with H : literal _ _ _ _ |- _ => destruct (literal_start _ _ _ _ H) as (? & ? & -> & ?) end);
      try (match goal with H : number _ _ _ _ _ |- _ => destruct (number_start _ _ _ _ _ H) as (? & ? & -> & ?) end);
      unfold num_start in *; try (eexists _, _; split; [reflexivity|lia]). }
  destruct x as [x|z|f].
  - destruct x; destruct k; cbn in A |- *; try discriminate; clear Hd Nf;
      inversion T; subst; cbn; unfold starts_val; auto 12;
      try (match goal with H : literal _ _ _ _ |- _ => destruct (literal_start _ _ _ _ H) as (? & ? & -> & ?) end); try lia;
      cbn in *; discriminate.
  - destruct Hd as (c & l & -> & Sv); try reflexivity; try discriminate. destruct k; try discriminate; cbn; auto.
  - destruct Hd as (c & l & -> & Sv); try reflexivity; try discriminate. destruct k; try discriminate; cbn; auto.
Qed.

Lemma nice_scan_tok : forall b cf t r, nice b (a_scan_tok cf t r).
Proof.
  intros b cf t r.
  unfold a_scan_tok. destruct r as [|c l]; [exact I|]. destruct (punct c); [apply nice_guard; exact I|].
    destruct (c =? c_t); [apply nice_bind; [apply nice_literal|intro; exact I]|].
    destruct (c =? c_f); [apply nice_bind; [apply nice_literal|intro; exact I]|].
    destruct (c =? c_n); [apply nice_bind; [apply nice_literal|intro; exact I]|].
    destruct (c =? c_quote); [exact I|].
    destruct (_ || _); [|destruct (c =? 0); [exact I|cbn; eauto]].
    unfold a_number. cbv zeta. apply nice_guard, nice_bind; [|intro; exact I].
    unfold a_unsigned. destruct (_ =? c_0).
    + cbv zeta. apply nice_guard. destruct (_ =? c_dot); [apply nice_float_num|]. destruct (_ || _); [cbn; eauto|exact I].
    + unfold a_integer. destruct (_ && _); [exact I|apply nice_intd].
Qed.

Lemma stuck_err : forall cf t k r, ok t r -> ~ fits k r -> ~ bad_sign (src_ck cf) r ->
  ~ overflow (src_ck cf) (ndebug cf) r -> stuck cf t OErr k r.
Proof.
  intros cf t k r O Nf Nb No. split; [assumption|].
  pose proof (nice_scan_tok false cf t r) as Ni.
  destruct (a_scan_tok cf t r) as [[x r']|e| | |] eqn:E.
  - right. split; [reflexivity|]. exists x, r'. split; [reflexivity|]. left. eapply fits_allowed; eauto.
  - left. destruct Ni as [m ->]. cbn. eauto.
  - exfalso. assert (X : badtok true cf t r) by (apply scan_tok_x; rewrite E; reflexivity). apply Nb, X.
  - exfalso. assert (X : badtok false cf t r) by (apply scan_tok_x; rewrite E; reflexivity). apply No, X.
  - discriminate Ni.
Qed.

Lemma pos_len : forall cf k l r, pos cf k l r -> (length r <= length l)%nat.
Proof.
  intro cf.
  assert (Vl : forall l v l1, val cf l v l1 -> (length l1 <= length l)%nat).
  { assert (X : forall l v l1, val cf l v l1 -> l1 <> [] -> (length l1 <= length l)%nat).
    { intros l v l1 V N. destruct (rep_val cf l v l1 V N) as (w & _ & -> & _). rewrite app_length. lia. }
    intros l v [|c l1] V; [cbn; lia|]. apply (X _ _ _ V). discriminate. }
  assert (Sl : forall l s l1, strlit (tgt_enc cf) (tgt_ck cf) l s l1 -> (length l1 <= length l)%nat).
  { intros l s l1 H. destruct (rep_strlit _ _ _ _ _ H) as (w & _ & -> & _). rewrite app_length. lia. }
  assert (In : forall k l r, inside cf k l r -> (length r <= length l)%nat).
  { apply (inside_mut cf (fun k l r => (length r <= length l)%nat) (fun k l r => (length r <= length l)%nat) (fun k l r => (length r <= length l)%nat));
    intros; repeat (match goal with
      | H : blank _ _ |- _ => apply blank_len in H; cbn [length] in H
      | H : val _ _ _ _ |- _ => apply Vl in H
      | H : strlit _ _ _ _ _ |- _ => apply Sl in H end); lia. }
  intros k l r H. destruct H as [l r B|k l r I|l v l1 r V B].
  - apply blank_len; assumption.
  - eapply In; eassumption.
  - apply blank_len in B. apply Vl in V. lia.
Qed.

Lemma reject : forall cf s l t k r, enc_ok (tgt_enc cf) (tgt_ck cf) = true ->
  feeds (src_enc cf) (src_ck cf) (sis s) l t -> pos cf k l r -> (t = TEof \/ r <> []) ->
  ~ fits k r -> ~ bad_sign (src_ck cf) r -> ~ overflow (src_ck cf) (ndebug cf) r ->
  exists m, parse_string cf s = Throw (EDeser m).
Proof.
  intros cf s l t k r Hok F P Ht Nf Nb No. rewrite (parse_string_tops cf s l t F).
  assert (O : ok t r) by (destruct Ht as [->|N]; [destruct r; reflexivity|destruct r; [congruence|reflexivity]]).
  assert (Ol : ok t l) by (eapply ok_mono; [exact O|eapply pos_len; exact P]).
  pose proof (pos_body cf t Hok k l r P OErr (need l) VNull (stuck_err cf t k r O Nf Nb No) (le_n _)) as [m H].
  unfold tops. rewrite Ol. destruct (a_body cf t (need l) VNull l) as [v o]. cbn [snd] in H. subst o. cbn. eauto.
Qed.

Lemma abort_iff : forall cf s l t, enc_ok (tgt_enc cf) (tgt_ck cf) = true ->
  feeds (src_enc cf) (src_ck cf) (sis s) l t ->
  (parse_string cf s = Abort <->
   ndebug cf = false /\ exists k r, pos cf k l r /\ bad_sign (src_ck cf) r /\ (t = TEof \/ tl r <> [])).
Proof.
  intros cf s l t Hok F. rewrite (parse_string_tops cf s l t F). unfold tops.
  destruct (at_bad t l) eqn:B.
  - split; [discriminate|]. intros (_ & k & r & P & Bs & _). apply pos_len in P. destruct l; [|discriminate].
    inversion Bs; subst. cbn in P. lia.
  - pose proof (body_x cf t Hok true (need l) VNull l B (le_n _)) as X.
    assert (Ok : forall r, (t = TEof \/ tl r <> []) <-> ok t (tl r)).
    { intro r. unfold ok. destruct (tl r), t; cbn; split; auto; try discriminate; try congruence.
      - intros [H|H]; congruence.
      - intros _. right. discriminate. }
    destruct (a_body cf t (need l) VNull l) as [v o]. cbn [snd] in X. split.
    + intro H. assert (Ho : isX true o) by (destruct o; cbn in *; try discriminate; reflexivity).
      apply X in Ho. destruct Ho as (k & r & P & Nd & Bs & O). split; [assumption|]. exists k, r. rewrite Ok. auto.
    + intros (Nd & k & r & P & Bs & O). apply Ok in O.
      assert (Ho : isX true o) by (apply X; exists k, r; split; [assumption|]; split; [assumption|]; split; assumption).
      destruct o; cbn in *; try discriminate; try contradiction. reflexivity.
Qed.

Lemma ub_iff : forall cf s l t, enc_ok (tgt_enc cf) (tgt_ck cf) = true ->
  feeds (src_enc cf) (src_ck cf) (sis s) l t ->
  (parse_string cf s = UB <-> exists k r, pos cf k l r /\ overflow (src_ck cf) (ndebug cf) r).
Proof.
  intros cf s l t Hok F. rewrite (parse_string_tops cf s l t F). unfold tops.
  destruct (at_bad t l) eqn:B.
  - split; [discriminate|]. intros (k & r & P & Ov). apply pos_len in P. destruct l; [|discriminate].
    inversion Ov; subst; cbn in P; lia.
  - pose proof (body_x cf t Hok false (need l) VNull l B (le_n _)) as X.
    destruct (a_body cf t (need l) VNull l) as [v o]. cbn [snd] in X. split.
    + intro H. assert (Ho : isX false o) by (destruct o; cbn in *; try discriminate; reflexivity).
      apply X in Ho. exact Ho.
    + intro H. apply X in H. destruct o; cbn in *; try discriminate; try contradiction. reflexivity.
Qed.

(** ** Configurations that differ in the decoder or in NDEBUG only *)

Section Same.
Variables (c1 c2 : pcfg).
Hypothesis S1 : src_ck c1 = src_ck c2.
Hypothesis S2 : tgt_ck c1 = tgt_ck c2.
Hypothesis S3 : tgt_enc c1 = tgt_enc c2.
Hypothesis S4 : ndebug c1 = ndebug c2 \/ ndebug c1 = false.

(** equal, unless the first one aborts and the second has no assertions *)
Definition alike {A} (o1 o2 : outcome A) : Prop := o1 = o2 \/ (o1 = Abort /\ ndebug c1 <> ndebug c2).

Lemma alike_bind : forall A B (m1 m2 : outcome A) (k1 k2 : A -> outcome B),
  alike m1 m2 -> (forall a, alike (k1 a) (k2 a)) -> alike (bind m1 k1) (bind m2 k2).
Proof.
  intros A B m1 m2 k1 k2 [->|[-> H]] Hk; [|right; auto]. destruct m2; cbn; auto; left; reflexivity.
Qed.
Lemma alike_guard : forall A t l (k1 k2 : outcome A), alike k1 k2 -> alike (guard t l k1) (guard t l k2).
Proof. intros A t l k1 k2 H. destruct l, t; cbn; auto. left; reflexivity. Qed.
Lemma alike_refl : forall A (o : outcome A), alike o o.
Proof. left; reflexivity. Qed.
Lemma alike_eq : forall A (o1 o2 : outcome A), o1 = o2 -> alike o1 o2.
Proof. left; assumption. Qed.

Lemma same_digit : forall c, is_digit c1 c = is_digit c2 c.
Proof. intro c. unfold is_digit. rewrite S1. reflexivity. Qed.

Lemma same_literal : forall t x w l, a_literal c1 t x w l = a_literal c2 t x w l.
Proof.
  intros t x w. induction w as [|c w IH]; intro l; [reflexivity|]. cbn [a_literal]. rewrite S1, IH. reflexivity.
Qed.
Lemma same_expd : forall t l ex, a_expd c1 t ex l = a_expd c2 t ex l.
Proof.
  intros t l. induction l as [|c l IH]; intro ex; [reflexivity|]. cbn [a_expd]. rewrite same_digit, IH. reflexivity.
Qed.
Lemma same_exponent : forall t f l, a_exponent c1 t f l = a_exponent c2 t f l.
Proof. intros. unfold a_exponent. rewrite same_digit. rewrite same_expd. reflexivity. Qed.
Lemma same_frac : forall t l fr f, a_frac c1 t fr f l = a_frac c2 t fr f l.
Proof.
  intros t l. induction l as [|c l IH]; intros fr f; [reflexivity|]. cbn [a_frac].
  rewrite same_digit, same_exponent, IH. reflexivity.
Qed.
Lemma same_float_num : forall t z l, a_float_num c1 t z l = a_float_num c2 t z l.
Proof. intros. unfold a_float_num, a_float. rewrite same_digit, same_exponent, same_frac. reflexivity. Qed.
Lemma same_intd : forall t l z, a_intd c1 t z l = a_intd c2 t z l.
Proof.
  intros t l. induction l as [|c l IH]; intro z; [reflexivity|]. cbn [a_intd].
  rewrite same_digit, same_float_num. f_equal. destruct (_ || _); [reflexivity|]. destruct (is_digit _ _); [|reflexivity].
  destruct (chk64 (z * 10)) as [z1| | | |]; cbn [bind]; try reflexivity.
  destruct (chk64 _) as [z2| | | |]; cbn [bind]; try reflexivity. apply IH.
Qed.
Lemma same_scan : forall t l, alike (a_scan c1 t l) (a_scan c2 t l).
Proof.
  intros t l. unfold a_scan. apply alike_bind; [apply alike_refl|]. intro l1. unfold a_scan_tok.
  destruct l1 as [|c l2]; [apply alike_refl|]. destruct (punct c); [apply alike_refl|].
  rewrite !same_literal. destruct (c =? c_t); [apply alike_refl|]. destruct (c =? c_f); [apply alike_refl|].
  destruct (c =? c_n); [apply alike_refl|]. destruct (c =? c_quote); [apply alike_refl|].
  destruct (_ || _); [|apply alike_refl]. unfold a_number. apply alike_guard, alike_bind; [|intro; apply alike_refl].
  unfold a_unsigned. destruct (_ =? c_0); [rewrite same_float_num; apply alike_refl|].
  unfold a_integer. rewrite same_digit, same_intd. destruct S4 as [E|E].
  - rewrite E. apply alike_refl.
  - rewrite E. cbn [negb andb]. destruct (is_digit _ _); cbn [negb andb]; [rewrite andb_false_r; apply alike_refl|].
    destruct (ndebug c2) eqn:E2; cbn [negb andb]; [|apply alike_refl]. right. split; [reflexivity|]. congruence.
Qed.
Lemma same_get_string : forall t n l, a_get_string c1 t n l = a_get_string c2 t n l.
Proof.
  assert (X : forall t n o l, a_string c1 t n o l = a_string c2 t n o l).
  { intros t n. induction n as [|n IH]; intros o l; [reflexivity|]. cbn [a_string]. rewrite S2, S3.
    destruct (tl l) as [|c l2]; [reflexivity|]. destruct (c =? c_quote); [reflexivity|].
    destruct (c <=? 31); [reflexivity|]. destruct (c =? c_bslash).
    - destruct (at_bad t l2); [reflexivity|]. destruct (simple_escape _); [apply IH|].
      destruct (_ =? _); [|reflexivity]. destruct (a_u t l2) as [[cp l3]| | | |]; try reflexivity.
      destruct (os_fail _); [reflexivity|apply IH].
    - destruct (os_fail _); [reflexivity|apply IH]. }
  intros t n l. unfold a_get_string. rewrite X. reflexivity.
Qed.

(** results with the value left behind *)
Definition alikev {A B} (p1 p2 : A * outcome B) : Prop := p1 = p2 \/ (snd p1 = Abort /\ ndebug c1 <> ndebug c2).

Lemma same_all : forall t n,
  (forall c tok l, alikev (a_parse c1 t n c tok l) (a_parse c2 t n c tok l)) /\
  (forall vs l, alikev (a_arr c1 t n vs l) (a_arr c2 t n vs l)) /\
  (forall m l, alikev (a_obj c1 t n m l) (a_obj c2 t n m l)).
Proof.
  intros t n. induction n as [|n (IHp & IHa & IHo)]; [repeat split; intros; left; reflexivity|].
  split; [|split].
  - intros c tok l. cbn [a_parse].
    assert (X : alike (match tok with None => a_scan c1 t l | Some k => Ret (k, l) end)
                      (match tok with None => a_scan c2 t l | Some k => Ret (k, l) end))
      by (destruct tok; [apply alike_refl|apply same_scan]).
    destruct X as [X|[X N]]; rewrite X; [|right; auto].
    destruct (match tok with None => a_scan c2 t l | Some k => Ret (k, l) end) as [[k l1]| | | |]; try (left; reflexivity).
    destruct k as [k| |]; try (left; reflexivity). destruct k; try (left; reflexivity).
    + rewrite same_get_string. left; reflexivity.
    + destruct (IHa [] l1) as [E|[E N]]; [rewrite E; left; reflexivity|].
      destruct (a_arr c1 t n [] l1) as [vs o]. cbn [snd] in E. subst o. right. auto.
    + destruct (IHo [] l1) as [E|[E N]]; [rewrite E; left; reflexivity|].
      destruct (a_obj c1 t n [] l1) as [vs o]. cbn [snd] in E. subst o. right. auto.
  - intros vs l. cbn [a_arr]. destruct (same_scan t l) as [X|[X N]]; rewrite X; [|right; auto].
    destruct (a_scan c2 t l) as [[k l1]| | | |]; try (left; reflexivity).
    destruct (a_starts k); [|left; reflexivity].
    destruct (IHp VNull (Some k) l1) as [E|[E N]].
    2:{ destruct (a_parse c1 t n VNull (Some k) l1) as [v o]. cbn [snd] in E. subst o. right. auto. }
    rewrite E. destruct (a_parse c2 t n VNull (Some k) l1) as [v o]. destruct o as [l2| | | |]; try (left; reflexivity).
    destruct (same_scan t l2) as [X2|[X2 N]]; rewrite X2; [|right; auto].
    destruct (a_scan c2 t l2) as [[k2 l3]| | | |]; try (left; reflexivity).
    destruct k2 as [k2| |]; try (left; reflexivity). destruct k2; try (left; reflexivity). apply IHa.
  - intros m l. cbn [a_obj]. destruct (same_scan t l) as [X|[X N]]; rewrite X; [|right; auto].
    destruct (a_scan c2 t l) as [[k l1]| | | |]; try (left; reflexivity).
    destruct k as [k| |]; try (left; reflexivity). destruct k; try (left; reflexivity).
    rewrite same_get_string. destruct (a_get_string c2 t (S n) l1) as [s o]. destruct o as [l2| | | |]; try (left; reflexivity).
    destruct (same_scan t l2) as [X2|[X2 N]]; rewrite X2; [|right; auto].
    destruct (a_scan c2 t l2) as [[k2 l3]| | | |]; try (left; reflexivity).
    destruct k2 as [k2| |]; try (left; reflexivity). destruct k2; try (left; reflexivity).
    destruct (IHp VNull None l3) as [E|[E N]].
    2:{ destruct (a_parse c1 t n VNull None l3) as [v o]. cbn [snd] in E. subst o. right. auto. }
    rewrite E. destruct (a_parse c2 t n VNull None l3) as [v o]. destruct o as [l4| | | |]; try (left; reflexivity).
    destruct (same_scan t l4) as [X3|[X3 N]]; rewrite X3; [|right; auto].
    destruct (a_scan c2 t l4) as [[k3 l5]| | | |]; try (left; reflexivity).
    destruct k3 as [k3| |]; try (left; reflexivity). destruct k3; try (left; reflexivity). apply IHo.
Qed.

Lemma same_body : forall t n c l, alikev (a_body c1 t n c l) (a_body c2 t n c l).
Proof.
  intros t n c l. unfold a_body. destruct (same_all t n) as (P & _ & _). destruct (P c None l) as [E|[E N]].
  - rewrite E. destruct (a_parse c2 t n c None l) as [v o]. destruct o as [l1| | | |]; try (left; reflexivity).
    cbn [bind]. destruct (same_scan t l1) as [X|[X N]]; rewrite X; [left; reflexivity|right; auto].
  - destruct (a_parse c1 t n c None l) as [v o]. cbn [snd] in E. subst o. right. auto.
Qed.

Lemma same_top : forall t h c l, top c1 t h c l = top c2 t h c l \/
  (fst (snd (top c1 t h c l)) = Abort /\ ndebug c1 <> ndebug c2).
Proof.
  intros t h c l. unfold top, a_top. destruct (at_bad t l); [left; reflexivity|].
  destruct (same_body t (need l) c l) as [E|[E N]]; [rewrite E; left; reflexivity|].
  destruct (a_body c1 t (need l) c l) as [v o]. cbn [snd] in E. subst o. right. auto.
Qed.
End Same.

Definition with_nd (nd : bool) (cf : pcfg) : pcfg := mkCfg (src_ck cf) (src_enc cf) (tgt_ck cf) (tgt_enc cf) nd.

Lemma ndebug_same : forall cf h c s, fst (snd (parse_into (with_nd false cf) h c s)) <> Abort ->
  parse_into (with_nd true cf) h c s = parse_into (with_nd false cf) h c s.
Proof.
  intros cf h c s H. destruct (feeds_string (src_enc cf) (src_ck cf) s) as (l & t & F & _).
  rewrite (parse_into_top (with_nd false cf) h c s l t F) in *. rewrite (parse_into_top (with_nd true cf) h c s l t F).
  destruct (same_top (with_nd false cf) (with_nd true cf) eq_refl eq_refl eq_refl (or_intror eq_refl) t h c l) as [E|[E _]];
    [symmetry; exact E|contradiction].
Qed.

(** the same code points give the same result, whatever the two source encodings *)
Lemma same_code_points : forall cf1 cf2 h c s1 s2 l t, src_ck cf1 = src_ck cf2 -> tgt_ck cf1 = tgt_ck cf2 ->
  tgt_enc cf1 = tgt_enc cf2 -> ndebug cf1 = ndebug cf2 ->
  feeds (src_enc cf1) (src_ck cf1) (sis s1) l t -> feeds (src_enc cf2) (src_ck cf2) (sis s2) l t ->
  parse_into cf1 h c s1 = parse_into cf2 h c s2.
Proof.
  intros cf1 cf2 h c s1 s2 l t E1 E2 E3 E4 F1 F2.
  rewrite (parse_into_top cf1 h c s1 l t F1), (parse_into_top cf2 h c s2 l t F2).
  destruct (same_top cf1 cf2 E1 E2 E3 (or_introl E4) t h c l) as [E|[_ N]]; [exact E|contradiction].
Qed.
