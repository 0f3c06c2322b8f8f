(** When dump fails, what it writes then, and the characters it writes. *)
From Coq Require Import Lia ZifyBool ZifyNat ZifyN Floats.SpecFloat.
From Verif Require Import Base Stream Encoding Value Token FloatFmt Message Parser EncodingProofs EncodingFacts Feeds SpecUnicode SpecGrammar
  SpecText SpecRfc ObjFacts GrammarLex GrammarTok GrammarFacts NumberFacts Serializer DumpText DumpProofs SpecDump DumpFacts RoundTrip.
Ltac Zify.zify_post_hook ::= Z.div_mod_to_equations.
Open Scope N_scope.

(** ** Outcomes *)
Definition oseq (a b : outcome unit) : outcome unit := match a with Ret _ => b | Throw e => Throw e | Abort => Abort | UB => UB | OutOfFuel => OutOfFuel end.
Fixpoint first_out (l : list (outcome unit)) : outcome unit :=
  match l with
  | [] => Ret tt
  | Ret _ :: l => first_out l
  | o :: _ => o
  end.
Lemma first_app : forall a b, first_out (a ++ b) = oseq (first_out a) (first_out b).
Proof. intros a b. induction a as [|[[]| | | |] a IH]; cbn [first_out app]; auto. Qed.
Lemma snd_dthen : forall a b, snd (dthen a b) = oseq (snd a) (snd b).
Proof. intros [wa [[]| | | |]] [wb [[]| | | |]]; reflexivity. Qed.
Lemma first_cons : forall o l, first_out (o :: l) = oseq o (first_out l).
Proof. intros [[]| | | |] l; reflexivity. Qed.
Lemma first_one : forall o, first_out [o] = o.
Proof. intros [[]| | | |]; reflexivity. Qed.
Lemma oseq_r : forall o, oseq o (Ret tt) = o.
Proof. intros [[]| | | |]; reflexivity. Qed.
Lemma oseq_l : forall o, oseq (Ret tt) o = o.
Proof. reflexivity. Qed.

Definition leaf_out (cf : scfg) (l : leaf) : outcome unit :=
  match l with LStr s => snd (d_string cf s) | LFloat f => snd (d_float cf f) end.

Lemma snd_txt : forall w, snd (txt w) = Ret tt.
Proof. reflexivity. Qed.

Lemma seq_out : forall pre l, snd (d_seq pre l) = first_out (map snd l).
Proof.
  intros pre l. induction l as [|r l IH]; [reflexivity|]. cbn [d_seq map]. rewrite !snd_dthen, first_cons, snd_txt, oseq_l.
  destruct l as [|r' l]; [reflexivity|]. rewrite snd_dthen, snd_txt, oseq_l, IH. reflexivity.
Qed.

Lemma val_out : forall cf v d, snd (d_val cf d v) = first_out (map (leaf_out cf) (leaves v)).
Proof.
  intro cf. apply (value_rect2 (fun v => forall d, snd (d_val cf d v) = first_out (map (leaf_out cf) (leaves v)))); cbn [d_val leaves].
  - reflexivity.
  - reflexivity.
  - intros f d. cbn [map leaf_out]. rewrite first_one. reflexivity.
  - intros s d. cbn [map leaf_out]. rewrite first_one. reflexivity.
  - intros []; reflexivity.
  - intros l F d. rewrite !snd_dthen, !snd_txt, oseq_l, oseq_r, seq_out.
    induction F as [|v l Hv F IH]; [reflexivity|]. cbn [map concat]. rewrite map_app, first_app, first_cons, <- IH, <- (Hv (d + 1)). reflexivity.
  - intros m F d. rewrite !snd_dthen, !snd_txt, oseq_l, oseq_r, seq_out.
    induction F as [|[k v] m Hv F IH]; [reflexivity|]. cbn [map concat snd fst app] in *. rewrite map_app.
    rewrite !first_cons, first_app, <- IH, <- (Hv (d + 1)), !snd_dthen, snd_txt, oseq_l. cbn [leaf_out].
    destruct (snd (d_string cf k)) as [[]| | | |]; reflexivity.
Qed.

(** ** Leaves *)
Lemma char_out : forall cf c, (exists w, d_char cf c = txt w /\ ~ unwritable cf c) \/
  (d_char cf c = dfail (ESer (with_code "encoding failed with codepoint" c)) /\ unwritable cf c).
Proof.
  intros cf c. unfold d_char, unwritable. destruct (short_escape c) as [e|] eqn:Se.
  - left. eexists. split; [reflexivity|]. apply short_iff in Se. destruct Se as [Se _]. intros (A & B & C & D & E).
    cbn [out_text] in E. inversion Se; subst; try lia. 
    rewrite small_units in E by lia. discriminate.
  - destruct ((c <=? 31) || (s_esc cf && (127 <=? c))) eqn:X.
    + left. destruct (c <=? 65535); eexists; (split; [reflexivity|]); intros (A & B & C & D & E);
        destruct (s_esc cf); try (specialize (D eq_refl)); lia.
    + cbn [out_text]. destruct (out_units (out_enc cf) (out_ck cf) c) as [us|].
      * left. eexists. split; [reflexivity|]. intros (A & B & C & D & E). discriminate.
      * right. split; [reflexivity|]. split; [lia|]. split; [intros ->; discriminate|]. split; [intros ->; discriminate|].
        split; [|reflexivity]. intro E. rewrite E in X. lia.
Qed.

Lemma chars_out : forall cf cps t,
  (snd (d_chars cf cps t) = Ret tt /\ t = TEof /\ ~ Exists (unwritable cf) cps) \/
  ((exists m, snd (d_chars cf cps t) = Throw (ESer m)) /\ ((exists x, t = TBad x) \/ Exists (unwritable cf) cps)).
Proof.
  intros cf cps t. induction cps as [|c cps IH]; cbn [d_chars].
  - destruct t; [left|right].
    + split; [reflexivity|]. split; [reflexivity|]. intro H. inversion H.
    + split; [eexists; reflexivity|]. left. eauto.
  - rewrite snd_dthen. destruct (char_out cf c) as [(w & -> & U)|[-> U]]; cbn [txt dfail snd oseq].
    + destruct IH as [(A & B & C)|[(m & A) B]].
      * left. split; [assumption|]. split; [assumption|]. intro H. inversion H; subst; contradiction.
      * right. split; [eauto|]. destruct B as [B|B]; [left; assumption|right; apply Exists_cons_tl; assumption].
    + right. split; [eexists; reflexivity|]. right. apply Exists_cons_hd. assumption.
Qed.

Lemma leaf_cases : forall cf l,
  (leaf_out cf l = Ret tt /\ ~ bad_leaf cf l) \/
  (bad_leaf cf l /\ match l with LStr _ => exists m, leaf_out cf l = Throw (ESer m) | LFloat _ => leaf_out cf l = UB end).
Proof.
  intros cf [s|f]; cbn [leaf_out].
  - unfold d_string. destruct (feeds_string (val_enc cf) (val_ck cf) s) as (l & tm & F & L).
    rewrite (decs_feeds _ _ _ _ _ F) by lia. rewrite !snd_dthen, !snd_txt, oseq_l, oseq_r.
    destruct (chars_out cf l tm) as [(A & B & C)|[(m & A) B]]; rewrite A.
    + left. split; [reflexivity|]. intro H. inversion H as [s0 cps x F2|s0 cps t F2 E| |]; subst;
        destruct (feeds_det _ _ _ _ _ F _ _ F2) as [-> E2]; [discriminate|contradiction].
    + right. split; [|eauto]. destruct B as [[x0 ->]|B]; [eapply bl_decode; exact F|eapply bl_encode; [exact F|assumption]].
  - unfold d_float. destruct (f64_integral f) eqn:I.
    + unfold f64_to_int64. destruct (f64_trunc f) as [z|] eqn:T.
      * assert (NI : forall s, f <> S754_infinity s) by (intros s ->; discriminate).
        destruct (integral_int f I NI) as (z' & T' & Iz). rewrite T in T'. apply some_inj in T'. subst z'.
        unfold chk64. destruct (in_int64 z) eqn:B; [left|right].
        -- split; [reflexivity|]. intro H. inversion H as [| |b E|f0 z' Iz' Nb]; subst; [discriminate|].
           destruct (int_integral f z' Iz') as [_ T2]. rewrite T in T2. apply some_inj in T2. subst z'. apply Nb.
           unfold int64; unfold in_int64, int64_min, int64_max in B; lia.
        -- split; [|reflexivity]. apply bl_big with (z := z); [assumption|]. unfold int64; unfold in_int64, int64_min, int64_max in B; lia.
      * right. split; [|reflexivity]. destruct f as [s|s| |s m e]; try discriminate. constructor.
    + left. split; [reflexivity|]. intro H. inversion H as [| |b E|f0 z' Iz' Nb]; subst; [discriminate|].
      destruct (int_integral f z' Iz') as [X _]. congruence.
Qed.

(** ** Results *)
Section Results.
Variable cf : scfg.
Hypothesis Hok : enc_ok (out_enc cf) (out_ck cf) = true.

Lemma dump_out : forall v, dump_string cf v = match d_val cf 0 v with (w, Ret _) => Ret w | (_, o) => stop o end.
Proof. apply dump_string_eq. exact Hok. Qed.

Lemma first_good : forall l, Forall (fun x => ~ bad_leaf cf x) l -> first_out (map (leaf_out cf) l) = Ret tt.
Proof.
  intros l F. induction F as [|x l Hx F IH]; [reflexivity|]. cbn [map]. rewrite first_cons.
  destruct (leaf_cases cf x) as [[-> _]|[B _]]; [exact IH|contradiction].
Qed.

Lemma dump_returns : forall v, (exists w, dump_string cf v = Ret w) <-> Forall (fun l => ~ bad_leaf cf l) (leaves v).
Proof.
  intro v. rewrite dump_out. pose proof (val_out cf v 0) as E. destruct (d_val cf 0 v) as [w o]. cbn [snd] in E. split.
  - intros [x H]. assert (Eo : first_out (map (leaf_out cf) (leaves v)) = Ret tt)
      by (rewrite <- E; destruct o as [[]| | | |]; cbn in H; try discriminate; reflexivity).
    clear - Eo. induction (leaves v) as [|l ls IH]; [constructor|]. cbn [map] in Eo. rewrite first_cons in Eo.
    destruct (leaf_cases cf l) as [[A B]|[B C]].
    + constructor; [assumption|]. apply IH. rewrite A in Eo. exact Eo.
    + exfalso. destruct l; [destruct C as [m C]|]; rewrite C in Eo; discriminate.
  - intro F. rewrite (first_good _ F) in E. subst o. eauto.
Qed.

Lemma dump_first : forall v pre l post, leaves v = pre ++ l :: post -> Forall (fun l => ~ bad_leaf cf l) pre -> bad_leaf cf l ->
  match l with
  | LStr _ => exists m, dump_string cf v = Throw (ESer m)
  | LFloat _ => dump_string cf v = UB
  end.
Proof.
  intros v pre l post E F B. rewrite dump_out. pose proof (val_out cf v 0) as X. rewrite E, map_app, first_app, (first_good _ F) in X.
  cbn [map] in X. rewrite first_cons in X. destruct (d_val cf 0 v) as [w o]. cbn [snd] in X.
  destruct (leaf_cases cf l) as [[_ G]|[_ C]]; [contradiction|]. destruct l as [s|f].
  - destruct C as [m C]. rewrite C in X. subst o. exists m. reflexivity.
  - rewrite C in X. subst o. reflexivity.
Qed.

Lemma first_bad : forall l, Forall (fun l => ~ bad_leaf cf l) l \/ exists pre x post, l = pre ++ x :: post /\ Forall (fun l => ~ bad_leaf cf l) pre /\ bad_leaf cf x.
Proof.
  induction l as [|x l IH]; [left; constructor|]. destruct (leaf_cases cf x) as [[_ G]|[B _]].
  - destruct IH as [IH|(pre & y & post & -> & F & B)]; [left; constructor; assumption|].
    right. exists (x :: pre), y, post. split; [reflexivity|]. split; [constructor; assumption|assumption].
  - right. exists [], x, l. split; [reflexivity|]. split; [constructor|assumption].
Qed.

(** only these outcomes *)
Lemma dump_outcomes : forall v, (exists w, dump_string cf v = Ret w) \/ (exists m, dump_string cf v = Throw (ESer m)) \/
  (dump_string cf v = UB /\ exists f, In (LFloat f) (leaves v) /\ bad_leaf cf (LFloat f)).
Proof.
  intro v. destruct (first_bad (leaves v)) as [F|(pre & x & post & E & F & B)].
  - left. apply dump_returns. exact F.
  - pose proof (dump_first v pre x post E F B) as H. destruct x as [s|f]; [right; left; exact H|right; right].
    split; [exact H|]. exists f. split; [rewrite E; apply in_or_app; right; left; reflexivity|assumption].
Qed.

Lemma dump_throws_iff : forall v, (forall f, In (LFloat f) (leaves v) -> ~ bad_leaf cf (LFloat f)) ->
  ((exists e, dump_string cf v = Throw e) <-> exists s, In (LStr s) (leaves v) /\ bad_leaf cf (LStr s)).
Proof.
  intros v Fl. split.
  - intros [e H]. destruct (first_bad (leaves v)) as [F|(pre & x & post & E & F & B)].
    + apply dump_returns in F. destruct F as [w W]. congruence.
    + assert (I : In x (leaves v)) by (rewrite E; apply in_or_app; right; left; reflexivity).
      destruct x as [s|f]; [eauto|]. exfalso. exact (Fl f I B).
  - intros (s & I & B). destruct (first_bad (leaves v)) as [F|(pre & x & post & E & F & Bx)].
    + rewrite Forall_forall in F. exfalso. exact (F _ I B).
    + pose proof (dump_first v pre x post E F Bx) as H. destruct x as [s'|f]; [destruct H; eauto|].
      exfalso. apply (Fl f); [rewrite E; apply in_or_app; right; left; reflexivity|assumption].
Qed.
End Results.

(** ** Printable output *)
Definition printable (c : N) : Prop := 32 <= c /\ c <= 126.
Definition shown (cf : scfg) (c : N) : Prop := printable c \/ (s_pretty cf = true /\ c = 10).

Lemma digits_printable : forall n, Forall printable (dec_digits n).
Proof.
  intro n. eapply Forall_impl; [|exact (proj1 (numeral_ascii _ _ (dec_digits_numeral n)))]. intros c [A B]. unfold printable. lia.
Qed.
Lemma dec_printable : forall z, Forall printable (dec_of_Z z).
Proof.
  intro z. unfold dec_of_Z. destruct (z <? 0)%Z; [constructor; [unfold printable; lia|]|]; apply digits_printable.
Qed.
Lemma repeat_printable : forall c k, printable c -> Forall printable (repeat c k).
Proof. intros c k H. apply Forall_forall. intros x X. apply repeat_spec in X. subst. assumption. Qed.
Lemma pad_printable : forall k c l, printable c -> Forall printable l -> Forall printable (pad_left k c l).
Proof. intros k c l H F. unfold pad_left. apply Forall_app. split; [apply repeat_printable|]; assumption. Qed.
Lemma hex_aux_printable : forall f n acc, n < 16 ^ N.of_nat (Datatypes.S f) -> Forall printable acc -> Forall printable (hex_digits_aux f n acc).
Proof.
  assert (D : forall d, d < 16 -> printable (hex_digit d)) by (intros d L; unfold hex_digit, printable; destruct (N.ltb_spec d 10); lia).
  induction f as [|f IH]; intros n acc L F; cbn [hex_digits_aux].
  - constructor; [apply D; cbn in L; lia|assumption].
  - destruct (N.ltb_spec n 16) as [S|S]; [constructor; [apply D; lia|assumption]|].
    rewrite Nat2N.inj_succ, N.pow_succ_r' in L. apply IH; [lia|]. constructor; [apply D; lia|assumption].
Qed.
Lemma json_hex_printable : forall k n, Forall printable (json_hex k n).
Proof.
  intros k n. unfold json_hex. constructor; [unfold printable; lia|]. constructor; [unfold printable; lia|].
  apply pad_printable; [unfold printable; lia|]. apply hex_aux_printable; [apply size_pow; lia|constructor].
Qed.
Lemma Forall_firstn : forall P k (l : list N), Forall P l -> Forall P (firstn k l).
Proof. intros P k l F. revert k. induction F; intros [|k]; cbn [firstn]; constructor; auto. Qed.
Lemma Forall_skipn : forall P k (l : list N), Forall P l -> Forall P (skipn k l).
Proof. intros P k l F. revert k. induction F; intros [|k]; cbn [skipn]; auto; constructor; assumption. Qed.
Lemma point_printable : forall p l, Forall printable l -> Forall printable (with_point p l).
Proof.
  intros p l F. unfold with_point. assert (G : Forall printable (pad_left (Datatypes.S p) 48 l)) by (apply pad_printable; [unfold printable; lia|assumption]).
  destruct p as [|p]; [exact G|]. apply Forall_app. split; [apply Forall_firstn; exact G|].
  constructor; [unfold printable; lia|apply Forall_skipn; exact G].
Qed.
Lemma zeros_printable : forall l, Forall printable l -> Forall printable (strip_zeros l).
Proof. intros l F. induction F as [|c l H F IH]; cbn [strip_zeros]; [constructor|]. destruct (c =? 48); [exact IH|]. destruct (c =? 46); [exact F|constructor; assumption]. Qed.
Lemma strip_printable : forall l, Forall printable l -> Forall printable (strip l).
Proof. intros l F. unfold strip. destruct (existsb _ l); [|assumption]. apply Forall_rev, zeros_printable, Forall_rev. assumption. Qed.
Lemma exp_printable : forall x, Forall printable (fmt_exp x).
Proof.
  intro x. unfold fmt_exp. constructor; [unfold printable; lia|]. constructor; [unfold printable; destruct (x <? 0)%Z; lia|].
  apply pad_printable; [unfold printable; lia|apply digits_printable].
Qed.
Lemma float_printable : forall ff p f, Forall printable (fmt_float ff p f).
Proof.
  assert (Sg : forall (s : bool), Forall printable (if s then [45] else [])).
  { intros []; repeat constructor; unfold printable; lia. }
  intros ff p f. unfold fmt_float. destruct f as [s|s| |s m e].
  - apply Forall_app. split; [apply Sg|]. assert (P1 : Forall printable [48]) by (repeat constructor; unfold printable; lia).
    destruct ff; try assumption; [apply point_printable; assumption|].
    apply Forall_app; split; [apply point_printable; assumption|apply exp_printable].
  - apply Forall_app. split; [apply Sg|]. repeat constructor; unfold printable; lia.
  - repeat constructor; unfold printable; lia.
  - apply Forall_app. split; [apply Sg|].
    assert (G : forall q, Forall printable (fmt_g q (N.pos m) e)).
    { intro q. unfold fmt_g. destruct (sci _ _ _) as [r x]. destruct (_ && _).
      - apply strip_printable. unfold fmt_f. apply point_printable, digits_printable.
      - apply Forall_app. split; [apply strip_printable, point_printable, digits_printable|apply exp_printable]. }
    destruct ff; try apply G.
    + unfold fmt_f. apply point_printable, digits_printable.
    + unfold fmt_e. destruct (sci _ _ _) as [r x]. apply Forall_app. split; [apply point_printable, digits_printable|apply exp_printable].
Qed.

Section Printable.
Variable cf : scfg.
Hypothesis Hesc : s_esc cf = true.
Hypothesis Hind : printable (s_ichar cf).

Lemma pr_shown : forall l, Forall printable l -> Forall (shown cf) l.
Proof. intros l F. eapply Forall_impl; [|exact F]. intros. left. assumption. Qed.
Lemma dthen_shown : forall a b, Forall (shown cf) (fst a) -> Forall (shown cf) (fst b) -> Forall (shown cf) (fst (dthen a b)).
Proof. intros [wa [[]| | | |]] [wb ob] A B; cbn in *; try assumption. apply Forall_app. split; assumption. Qed.

Lemma char_shown : forall c, Forall (shown cf) (fst (d_char cf c)).
Proof.
  intro c. unfold d_char. destruct (short_escape c) as [e|] eqn:Se.
  - apply short_iff in Se. destruct Se as [Se _]. apply pr_shown. cbn [txt fst]. inversion Se; repeat constructor; unfold printable; lia.
  - destruct ((c <=? 31) || (s_esc cf && (127 <=? c))) eqn:X.
    + destruct (c <=? 65535); cbn [txt fst]; apply pr_shown; [apply json_hex_printable|]. apply Forall_app. split; apply json_hex_printable.
    + rewrite Hesc in X. rewrite small_units by lia. cbn [txt fst]. apply pr_shown. repeat constructor; unfold printable; lia.
Qed.
Lemma chars_shown : forall cps t, Forall (shown cf) (fst (d_chars cf cps t)).
Proof.
  intros cps t. induction cps as [|c cps IH]; cbn [d_chars]; [destruct t; constructor|].
  apply dthen_shown; [apply char_shown|exact IH].
Qed.
Lemma one_shown : forall c l, printable c -> Forall (shown cf) l -> Forall (shown cf) (fst (txt (c :: l))).
Proof. intros c l H F. cbn [txt fst]. constructor; [left; assumption|assumption]. Qed.
Lemma string_shown : forall s, Forall (shown cf) (fst (d_string cf s)).
Proof.
  intro s. unfold d_string. destruct (decs _ _ _ _) as [cps t].
  repeat apply dthen_shown; try apply one_shown; try apply chars_shown; try constructor; unfold printable; lia.
Qed.
Lemma float_shown : forall f, Forall (shown cf) (fst (d_float cf f)).
Proof.
  intro f. unfold d_float. destruct (f64_integral f); [|apply pr_shown, float_printable].
  destruct (f64_to_int64 f) as [z| | | |]; try constructor. cbn [txt fst]. apply pr_shown, Forall_app. split; [apply dec_printable|].
  repeat constructor; unfold printable; lia.
Qed.
Lemma nl_shown : Forall (shown cf) (d_nl cf).
Proof. unfold d_nl. destruct (s_pretty cf) eqn:P; constructor; [|constructor]. right. auto. Qed.
Lemma ind_shown : forall d, Forall (shown cf) (d_ind cf d).
Proof. intro d. unfold d_ind. destruct (s_pretty cf); [|constructor]. destruct (s_ichar cf =? 0); [constructor|]. apply pr_shown, repeat_printable. exact Hind. Qed.
Lemma sp_shown : Forall (shown cf) (d_sp cf).
Proof. unfold d_sp. destruct (s_pretty cf); constructor; [left; exact Hind|constructor]. Qed.
Lemma seq_shown : forall pre l, Forall (shown cf) pre -> Forall (fun r => Forall (shown cf) (fst r)) l -> Forall (shown cf) (fst (d_seq pre l)).
Proof.
  intros pre l P F. induction F as [|r l Hr F IH]; [constructor|]. cbn [d_seq]. apply dthen_shown; [exact P|]. apply dthen_shown; [exact Hr|].
  destruct l; [constructor|]. apply dthen_shown; [apply one_shown; [unfold printable; lia|constructor]|exact IH].
Qed.
Lemma val_shown : forall v d, Forall (shown cf) (fst (d_val cf d v)).
Proof.
  assert (Lit : forall l, Forall printable l -> Forall (shown cf) (fst (txt l))) by (intros; apply pr_shown; assumption).
  assert (Cl : forall d c, printable c -> Forall (shown cf) (fst (txt (d_nl cf ++ d_ind cf d ++ [c])))).
  { intros d c H. cbn [txt fst]. apply Forall_app. split; [apply nl_shown|]. apply Forall_app. split; [apply ind_shown|].
    constructor; [left; assumption|constructor]. }
  assert (Pre : forall d, Forall (shown cf) (d_nl cf ++ d_ind cf d)) by (intro d; apply Forall_app; split; [apply nl_shown|apply ind_shown]).
  apply (value_rect2 (fun v => forall d, Forall (shown cf) (fst (d_val cf d v)))); cbn [d_val].
  - intros. apply Lit. repeat constructor; unfold printable; lia.
  - intros. apply Lit, dec_printable.
  - intros. apply float_shown.
  - intros. apply string_shown.
  - intros []; intros; apply Lit; repeat constructor; unfold printable; lia.
  - intros l F d. apply dthen_shown; [apply one_shown; [unfold printable; lia|constructor]|]. apply dthen_shown; [|apply Cl; unfold printable; lia].
    apply seq_shown; [apply Pre|]. rewrite Forall_map. eapply Forall_impl; [|exact F]. cbv beta. auto.
  - intros m F d. apply dthen_shown; [apply one_shown; [unfold printable; lia|constructor]|]. apply dthen_shown; [|apply Cl; unfold printable; lia].
    apply seq_shown; [apply Pre|]. rewrite Forall_map. eapply Forall_impl; [|exact F]. cbv beta. intros p H.
    apply dthen_shown; [apply string_shown|]. apply dthen_shown; [apply one_shown; [unfold printable; lia|apply sp_shown]|apply H].
Qed.
End Printable.

Lemma dump_printable : forall cf h v, enc_ok (out_enc cf) (out_ck cf) = true -> s_esc cf = true -> printable (s_ichar cf) ->
  Forall (shown cf) (fst (dump_to cf h (mkOs [] false) v)).
Proof. intros cf h v Hok He Hi. rewrite dump_to_eq by exact Hok. cbn [fst app]. apply val_shown; assumption. Qed.
