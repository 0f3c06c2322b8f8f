(** More about dump: values that can always be written, layouts at any depth,
    error policies, distinct texts for distinct values. *)
From Coq Require Import Lia ZifyBool ZifyNat ZifyN Floats.SpecFloat.
From Verif Require Import Base Stream Encoding Value Token FloatFmt Parser EncodingProofs EncodingFacts Feeds SpecUnicode SpecGrammar
  SpecText SpecRfc ObjFacts GrammarLex GrammarTok GrammarFacts NumberFacts Serializer DumpText DumpProofs SpecDump DumpFacts RoundTrip DumpFail.
Ltac Zify.zify_post_hook ::= Z.div_mod_to_equations.
Open Scope N_scope.

(** ** Leaves are strings, keys and floats inside the value *)
Lemma leaf_sub : forall v l, In l (leaves v) ->
  match l with
  | LStr s => sub (VStr s) v \/ exists m x, sub (VObj m) v /\ In (s, x) m
  | LFloat f => sub (VFloat f) v
  end.
Proof.
  apply (value_rect2 (fun v => forall l, In l (leaves v) ->
    match l with LStr s => sub (VStr s) v \/ exists m x, sub (VObj m) v /\ In (s, x) m | LFloat f => sub (VFloat f) v end)); cbn [leaves].
  - intros l [].
  - intros z l [].
  - intros f l [<-|[]]. constructor.
  - intros s l [<-|[]]. left. constructor.
  - intros b l [].
  - intros vs F l H. apply in_concat in H. destruct H as (ls & H & I). apply in_map_iff in H. destruct H as (v & <- & Iv).
    rewrite Forall_forall in F. specialize (F v Iv l I). destruct l as [s|f].
    + destruct F as [F|(m & x & S & X)]; [left; econstructor; eassumption|]. right. exists m, x. split; [econstructor; eassumption|assumption].
    + econstructor; eassumption.
  - intros m F l H. apply in_concat in H. destruct H as (ls & H & I). apply in_map_iff in H. destruct H as ([k v] & <- & Iv).
    cbn [fst snd] in I. destruct I as [<-|I].
    + right. exists m, v. split; [constructor|assumption].
    + rewrite Forall_forall in F. specialize (F (k, v) Iv l I). cbn [snd] in F. destruct l as [s|f].
      * destruct F as [F|(m' & x & S & X)]; [left; econstructor; eassumption|]. right. exists m', x. split; [eapply sub_obj; eassumption|assumption].
      * eapply sub_obj; eassumption.
Qed.

(** ** Values that can be written *)
(** the target encoding has units for every Unicode character that must be
    written raw *)
Definition wide_out (cf : scfg) : Prop :=
  match out_enc cf with
  | Utf8 => True
  | Utf32 => out_ck cf = C32
  | Utf16 => out_ck cf = C32 \/ s_esc cf = true
  | Ignore => True
  end.
Lemma units_some : forall cf c, enc_ok (out_enc cf) (out_ck cf) = true -> wide_out cf -> c <= 1114111 -> (s_esc cf = true -> c < 127) ->
  (out_enc cf = Ignore -> c < 128) -> out_units (out_enc cf) (out_ck cf) c <> None.
Proof.
  intros cf c Hok W C E G. destruct (N.ltb_spec c 128) as [L|L]; [rewrite small_units by assumption; discriminate|].
  unfold wide_out in W. unfold out_units. destruct (out_enc cf).
  - specialize (G eq_refl). lia.
  - unfold units8. replace (c <? 128) with false by lia. destruct (out_ck cf) eqn:Ck;
    [destruct (c <? 2048), (c <? 65536); replace (c <? 1114112) with true by lia; discriminate|..];
    (destruct (c <? 2048) eqn:A; [|destruct (c <? 65536) eqn:B; [|replace (c <? 1114112) with true by lia]];
      cbn [existsb]; rewrite ?orb_false_r; repeat match goal with |- context [?a =? ?b] => replace (a =? b) with false by lia end; discriminate).
  - destruct W as [W|W]; [|specialize (E W); lia]. rewrite W. unfold units16. destruct (c <? 65536) eqn:B; [|replace (c <? 1114112) with true by lia];
      cbn [existsb]; rewrite ?orb_false_r; repeat match goal with |- context [?a =? ?b] => replace (a =? b) with false by lia end; discriminate.
  - rewrite W. unfold units32. replace (c <? 1114112) with true by lia.
    cbn [existsb]; rewrite ?orb_false_r; repeat match goal with |- context [?a =? ?b] => replace (a =? b) with false by lia end; discriminate.
Qed.

Lemma ok_str_good : forall A cf s, enc_ok (out_enc cf) (out_ck cf) = true -> enc_ok (val_enc cf) (val_ck cf) = true ->
  wide_out cf -> (out_enc cf = Ignore -> s_esc cf = true) -> ok_string A cf s -> ~ bad_leaf cf (LStr s).
Proof.
  intros A cf s Ho Hv W Ig O B. destruct (ok_feeds A cf s Hv O) as (cps & E & F & Fd).
  inversion B as [s0 cps2 x F2|s0 cps2 t F2 X| |]; subst; destruct (feeds_det _ _ _ _ _ Fd _ _ F2) as [E2 E3]; [discriminate|subst cps2].
  apply Exists_exists in X. destruct X as (c & I & U). rewrite Forall_forall in F. specialize (F c I).
  destruct F as (F1 & F2' & F3 & F4). destruct U as (U1 & U2 & U3 & U4 & U5). cbn [out_text] in U5.
  destruct (out_units (out_enc cf) (out_ck cf) c) eqn:Eu; [discriminate|].
  apply (units_some cf c); auto. intro G. specialize (Ig G). specialize (U4 Ig). lia.
Qed.

Lemma ok_dumps_but : forall (okf : f64 -> Prop) A cf v, (forall f, okf f -> ~ bad_leaf cf (LFloat f)) ->
  enc_ok (out_enc cf) (out_ck cf) = true -> enc_ok (val_enc cf) (val_ck cf) = true ->
  wide_out cf -> (out_enc cf = Ignore -> s_esc cf = true) -> ok_value_but okf A cf v -> exists w, dump_string cf v = Ret w.
Proof.
  intros okf A cf v Hf Ho Hv W Ig O. apply dump_returns; [assumption|]. apply Forall_forall. intros l I. pose proof (leaf_sub v l I) as S.
  destruct l as [s|f]; [|exact (Hf f (O _ S))].
  apply (ok_str_good A); try assumption. destruct S as [S|(m & x & S & X)].
  + exact (O _ S).
  + destruct (O _ S) as [_ K]. rewrite Forall_forall in K. exact (K _ X).
Qed.
Lemma ok_dumps : forall A cf v, enc_ok (out_enc cf) (out_ck cf) = true -> enc_ok (val_enc cf) (val_ck cf) = true ->
  wide_out cf -> (out_enc cf = Ignore -> s_esc cf = true) -> ok_value A cf v -> exists w, dump_string cf v = Ret w.
Proof.
  intros A cf v. apply ok_dumps_but. intros f (V & Z & z & Iz & B) X. inversion X as [| |b E|f0 z' Iz' Nb]; subst.
  + exact Iz.
  + destruct (int_integral f z Iz) as [_ T]. destruct (int_integral f z' Iz') as [_ T']. rewrite T in T'. apply some_inj in T'. subst.
    apply Nb. unfold int64. lia.
Qed.

Lemma round_trip_all : forall pc cf v, reads pc cf -> enc_ok (out_enc cf) (out_ck cf) = true -> enc_ok (val_enc cf) (val_ck cf) = true ->
  wide_out cf -> (out_enc cf = Ignore -> s_esc cf = true) -> blank_indent cf -> ok_value plain cf v ->
  exists w, dump_string cf v = Ret w /\ parse_string pc w = Ret v.
Proof.
  intros pc cf v R Ho Hv W Ig B O. destruct (ok_dumps plain cf v Ho Hv W Ig O) as [w D]. exists w. split; [assumption|].
  eapply round_trip; eassumption.
Qed.

(** json with any options on indentation and escaping *)
Definition plain_opt (o : sopt) : Prop :=
  match o with
  | OIndent step ch => ch = 32 \/ ch = 9 \/ ch = 10 \/ ch = 13
  | OEscape _ | OPrecision _ _ => True
  | OSrcEnc _ | OTgtEnc _ | OEnc _ => False
  end.
Definition json_like (cf : scfg) : Prop :=
  val_ck cf = C8 /\ val_enc cf = Utf8 /\ out_ck cf = C8 /\ out_enc cf = Utf8 /\ (s_ichar cf = 32 \/ s_ichar cf = 9 \/ s_ichar cf = 10 \/ s_ichar cf = 13).
Lemma plain_opts : forall opts cf, json_like cf -> Forall plain_opt opts -> json_like (fold_left apply_opt opts cf).
Proof.
  induction opts as [|o opts IH]; intros cf J F; [exact J|]. inversion F as [|? ? P F']; subst. cbn [fold_left]. apply IH; [|assumption].
  destruct J as (A & B & C & D & E). unfold json_like. destruct o; cbn in P |- *; try contradiction; auto.
Qed.
Lemma json_cfg : forall opts, Forall plain_opt opts -> json_like (ser_cfg C8 C8 fmt_default opts).
Proof.
  intros opts F. unfold ser_cfg, prepare. set (cf := mkSc _ _ _ _ _ _ _ _ _ _).
  assert (J : json_like (fold_left apply_opt opts cf)) by (apply plain_opts; [repeat (split; [reflexivity|]); left; reflexivity|assumption]).
  destruct (s_ff (fold_left apply_opt opts cf)); exact J.
Qed.

Lemma round_trip_json : forall opts v, Forall plain_opt opts -> ok_value plain (ser_cfg C8 C8 fmt_default opts) v ->
  exists w, dump_json opts v = Ret w /\ parse_string cfg_json w = Ret v.
Proof.
  intros opts v F O. destruct (json_cfg opts F) as (A & B & C & D & E). unfold dump_json.
  apply round_trip_all; unfold wide_out, blank_indent, reads; rewrite ?A, ?B, ?C, ?D; try reflexivity; try discriminate; auto.
Qed.

(** ** Distinct values have distinct texts *)
Lemma dump_inj : forall cf v v' w, enc_ok (out_enc cf) (out_ck cf) = true -> enc_ok (val_enc cf) (val_ck cf) = true ->
  (out_enc cf = Ignore -> s_esc cf = true) -> blank_indent cf -> ok_value plain cf v -> ok_value plain cf v' ->
  dump_string cf v = Ret w -> dump_string cf v' = Ret w -> v = v'.
Proof.
  intros cf v v' w Ho Hv Ig B O O' D D'. set (pc := mkCfg (out_ck cf) (out_enc cf) (val_ck cf) (val_enc cf) false).
  assert (R : reads pc cf) by (repeat split).
  pose proof (round_trip pc cf v w R Ho Hv Ig B O D) as P. pose proof (round_trip pc cf v' w R Ho Hv Ig B O' D') as P'. congruence.
Qed.

(** ** Layout at any depth *)
Lemma deep_iff : forall cf v w, enc_ok (out_enc cf) (out_ck cf) = true -> s_pretty cf = true -> s_ichar cf <> 0 ->
  (dump_string cf v = Ret w <->
   rend (unit_string cf) (float_text (s_ff cf) (s_prec cf))
     (mkLay [10] (fun d => repeat (s_ichar cf) (N.to_nat (d mod 65536 * s_step cf))) [s_ichar cf]) 0 v w).
Proof.
  intros cf v w Hok P C. rewrite dump_string_ret by assumption. rewrite d_val_iff. unfold lay.
  assert (E : forall d, d <= height v -> d_ind cf d = repeat (s_ichar cf) (N.to_nat (d mod 65536 * s_step cf))).
  { intros d L. unfold d_ind. rewrite P. replace (s_ichar cf =? 0) with false by lia. reflexivity. }
  assert (E1 : d_nl cf = [10]) by (unfold d_nl; rewrite P; reflexivity).
  assert (E2 : d_sp cf = [s_ichar cf]) by (unfold d_sp; rewrite P; reflexivity).
  set (la' := mkLay [10] _ _). set (la := mkLay (d_nl cf) (d_ind cf) (d_sp cf)).
  split; intro H.
  - apply (proj1 (rend_lay _ _ la la' (height v) E1 E2 E) 0 v w H). lia.
  - apply (proj1 (rend_lay _ _ la' la (height v) (eq_sym E1) (eq_sym E2) (fun d L => eq_sym (E d L))) 0 v w H). lia.
Qed.
Lemma nul_indent_iff : forall cf v w, enc_ok (out_enc cf) (out_ck cf) = true -> s_pretty cf = true -> s_ichar cf = 0 ->
  (dump_string cf v = Ret w <->
   rend (unit_string cf) (float_text (s_ff cf) (s_prec cf)) (mkLay [10] (fun _ => []) [0]) 0 v w).
Proof.
  intros cf v w Hok P C. rewrite dump_string_ret by assumption. rewrite d_val_iff. unfold lay.
  assert (E : forall d, d <= height v -> d_ind cf d = []) by (intros d L; unfold d_ind; rewrite P, C; reflexivity).
  assert (E1 : d_nl cf = [10]) by (unfold d_nl; rewrite P; reflexivity).
  assert (E2 : d_sp cf = [0]) by (unfold d_sp; rewrite P, C; reflexivity).
  set (la' := mkLay [10] _ _). set (la := mkLay (d_nl cf) (d_ind cf) (d_sp cf)).
  split; intro H.
  - apply (proj1 (rend_lay _ _ la la' (height v) E1 E2 E) 0 v w H). lia.
  - apply (proj1 (rend_lay _ _ la' la (height v) (eq_sym E1) (eq_sym E2) (fun d L => eq_sym (E d L))) 0 v w H). lia.
Qed.

(** ** Error policies *)
Lemma dump_to_str : forall cf h v, enc_ok (out_enc cf) (out_ck cf) = true ->
  exists w r, dump_to cf h (mkOs [] false) v = (w, handle h r) /\ dump_string cf v = (let* _ := r in Ret w) /\
    (r = Ret tt \/ (exists m, r = Throw (ESer m)) \/ r = UB).
Proof.
  intros cf h v Hok. exists (fst (d_val cf 0 v)), (snd (d_val cf 0 v)). rewrite dump_to_eq, dump_string_eq by assumption.
  split; [reflexivity|]. pose proof (dump_outcomes cf Hok v) as D. rewrite dump_string_eq in D by assumption.
  destruct (d_val cf 0 v) as [w [[]|e| | |]]; cbn [fst snd stop bind] in *; (split; [reflexivity|]).
  - left. reflexivity.
  - right. left. destruct D as [[x D]|[[m D]|[D _]]]; try discriminate. inversion D. eauto.
  - exfalso. destruct D as [[x D]|[[m D]|[D _]]]; discriminate.
  - right. right. reflexivity.
  - exfalso. destruct D as [[x D]|[[m D]|[D _]]]; discriminate.
Qed.

Lemma dump_policies : forall cf v, enc_ok (out_enc cf) (out_ck cf) = true ->
  let r h := fst (snd (dump_to cf h (mkOs [] false) v)) in
  let m h := snd (snd (dump_to cf h (mkOs [] false) v)) in
  (forall h, fst (dump_to cf h (mkOs [] false) v) = fst (dump_to cf HNone (mkOs [] false) v)) /\
  r HStrict = r HNone /\
  (forall h e, h = HIgnore \/ h = HRecord -> r h <> Throw e) /\
  (forall h, h <> HRecord -> m h = ""%string) /\
  ((exists e, r HNone = Throw e) <-> m HRecord <> ""%string) /\
  (forall e, r HNone = Throw e -> m HRecord = exn_msg e).
Proof.
  intros cf v Hok. cbv zeta. rewrite !dump_to_eq by assumption.
  pose proof (dump_to_str cf HNone v Hok) as (w & o & E & _ & O). rewrite dump_to_eq in E by assumption.
  cbn [fst snd app]. split; [intro h; rewrite dump_to_eq by assumption; reflexivity|].
  assert (Es : snd (d_val cf 0 v) = o).
  { inversion E as [[Ew Eh]]. destruct (snd (d_val cf 0 v)) as [[]| | | |], o as [[]| | | |]; cbn in Eh; inversion Eh; try reflexivity. }
  rewrite Es. clear E Es.
  split; [destruct o; reflexivity|].
  split; [intros h e Hh; rewrite dump_to_eq by assumption; cbn [fst snd]|].
  { pose proof (val_out cf v 0) as _. destruct (dump_to_str cf h v Hok) as (w' & o' & E' & _ & O'). rewrite dump_to_eq in E' by assumption.
    inversion E' as [[Ew Eh]]. rewrite Eh. destruct O' as [->|[(m & ->)| ->]]; destruct Hh as [-> | ->]; discriminate. }
  split; [intros h Hh; rewrite dump_to_eq by assumption; cbn [fst snd]|].
  { destruct (snd (d_val cf 0 v)) as [[]| | | |], h; cbn; try reflexivity; congruence. }
  destruct O as [->|[(m & ->)| ->]]; cbn.
  - split; [split; [intros [e X]; discriminate|intro X; congruence]|discriminate].
  - split; [split; [discriminate|eauto]|]. intros e X. inversion X. reflexivity.
  - split; [split; [intros [e X]; discriminate|intro X; congruence]|discriminate].
Qed.

(** ** Numbers *)
Lemma dump_float_iff : forall cf f w, enc_ok (out_enc cf) (out_ck cf) = true ->
  (dump_string cf (VFloat f) = Ret w <-> float_text (s_ff cf) (s_prec cf) f w).
Proof. intros cf f w Hok. rewrite dump_string_ret by assumption. cbn [d_val]. apply d_float_text. Qed.
Lemma dump_int_float : forall cf f z, enc_ok (out_enc cf) (out_ck cf) = true -> is_int f z -> int64 z ->
  exists w, int_text z w /\ dump_string cf (VFloat f) = Ret (w ++ [46; 48]).
Proof.
  intros cf f z Hok I B. exists (dec_of_Z z). assert (T : int_text z (dec_of_Z z)) by (apply int_text_iff; reflexivity).
  split; [exact T|]. apply dump_float_iff; [assumption|]. eapply ftx_int; eassumption.
Qed.
Lemma dump_frac : forall cf f, enc_ok (out_enc cf) (out_ck cf) = true -> (forall z, ~ is_int f z) -> (forall s, f <> S754_infinity s) ->
  dump_string cf (VFloat f) = Ret (fmt_float (s_ff cf) (s_prec cf) f).
Proof. intros cf f Hok N I. apply dump_float_iff; [assumption|]. constructor; assumption. Qed.
Lemma dump_big_float : forall cf f, enc_ok (out_enc cf) (out_ck cf) = true ->
  (dump_string cf (VFloat f) = UB <-> (exists s, f = S754_infinity s) \/ exists z, is_int f z /\ ~ int64 z).
Proof.
  intros cf f Hok. split.
  - intro U. destruct (dump_outcomes cf Hok (VFloat f)) as [[w D]|[[m D]|[_ (f' & I & B)]]]; try congruence.
    destruct I as [I|[]]. inversion I; subst f'. inversion B; subst; eauto.
  - intro H. apply (dump_first cf Hok (VFloat f) [] (LFloat f) []); [reflexivity|constructor|].
    destruct H as [[s ->]|(z & I & N)]; [constructor|econstructor; eassumption].
Qed.
Lemma int_dump : forall cf z, enc_ok (out_enc cf) (out_ck cf) = true -> exists w, int_text z w /\ dump_string cf (VInt z) = Ret w.
Proof.
  intros cf z Hok. exists (dec_of_Z z). split; [apply int_text_iff; reflexivity|]. apply dump_string_ret; [assumption|]. reflexivity.
Qed.

(** ** RFC 8259 *)
Lemma dump_is_rfc : forall cf v w, enc_ok (out_enc cf) (out_ck cf) = true -> enc_ok (val_enc cf) (val_ck cf) = true ->
  blank_indent cf -> ok_value any cf v -> dump_string cf v = Ret w ->
  exists L, rfc_text any (val_enc cf) (val_ck cf) L v /\ out_text (out_enc cf) (out_ck cf) L = Some w.
Proof. intros cf v w A B C D E. destruct (dump_rfc any cf v w A B C D E) as (L & X & Y & _). eauto. Qed.

Lemma control_not_rfc :
  dump_json [] (VStr [1]) = Ret (chars """\u01""") /\ forall v, ~ rfc_text any Utf8 C8 (chars """\u01""") v.
Proof.
  split; [vm_compute; reflexivity|]. intros v H. remember (chars """\u01""") as l eqn:El. vm_compute in El.
  destruct H as [a w b v Wa V Wb].
  assert (a = []) as ->.
  { destruct a as [|x a]; [reflexivity|]. cbn [app] in El. inversion El; subst. inversion Wa; subst. lia. }
  cbn [app] in El. destruct V as [| | |w v Nu|w s St|g Wg|w vs E|g Wg|w ms m E Ob]; try discriminate El.
  - assert (X : exists c r, w = c :: r /\ (c = 45 \/ ascii_digit c)).
    { assert (Y : forall p neg z u r, minus p neg -> numeral z u -> exists c r0, p ++ u ++ r = c :: r0 /\ (c = 45 \/ ascii_digit c)).
      { intros p neg z u r Mi Nm. destruct Mi; cbn [app]; [|eauto]. destruct (numeral_ascii _ _ Nm) as [F (c & u' & ->)].
        inversion F; subst. cbn [app]. eauto. }
      destruct Nu as [p neg z u Mi Nm _|p neg z u fr f Mi Nm _ _ _|p neg z u fr f x g Mi Nm _ _ _ _].
      - destruct (Y p neg z u [] Mi Nm) as (c & r0 & E & X). rewrite app_nil_r in E. eauto.
      - exact (Y p neg z u fr Mi Nm).
      - exact (Y p neg z u (fr ++ x) Mi Nm). }
    destruct X as (c & r & -> & X). cbn [app] in El. inversion El; subst. unfold ascii_digit in X. lia.
  - destruct St as [b0 cps s C _]. cbn [app] in El. inversion El as [E1]. clear El.
    destruct C as [|x cp b1 cps C Cs]; [discriminate|]. destruct C as [c A1 A2 A3 A4|e c Sh|h cp Hx _|h1 hi h2 lo Hx1 _ _ _|h cp Hx _ _].
    + cbn [app] in E1. inversion E1; subst; lia.
    + cbn [app] in E1. inversion E1; subst; inversion Sh.
    + destruct Hx as [p q r0 u x y z w0 X1 X2 X3 X4]. cbn [app] in E1. inversion E1; subst; inversion X3; lia.
    + destruct Hx1 as [p q r0 u x y z w0 X1 X2 X3 X4]. cbn [app] in E1. inversion E1; subst; inversion X3; lia.
    + destruct Hx as [p q r0 u x y z w0 X1 X2 X3 X4]. cbn [app] in E1. inversion E1; subst; inversion X3; lia.
Qed.

Lemma ok_case : ok_value any (ser_cfg C8 C8 fmt_default []) (VArr [VStr (chars "a
b"); VInt (-9223372036854775808)]).
Proof.
  intros x S. inversion S as [|v l I S'|]; subst; [exact Logic.I|]. destruct I as [<-|[<-|[]]].
  - inversion S'; subst. cbn [ok_node_but]. apply oks with (cps := [97; 10; 98]); [reflexivity|].
    repeat (constructor; [split; [unfold ok_char, SpecGrammar.lead; cbn; repeat split; try lia; intros; try lia; exact Logic.I|exact Logic.I]|]). constructor.
  - inversion S'; subst. cbn [ok_node_but]. split; [unfold int64; lia|intros; exact Logic.I].
Qed.

Lemma float_back : forall f, ok_float f -> exists w, dump_json [] (VFloat f) = Ret w /\ parse_string cfg_json w = Ret (VFloat f).
Proof.
  intros f O. apply round_trip_json; [constructor|]. intros x S. inversion S; subst. exact O.
Qed.

Lemma unencodable_case : utf8_text [65535] [239; 191; 191] /\
  dump_string (ser_cfg C8 C16 fmt_default []) (VStr [239; 191; 191]) = Throw (ESer "encoding failed with codepoint '\uFFFF'").
Proof.
  split; [|vm_compute; reflexivity]. apply (u8t_cons 65535 [239; 191; 191] [] []); [|constructor].
  apply (u8_3 239 191 191); unfold cont; lia.
Qed.
