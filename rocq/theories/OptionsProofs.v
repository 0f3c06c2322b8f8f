(** Options of parse and dump. *)
From Coq Require Import Lia ZifyBool ZifyNat ZifyN Sorting.Permutation.
From Verif Require Import Base Stream Encoding Value Message Parser FloatFmt Serializer EncodingProofs Feeds
  SpecUnicode SpecGrammar SpecText SpecRfc SpecDump DumpProofs DumpFacts RoundTrip DumpMore WrapProofs Options SpecOptions.
Open Scope N_scope.

Lemma fold_decided : forall {O S A} (ap : S -> O -> S) (says : O -> option A) (get : S -> A),
  (forall s o, get (ap s o) = match says o with Some x => x | None => get s end) ->
  forall opts s, decided says (get s) opts (get (fold_left ap opts s)).
Proof.
  intros O S A ap says get H opts s. revert opts.
  apply (rev_ind (fun opts => decided says (get s) opts (get (fold_left ap opts s)))).
  - apply de_default. constructor.
  - intros o opts IH. rewrite fold_left_app. cbn [fold_left]. rewrite H. destruct (says o) as [x|] eqn:E.
    + apply (de_last says (get s) opts o []); [assumption|constructor].
    + revert IH. generalize (get (fold_left ap opts s)). intros y IH. destruct IH as [opts N|before o0 after x Sx N].
      * apply de_default. apply Forall_app. auto.
      * rewrite <- app_assoc. cbn [app]. apply de_last; [assumption|]. apply Forall_app. auto.
Qed.

Lemma decided_det : forall {O A} (says : O -> option A) d opts x, decided says d opts x -> forall y, decided says d opts y -> x = y.
Proof.
  assert (X : forall {O A} (says : O -> option A) b o a x, says o = Some x -> Forall (fun o => says o = None) (b ++ o :: a) -> False).
  { intros O A says b o a x E F. apply Forall_app in F. destruct F as [_ F]. inversion F; congruence. }
  intros O A says d opts x H. destruct H as [opts N|b o a x E N]; intros y Y.
  - inversion Y as [? N'|b' o' a' y' E' N' Q]; subst; [reflexivity|]. exfalso. eapply X; eassumption.
  - inversion Y as [? N' Q|b' o' a' y' E' N' Q]; subst; [exfalso; eapply X; eassumption|].
    clear Y. revert b' Q. induction b as [|z b IH]; intros [|z' b'] Q; cbn [app] in Q; injection Q as Q1 Q2.
    + congruence.
    + subst. exfalso. eapply X; [exact E'|]. exact N.
    + subst. exfalso. eapply X; [exact E|]. exact N'.
    + apply (IH b'); assumption.
Qed.

Lemma parser_says : forall dflt sck vck nd opts, let '(cf, h) := parser_of dflt sck vck nd opts in
  decided p_source (dflt sck) opts (src_enc cf) /\ decided p_target (dflt vck) opts (tgt_enc cf) /\ decided p_handler HNone opts h /\
  src_ck cf = sck /\ tgt_ck cf = vck /\ ndebug cf = nd.
Proof.
  intros dflt sck vck nd opts. unfold parser_of. set (s0 := (mkCfg sck (dflt sck) vck (dflt vck) nd, HNone)).
  pose proof (fold_decided apply_popt p_source (fun s => src_enc (fst s)) ltac:(intros [c h] []; reflexivity) opts s0) as A.
  pose proof (fold_decided apply_popt p_target (fun s => tgt_enc (fst s)) ltac:(intros [c h] []; reflexivity) opts s0) as B.
  pose proof (fold_decided apply_popt p_handler (fun s => snd s) ltac:(intros [c h] []; reflexivity) opts s0) as C.
  assert (D : forall s, src_ck (fst (fold_left apply_popt opts s)) = src_ck (fst s) /\ tgt_ck (fst (fold_left apply_popt opts s)) = tgt_ck (fst s) /\
    ndebug (fst (fold_left apply_popt opts s)) = ndebug (fst s)).
  { clear. induction opts as [|o opts IH]; intro s; [auto|]. cbn [fold_left]. destruct (IH (apply_popt s o)) as (-> & -> & ->).
    destruct s as [c h], o; auto. }
  specialize (D s0). destruct (fold_left apply_popt opts s0) as [cf h]. cbn [fst snd s0 src_enc tgt_enc src_ck tgt_ck ndebug] in *. tauto.
Qed.

Lemma serializer_says : forall dflt vck ock f opts, let '(cf, h) := serializer_of dflt vck ock f opts in
  decided d_source (dflt vck) opts (val_enc cf) /\ decided d_target (dflt ock) opts (out_enc cf) /\ decided d_handler HNone opts h /\
  decided d_indent (0 <? f_width f, Z.to_N (f_width f mod 256), f_fill f)%Z opts (s_pretty cf, s_step cf, s_ichar cf) /\
  decided d_escape false opts (s_esc cf) /\
  (exists ff, decided d_float (f_prec f, f_ff f) opts (s_prec cf, ff) /\ s_ff cf = match ff with FHex => FGeneral | _ => ff end) /\
  val_ck cf = vck /\ out_ck cf = ock.
Proof.
  intros dflt vck ock f opts. unfold serializer_of. set (s0 := (mkSc _ _ _ _ _ _ _ _ _ _, HNone)).
  pose proof (fold_decided apply_dopt d_source (fun s => val_enc (fst s)) ltac:(intros [c h] [|[]]; reflexivity) opts s0) as A.
  pose proof (fold_decided apply_dopt d_target (fun s => out_enc (fst s)) ltac:(intros [c h] [|[]]; reflexivity) opts s0) as B.
  pose proof (fold_decided apply_dopt d_handler (fun s => snd s) ltac:(intros [c h] [|[]]; reflexivity) opts s0) as C.
  pose proof (fold_decided apply_dopt d_indent (fun s => (s_pretty (fst s), s_step (fst s), s_ichar (fst s)))
    ltac:(intros [c h] [|[[]| | | | |]]; reflexivity) opts s0) as D.
  pose proof (fold_decided apply_dopt d_escape (fun s => s_esc (fst s)) ltac:(intros [c h] [|[]]; reflexivity) opts s0) as E.
  pose proof (fold_decided apply_dopt d_float (fun s => (s_prec (fst s), s_ff (fst s))) ltac:(intros [c h] [|[]]; reflexivity) opts s0) as F.
  assert (K : forall s, val_ck (fst (fold_left apply_dopt opts s)) = val_ck (fst s) /\ out_ck (fst (fold_left apply_dopt opts s)) = out_ck (fst s)).
  { clear. induction opts as [|o opts IH]; intro s; [auto|]. cbn [fold_left]. destruct (IH (apply_dopt s o)) as (-> & ->).
    destruct s as [c h], o as [|[]]; auto. }
  specialize (K s0). destruct (fold_left apply_dopt opts s0) as [cf h].
  cbn [fst snd s0 val_enc out_enc s_pretty s_step s_ichar s_esc s_prec s_ff val_ck out_ck] in *. unfold prepare. cbn [fold_left].
  destruct K as [K1 K2].
  assert (G : exists ff, decided d_float (f_prec f, f_ff f) opts (s_prec cf, ff) /\ s_ff cf = ff) by (exists (s_ff cf); auto).
  destruct G as (ff & G1 & G2). rewrite G2. rewrite G2 in F.
  destruct ff; cbn [val_enc out_enc s_pretty s_step s_ichar s_esc s_prec s_ff val_ck out_ck]; repeat (split; [assumption|]); eauto 10.
Qed.

(** without an error handler and with the default encodings: the
    configuration of Serializer.v *)
Lemma serializer_auto : forall vck ock f opts, serializer_of auto_enc vck ock f (map DOpt opts) = (ser_cfg vck ock f opts, HNone).
Proof.
  intros vck ock f opts. unfold serializer_of, ser_cfg, prepare. set (c0 := mkSc _ _ _ _ _ _ _ _ _ _). clearbody c0. cbn [fold_left].
  assert (X : fold_left apply_dopt (map DOpt opts) (c0, HNone) = (fold_left apply_opt opts c0, HNone)).
  { revert c0. induction opts as [|o opts IH]; intro c0; [reflexivity|]. cbn [map fold_left apply_dopt]. apply IH. }
  rewrite X. reflexivity.
Qed.

(** options that agree are read back *)
Lemma agree_reads : forall dflt sck vck nd popts dopts f e1 e2,
  decided p_source (dflt sck) popts e1 -> decided d_target (dflt sck) dopts e1 ->
  decided p_target (dflt vck) popts e2 -> decided d_source (dflt vck) dopts e2 ->
  reads (fst (parser_of dflt sck vck nd popts)) (fst (serializer_of dflt vck sck f dopts)).
Proof.
  intros dflt sck vck nd popts dopts f e1 e2 P1 D1 P2 D2.
  pose proof (parser_says dflt sck vck nd popts) as P. pose proof (serializer_says dflt vck sck f dopts) as D.
  destruct (parser_of dflt sck vck nd popts) as [pc h]. destruct (serializer_of dflt vck sck f dopts) as [cf h']. cbn [fst].
  destruct P as (A1 & A2 & _ & A4 & A5 & _). destruct D as (B1 & B2 & _ & _ & _ & _ & B7 & B8). unfold reads.
  rewrite A4, A5, B7, B8. rewrite (decided_det _ _ _ _ A1 _ P1), (decided_det _ _ _ _ A2 _ P2), (decided_det _ _ _ _ B1 _ D2), (decided_det _ _ _ _ B2 _ D1).
  auto.
Qed.

Lemma dump_any : forall cf h v w, dump_string cf v = Ret w -> dump_to cf h (mkOs [] false) v = (w, (Ret tt, ""%string)).
Proof.
  intros cf h v w D. unfold dump_string, dump_to in *. 
  match goal with |- context [let '(_, _) := ?e in _] => destruct e as [s' [[]| | | |]] end; cbn [handle bind] in *; try discriminate; try (injection D as <-; reflexivity).
Qed.

Lemma parse_any : forall cf h c s v, parse_string cf s = Ret v -> parse_into cf h c s = (v, (Ret tt, ""%string)).
Proof.
  intros cf h c s v P. unfold parse_string in P.
  assert (E : parse_into cf HNone VNull s = (v, (Ret tt, ""%string))).
  { unfold parse_into, parse_ibuf in *. destruct (read_next cf (init_pst (IStr s))) as [st| | | |]; try discriminate.
    destruct (parse_body cf (fuel_for s) VNull st) as [w [[]| | | |]]; cbn [handle bind] in P; try discriminate. injection P as ->. reflexivity. }
  apply (any_start cf VNull c) in E. unfold parse_into, parse_ibuf in *. destruct (read_next cf (init_pst (IStr s))) as [st| | | |]; try discriminate.
  destruct (parse_body cf (fuel_for s) c st) as [w [[]| | | |]]; cbn [handle] in *; try discriminate; congruence.
Qed.

Lemma options_round : forall dflt sck vck nd popts dopts e1 e2 c v,
  decided p_source (dflt sck) popts e1 -> decided d_target (dflt sck) dopts e1 ->
  decided p_target (dflt vck) popts e2 -> decided d_source (dflt vck) dopts e2 ->
  enc_ok e1 sck = true -> enc_ok e2 vck = true ->
  let cf := fst (serializer_of dflt vck sck fmt_default dopts) in
  (e1 = Ignore -> s_esc cf = true) -> wide_out cf -> blank_indent cf -> ok_value plain cf v ->
  exists w, dump_opts dflt vck sck dopts v = (w, (Ret tt, ""%string)) /\ parse_opts dflt sck vck nd popts c w = (v, (Ret tt, ""%string)).
Proof.
  intros dflt sck vck nd popts dopts e1 e2 c v P1 D1 P2 D2 O1 O2 cf Ig W B O.
  pose proof (agree_reads dflt sck vck nd popts dopts fmt_default e1 e2 P1 D1 P2 D2) as R. fold cf in R.
  pose proof (serializer_says dflt vck sck fmt_default dopts) as D. unfold dump_opts, parse_opts.
  destruct (parser_of dflt sck vck nd popts) as [pc h]. subst cf.
  destruct (serializer_of dflt vck sck fmt_default dopts) as [cf h']. cbn [fst] in *.
  destruct D as (B1 & B2 & _ & _ & _ & _ & B7 & B8).
  pose proof (decided_det _ _ _ _ B1 _ D2) as E2. pose proof (decided_det _ _ _ _ B2 _ D1) as E1.
  destruct (round_trip_all pc cf v R) as (w & Dw & Pw); try assumption; try (rewrite ?E1, ?E2, ?B7, ?B8; assumption).
  exists w. split; [apply dump_any; assumption|apply parse_any; assumption].
Qed.

Lemma parse_decided : forall dflt sck vck nd opts e1 e2 h c s,
  decided p_source (dflt sck) opts e1 -> decided p_target (dflt vck) opts e2 -> decided p_handler HNone opts h ->
  parse_opts dflt sck vck nd opts c s = parse_into (mkCfg sck e1 vck e2 nd) h c s.
Proof.
  intros dflt sck vck nd opts e1 e2 h c s D1 D2 D3. unfold parse_opts. pose proof (parser_says dflt sck vck nd opts) as P.
  destruct (parser_of dflt sck vck nd opts) as [cf h']. destruct P as (A & B & C & <- & <- & <-).
  rewrite <- (decided_det _ _ _ _ A _ D1), <- (decided_det _ _ _ _ B _ D2), (decided_det _ _ _ _ C _ D3). destruct cf. reflexivity.
Qed.

Lemma dump_decided : forall dflt vck ock opts e1 e2 h p st ch esc prec ff v,
  decided d_source (dflt vck) opts e1 -> decided d_target (dflt ock) opts e2 -> decided d_handler HNone opts h ->
  decided d_indent (false, 0, 32) opts (p, st, ch) -> decided d_escape false opts esc -> decided d_float (6%Z, FGeneral) opts (prec, ff) ->
  dump_opts dflt vck ock opts v =
  dump_to (mkSc vck e1 ock e2 p st ch esc prec match ff with FHex => FGeneral | _ => ff end) h (mkOs [] false) v.
Proof.
  intros dflt vck ock opts e1 e2 h p st ch esc prec ff v D1 D2 D3 D4 D5 D6. unfold dump_opts.
  pose proof (serializer_says dflt vck ock fmt_default opts) as P. destruct (serializer_of dflt vck ock fmt_default opts) as [cf h'].
  destruct P as (A & B & C & D & E & (ff' & F & G) & <- & <-). change (decided d_indent (false, 0, 32) opts (s_pretty cf, s_step cf, s_ichar cf)) in D.
  rewrite <- (decided_det _ _ _ _ A _ D1), <- (decided_det _ _ _ _ B _ D2), (decided_det _ _ _ _ C _ D3), <- (decided_det _ _ _ _ E _ D5).
  pose proof (decided_det _ _ _ _ D _ D4) as Q. injection Q as <- <- <-. pose proof (decided_det _ _ _ _ F _ D6) as Q. injection Q as <- <-.
  rewrite <- G. destruct cf. reflexivity.
Qed.

(** every setting is decided *)
Lemma decided_some : forall {O A} (says : O -> option A) d opts, exists x, decided says d opts x.
Proof.
  intros O A says d opts.
  exists (fold_left (fun s o => match says o with Some x => x | None => s end) opts d).
  apply (fold_decided (fun s o => match says o with Some x => x | None => s end) says (fun s => s)). reflexivity.
Qed.

(** the error handler decides about the outcome only *)
Lemma handler_value : forall dflt sck vck nd opts opts' e1 e2 c s,
  decided p_source (dflt sck) opts e1 -> decided p_target (dflt vck) opts e2 ->
  decided p_source (dflt sck) opts' e1 -> decided p_target (dflt vck) opts' e2 ->
  fst (parse_opts dflt sck vck nd opts c s) = fst (parse_opts dflt sck vck nd opts' c s).
Proof.
  intros dflt sck vck nd opts opts' e1 e2 c s A B A' B'. destruct (decided_some p_handler HNone opts) as [h H].
  destruct (decided_some p_handler HNone opts') as [h' H']. rewrite (parse_decided _ _ _ _ _ _ _ _ _ _ A B H), (parse_decided _ _ _ _ _ _ _ _ _ _ A' B' H').
  unfold parse_into, parse_ibuf. destruct (read_next _ _); try reflexivity. destruct (parse_body _ _ _ _). reflexivity.
Qed.

Lemma handler_written : forall dflt vck ock opts opts' v, let same {A} (says : dopt -> option A) d := forall x, decided says d opts x <-> decided says d opts' x in
  same d_source (dflt vck) -> same d_target (dflt ock) -> same d_indent (false, 0, 32) -> same d_escape false -> same d_float (6%Z, FGeneral) ->
  fst (dump_opts dflt vck ock opts v) = fst (dump_opts dflt vck ock opts' v).
Proof.
  intros dflt vck ock opts opts' v same S1 S2 S3 S4 S5.
  destruct (decided_some d_source (dflt vck) opts) as [e1 D1]. destruct (decided_some d_target (dflt ock) opts) as [e2 D2].
  destruct (decided_some d_indent (false, 0, 32) opts) as [[[p st] ch] D3]. destruct (decided_some d_escape false opts) as [esc D4].
  destruct (decided_some d_float (6%Z, FGeneral) opts) as [[pr ff] D5].
  destruct (decided_some d_handler HNone opts) as [h H]. destruct (decided_some d_handler HNone opts') as [h' H'].
  rewrite (dump_decided _ _ _ _ _ _ _ _ _ _ _ _ _ v D1 D2 H D3 D4 D5).
  apply S1 in D1. apply S2 in D2. apply S3 in D3. apply S4 in D4. apply S5 in D5.
  rewrite (dump_decided _ _ _ _ _ _ _ _ _ _ _ _ _ v D1 D2 H' D3 D4 D5). unfold dump_to.
  match goal with |- context [let '(_, _) := ?e in _] => destruct e as [s r] end. reflexivity.
Qed.
