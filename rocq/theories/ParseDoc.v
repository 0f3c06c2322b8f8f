(** The document of a text: it exists, there is only one, and for an accepted
    text the grammar has it. *)
From Coq Require Import Lia.
From Verif Require Import Base Stream Encoding Value Token Message ValueOps ObjFacts Parser Feeds SpecUnicode SpecGrammar SpecParseHeap SpecContainer Container ContainerProofs SpecParseDoc ParseHeapProofs.
Open Scope nat_scope.

Scheme means_ind3 := Minimality for means Sort Prop
with means_all_ind3 := Minimality for means_all Sort Prop
with means_members_ind3 := Minimality for means_members Sort Prop.

Lemma means_well : forall d v, means d v -> well d.
Proof.
  apply (means_ind3 (fun d v => well d) (fun ds vs => wells ds) (fun ms vs => wellm ms)); intros; rewrite ?well_arr, ?well_obj; cbn; auto.
Qed.

Lemma fold_all : forall (vs m : mlist), fold_left (fun m p => put_all (fst p) (snd p) m) vs m = m ++ vs.
Proof.
  induction vs as [|[k v] vs IH]; intro m; cbn [fold_left fst snd]; [rewrite app_nil_r; reflexivity|].
  rewrite IH. unfold put_all. rewrite <- app_assoc. reflexivity.
Qed.
Lemma unbuild : forall d, well d -> doc_of (build put_all d) = d.
Proof.
  intro d. induction d as [v|s|ds IH|ms IH] using doc_rect2; intro W.
  - destruct v; try destruct W; reflexivity.
  - reflexivity.
  - rewrite well_arr in W. cbn [build doc_of]. f_equal. induction IH as [|d ds H IH IHl]; [reflexivity|]. destruct W. cbn [map]. f_equal; auto.
  - rewrite well_obj in W. cbn [build]. rewrite fold_all. cbn [app doc_of]. f_equal.
    induction IH as [|[k d] ms H IH IHl]; [reflexivity|]. destruct W. cbn [map fst snd] in *. f_equal; [|auto]. rewrite H by assumption. reflexivity.
Qed.

Lemma wells_app : forall a b, wells a -> wells b -> wells (a ++ b).
Proof. induction a as [|d a IH]; cbn; intros b A B; [exact B|]. destruct A. auto. Qed.
Lemma wellm_app : forall a b, wellm a -> wellm b -> wellm (a ++ b).
Proof. induction a as [|d a IH]; cbn; intros b A B; [exact B|]. destruct A. auto. Qed.

Lemma g_doc_well : forall cf n,
  (forall tok st, exists d r, well d /\ forall put, g_parse put cf n VNull tok st = (build put d, r)) /\
  (forall ds st, wells ds -> exists ds' r, wells ds' /\ forall put, g_arr put cf n (map (build put) ds) st = (map (build put) ds', r)) /\
  (forall ms st, wellm ms -> exists ms' r, wellm ms' /\ forall put, g_obj put cf n (fill put ms) st = (fill put ms', r)).
Proof.
  intros cf n. induction n as [|n (IHp & IHa & IHo)].
  { split; [|split]; intros; [exists (DVal VNull)|exists ds|exists ms]; exists OutOfFuel; (split; [auto; exact Logic.I|reflexivity]). }
  split; [|split].
  - intros tok st. cbn [g_parse].
    destruct (match tok with None => scan cf (S n) st | Some t => Ret (t, st) end) as [[t st1]| | | |];
      try (exists (DVal VNull); eexists; split; [exact Logic.I|reflexivity]).
    destruct t; try (exists (DVal VNull); eexists; split; [exact Logic.I|reflexivity]);
      try (exists (DVal (VBool true)); eexists; split; [exact Logic.I|reflexivity]);
      try (exists (DVal (VBool false)); eexists; split; [exact Logic.I|reflexivity]).
    + destruct (get_string cf (S n) st1) as [s r]. exists (DStr s), r. split; [exact Logic.I|reflexivity].
    + destruct (get_integer st1) as [z| | | |]; try (exists (DVal (VInt 0)); eexists; split; [exact Logic.I|reflexivity]).
      exists (DVal (VInt z)); eexists; split; [exact Logic.I|reflexivity].
    + exists (DVal (VFloat (get_float st1))); eexists; split; [exact Logic.I|reflexivity].
    + destruct (IHa [] st1 Logic.I) as (ds & r & W & E). exists (DArr ds). eexists. split; [rewrite well_arr; exact W|]. intro put. cbn [map] in E. rewrite E. reflexivity.
    + destruct (IHo [] st1 Logic.I) as (ms & r & W & E). exists (DObj ms). eexists. split; [rewrite well_obj; exact W|]. intro put. pose proof (E put) as X. unfold fill at 1 in X.
      cbn [map fold_left] in X. rewrite X. reflexivity.
  - intros ds st W. cbn [g_arr]. destruct (scan cf (S n) st) as [[t st1]| | | |]; try (exists ds; eexists; split; [exact W|reflexivity]).
    destruct (starts_value t); [|exists ds; eexists; split; [exact W|reflexivity]].
    destruct (IHp (Some t) st1) as (d & r & Wd & E).
    assert (M : forall put, map (build put) ds ++ [build put d] = map (build put) (ds ++ [d])) by (intro; rewrite map_app; reflexivity).
    assert (W1 : wells (ds ++ [d])) by (apply wells_app; [exact W|split; [exact Wd|exact Logic.I]]).
    destruct r as [st2| | | |]; try (exists (ds ++ [d]); eexists; split; [exact W1|]; intro put; rewrite E, M; reflexivity).
    destruct (scan cf (S n) st2) as [[t2 st3]| | | |] eqn:Sc;
      try (exists (ds ++ [d]); eexists; split; [exact W1|]; intro put; rewrite E, Sc, M; reflexivity).
    destruct t2; try (exists (ds ++ [d]); eexists; split; [exact W1|]; intro put; rewrite E, Sc, M; reflexivity).
    destruct (IHa (ds ++ [d]) st3 W1) as (ds' & r & W2 & E2). exists ds', r. split; [exact W2|]. intro put. rewrite E, Sc, M. apply E2.
  - intros ms st W. cbn [g_obj]. destruct (scan cf (S n) st) as [[t st1]| | | |]; try (exists ms; eexists; split; [exact W|reflexivity]).
    destruct t; try (exists ms; eexists; split; [exact W|reflexivity]).
    destruct (get_string cf (S n) st1) as [k [st2| | | |]]; try (exists ms; eexists; split; [exact W|reflexivity]).
    destruct (scan cf (S n) st2) as [[t2 st3]| | | |]; try (exists ms; eexists; split; [exact W|reflexivity]).
    destruct t2; try (exists ms; eexists; split; [exact W|reflexivity]).
    destruct (IHp None st3) as (d & r & Wd & E).
    assert (W1 : wellm (ms ++ [(k, d)])) by (apply wellm_app; [exact W|split; [exact Wd|exact Logic.I]]).
    destruct r as [st4| | | |]; try (exists ms; eexists; split; [exact W|]; intro put; rewrite E; reflexivity).
    destruct (scan cf (S n) st4) as [[t3 st5]| | | |] eqn:Sc;
      try (exists (ms ++ [(k, d)]); eexists; split; [exact W1|]; intro put; rewrite E, Sc, fill_snoc; reflexivity).
    destruct t3; try (exists (ms ++ [(k, d)]); eexists; split; [exact W1|]; intro put; rewrite E, Sc, fill_snoc; reflexivity).
    destruct (IHo (ms ++ [(k, d)]) st5 W1) as (ms' & r & W2 & E2). exists ms', r. split; [exact W2|]. intro put. rewrite E, Sc, <- fill_snoc. apply E2.
Qed.

Lemma rdoc_build : forall cf n tok st, well (rdoc cf n tok st) /\ forall put, fst (g_parse put cf n VNull tok st) = build put (rdoc cf n tok st).
Proof.
  intros cf n tok st. destruct (proj1 (g_doc_well cf n) tok st) as (d & r & W & E). unfold rdoc. rewrite E. cbn [fst]. rewrite (unbuild d W).
  split; [exact W|]. intro put. rewrite E. reflexivity.
Qed.

(** the old value is overwritten, or nothing was read *)
Lemma over : forall cf n c tok st, do_parse cf n c tok st = do_parse cf n VNull tok st \/
  (fst (do_parse cf n c tok st) = c /\ ~ exists x, snd (do_parse cf n c tok st) = Ret x).
Proof.
  intros cf n c tok st. destruct n as [|n]; [right; split; [reflexivity|intros [x X]; discriminate X]|]. cbn [do_parse].
  destruct (match tok with None => scan cf (S n) st | Some t => Ret (t, st) end) as [[t st1]| | | |];
    try (right; split; [reflexivity|intros [x X]; discriminate X]).
  destruct t; try (left; reflexivity); try (right; split; [reflexivity|intros [x X]; discriminate X]).
Qed.
Lemma rdoc_null : forall cf n tok st, means (rdoc cf n tok st) (fst (do_parse cf n VNull tok st)).
Proof.
  intros. destruct (rdoc_build cf n tok st) as [W E]. rewrite <- (proj1 (g_emplace cf n)), E. apply build_means. exact W.
Qed.
Lemma rdoc_over : forall cf n c tok st, fst (do_parse cf n c tok st) = c \/ means (rdoc cf n tok st) (fst (do_parse cf n c tok st)).
Proof. intros. destruct (over cf n c tok st) as [E|[E _]]; [rewrite E; right; apply rdoc_null|left; exact E]. Qed.
Lemma rdoc_ret : forall cf n c tok st v st', do_parse cf n c tok st = (v, Ret st') -> means (rdoc cf n tok st) v.
Proof.
  intros cf n c tok st v st' E. destruct (over cf n c tok st) as [O|[_ N]]; [|destruct N; rewrite E; eexists; reflexivity].
  pose proof (rdoc_null cf n tok st) as X. rewrite <- O, E in X. exact X.
Qed.

(** ** The whole text *)
Definition wdoc (cf : pcfg) (w : str) : doc := doc_of (fst (parse_with put_all cf HNone (fuel_for w) VNull (Stream.IStr w))).

Lemma wdoc_fuel : forall cf w st, read_next cf (init_pst (Stream.IStr w)) = Ret st -> wdoc cf w = rdoc cf (fuel_for w) None st.
Proof.
  intros cf w st E. unfold wdoc, parse_with, g_body, rdoc. rewrite E. destruct (g_parse put_all cf (fuel_for w) VNull None st). reflexivity.
Qed.

Lemma wdoc_build : forall cf w, well (wdoc cf w) /\ forall put, fst (parse_with put cf HNone (fuel_for w) VNull (Stream.IStr w)) = build put (wdoc cf w).
Proof.
  intros cf w. destruct (read_next cf (init_pst (Stream.IStr w))) as [st| | | |] eqn:E.
  2-5: (split; [unfold wdoc, parse_with; rewrite E; exact Logic.I|intro put; unfold wdoc, parse_with; rewrite E; reflexivity]).
  rewrite (wdoc_fuel _ _ _ E). destruct (rdoc_build cf (fuel_for w) None st) as [W B]. split; [exact W|]. intro put. rewrite <- B.
  unfold parse_with, g_body. rewrite E. destruct (g_parse put cf (fuel_for w) VNull None st). reflexivity.
Qed.

Lemma read_wdoc : forall cf w d, read_as cf w d -> wdoc cf w = d.
Proof. intros cf w d [[v M] B]. unfold wdoc. rewrite B. apply unbuild. eapply means_well. exact M. Qed.
Lemma wdoc_read : forall cf w, read_as cf w (wdoc cf w).
Proof. intros cf w. destruct (wdoc_build cf w) as [W B]. split; [|exact B]. eexists. apply build_means. exact W. Qed.
Lemma read_some : forall cf w, exists d, read_as cf w d.
Proof. intros. eexists. apply wdoc_read. Qed.
Lemma read_one : forall cf w, exists d, read_as cf w d /\ forall d', read_as cf w d' -> d' = d.
Proof. intros cf w. exists (wdoc cf w). split; [apply wdoc_read|]. intros d' H. symmetry. apply read_wdoc. exact H. Qed.

(** what parse_into leaves *)
Lemma read_into : forall cf w d h y, read_as cf w d -> fst (parse_into cf h y w) = y \/ means d (fst (parse_into cf h y w)).
Proof.
  intros cf w d h y Hd. rewrite <- (read_wdoc _ _ _ Hd). unfold parse_into, parse_ibuf.
  destruct (read_next cf (init_pst (Stream.IStr w))) as [st| | | |] eqn:E; try (left; reflexivity).
  rewrite (wdoc_fuel _ _ _ E). unfold parse_body. pose proof (rdoc_over cf (fuel_for w) y None st) as X. destruct (do_parse cf (fuel_for w) y None st). exact X.
Qed.
Lemma read_string : forall cf w d v, read_as cf w d -> parse_string cf w = Ret v -> means d v.
Proof.
  intros cf w d v Hd P. rewrite <- (read_wdoc _ _ _ Hd). unfold parse_string, parse_into, parse_ibuf in P.
  destruct (read_next cf (init_pst (Stream.IStr w))) as [st| | | |] eqn:E; try discriminate P.
  rewrite (wdoc_fuel _ _ _ E). unfold parse_body in P. pose proof (rdoc_ret cf (fuel_for w) VNull None st) as X.
  destruct (do_parse cf (fuel_for w) VNull None st) as [v1 [st1| | | |]]; cbn [bind handle] in P; try discriminate P.
  destruct (let* r := scan cf (fuel_for w) st1 in match fst r with Teoi => Ret tt | _ => Parser.fail (token_msg "unexpected token" Teoi) end); cbn [bind handle] in P; try discriminate P.
  injection P as <-. eapply X. reflexivity.
Qed.

(** an accepted text *)
Lemma read_text : forall cf w l t d rest, enc_ok (tgt_enc cf) (tgt_ck cf) = true ->
  feeds (src_enc cf) (src_ck cf) (is_open (Stream.IStr w)) l t ->
  wrote cf l d rest -> t = TEof \/ rest <> [] -> read_as cf w d.
Proof.
  intros cf w l t d rest Hok F W Hr.
  assert (We : well d) by (inversion W; subst; eapply writes_well; eassumption).
  split; [eexists; apply build_means; exact We|]. intro put.
  pose proof (proj2 (accepts put cf w l t (build put d) Hok F) (ex_intro _ d (ex_intro _ rest (conj W (conj Hr eq_refl))))) as P.
  unfold parse_string_with in P. destruct (parse_with put cf HNone (fuel_for w) VNull (Stream.IStr w)) as [v [r m]]. destruct r; try discriminate P. injection P as <-. reflexivity.
Qed.
