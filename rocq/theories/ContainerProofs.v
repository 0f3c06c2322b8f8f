(** Parsing into an arbitrary container: what is parsed does not depend on it,
    and is the document of the text. *)
From Coq Require Import Lia ZifyBool ZifyNat ZifyN.
From Verif Require Import Base Stream Encoding Value ValueOps Token Message Parser EncodingProofs Feeds ListMachine Simulation SimParse
  SpecUnicode SpecGrammar GrammarLex GrammarTok ObjFacts GrammarProofs GrammarFacts SpecParseHeap SpecContainer Container.
Open Scope N_scope.

(** ** std::map *)
Lemma g_emplace : forall cf n,
  (forall c tok st, g_parse obj_emplace cf n c tok st = do_parse cf n c tok st) /\
  (forall l st, g_arr obj_emplace cf n l st = arr_loop cf n l st) /\
  (forall m st, g_obj obj_emplace cf n m st = obj_loop cf n m st).
Proof.
  intros cf n. induction n as [|n (IHp & IHa & IHo)]; [repeat split|]. split; [|split].
  - intros c tok st. cbn [g_parse do_parse].
    destruct (match tok with None => scan cf (S n) st | Some t => Ret (t, st) end) as [[t st1]| | | |]; try reflexivity.
    destruct t; try reflexivity; rewrite ?IHa, ?IHo; reflexivity.
  - intros l st. cbn [g_arr arr_loop]. destruct (scan cf (S n) st) as [[t st1]| | | |]; try reflexivity.
    destruct (starts_value t); [|reflexivity]. rewrite IHp. destruct (do_parse cf n VNull (Some t) st1) as [v [st2| | | |]]; try reflexivity.
    destruct (scan cf (S n) st2) as [[t2 st3]| | | |]; try reflexivity. destruct t2; try reflexivity. apply IHa.
  - intros m st. cbn [g_obj obj_loop]. destruct (scan cf (S n) st) as [[t st1]| | | |]; try reflexivity.
    destruct t; try reflexivity. destruct (get_string cf (S n) st1) as [k [st2| | | |]]; try reflexivity.
    destruct (scan cf (S n) st2) as [[t2 st3]| | | |]; try reflexivity. destruct t2; try reflexivity. rewrite IHp.
    destruct (do_parse cf n VNull None st3) as [v [st4| | | |]]; try reflexivity.
    destruct (scan cf (S n) st4) as [[t3 st5]| | | |]; try reflexivity. destruct t3; try reflexivity. apply IHo.
Qed.

Lemma parse_with_emplace : forall cf h n c b, parse_with obj_emplace cf h n c b = parse_ibuf cf h n c b.
Proof.
  intros. unfold parse_with, parse_ibuf, g_body, parse_body. destruct (read_next cf (init_pst b)); try reflexivity.
  rewrite (proj1 (g_emplace cf n)). reflexivity.
Qed.
Lemma parse_string_with_emplace : forall cf s, parse_string_with obj_emplace cf s = parse_string cf s.
Proof. intros. unfold parse_string_with, parse_string, parse_into. rewrite parse_with_emplace. reflexivity. Qed.

(** ** One document for all containers *)
Definition fill put (ms : list (str * doc)) : list (str * value) :=
  fold_left (fun m p => put (fst p) (snd p) m) (map (fun p => (fst p, build put (snd p))) ms) [].
Lemma fill_snoc : forall put ms k d, fill put (ms ++ [(k, d)]) = put k (build put d) (fill put ms).
Proof. intros. unfold fill. rewrite map_app, fold_left_app. reflexivity. Qed.

Lemma g_doc : forall cf n,
  (forall c tok st, exists d r, forall put, g_parse put cf n c tok st = (build put d, r)) /\
  (forall ds st, exists ds' r, forall put, g_arr put cf n (map (build put) ds) st = (map (build put) ds', r)) /\
  (forall ms st, exists ms' r, forall put, g_obj put cf n (fill put ms) st = (fill put ms', r)).
Proof.
  intros cf n. induction n as [|n (IHp & IHa & IHo)].
  { split; [|split]; intros; [exists (DVal c)|exists ds|exists ms]; exists OutOfFuel; reflexivity. }
  split; [|split].
  - intros c tok st. cbn [g_parse].
    destruct (match tok with None => scan cf (S n) st | Some t => Ret (t, st) end) as [[t st1]| | | |];
      try (exists (DVal c); eexists; reflexivity).
    destruct t; try (exists (DVal c); eexists; reflexivity); try (eexists (DVal _), _; reflexivity).
    all: try (destruct (get_integer st1); eexists (DVal _), _; reflexivity).
    all: try (destruct (get_string cf (S n) st1) as [s r]; exists (DStr s), r; reflexivity).
    all: try (destruct (IHa [] st1) as (ds & r & E); exists (DArr ds); eexists; intro put; cbn [map] in E; rewrite E; reflexivity).
    destruct (IHo [] st1) as (ms & r & E). exists (DObj ms). eexists. intro put. pose proof (E put) as X. unfold fill at 1 in X.
    cbn [map fold_left] in X. rewrite X. reflexivity.
  - intros ds st. cbn [g_arr]. destruct (scan cf (S n) st) as [[t st1]| | | |]; try (exists ds; eexists; reflexivity).
    destruct (starts_value t); [|exists ds; eexists; reflexivity].
    destruct (IHp VNull (Some t) st1) as (d & r & E).
    assert (M : forall put, map (build put) ds ++ [build put d] = map (build put) (ds ++ [d])) by (intro; rewrite map_app; reflexivity).
    destruct r as [st2| | | |]; try (exists (ds ++ [d]); eexists; intro put; rewrite E, M; reflexivity).
    destruct (scan cf (S n) st2) as [[t2 st3]| | | |] eqn:Sc;
      try (exists (ds ++ [d]); eexists; intro put; rewrite E, Sc, M; reflexivity).
    destruct t2; try (exists (ds ++ [d]); eexists; intro put; rewrite E, Sc, M; reflexivity).
    destruct (IHa (ds ++ [d]) st3) as (ds' & r & E2). exists ds', r. intro put. rewrite E, Sc, M. apply E2.
  - intros ms st. cbn [g_obj]. destruct (scan cf (S n) st) as [[t st1]| | | |]; try (exists ms; eexists; reflexivity).
    destruct t; try (exists ms; eexists; reflexivity).
    destruct (get_string cf (S n) st1) as [k [st2| | | |]]; try (exists ms; eexists; reflexivity).
    destruct (scan cf (S n) st2) as [[t2 st3]| | | |]; try (exists ms; eexists; reflexivity).
    destruct t2; try (exists ms; eexists; reflexivity).
    destruct (IHp VNull None st3) as (d & r & E).
    destruct r as [st4| | | |]; try (exists ms; eexists; intro put; rewrite E; reflexivity).
    destruct (scan cf (S n) st4) as [[t3 st5]| | | |] eqn:Sc;
      try (exists (ms ++ [(k, d)]); eexists; intro put; rewrite E, Sc, fill_snoc; reflexivity).
    destruct t3; try (exists (ms ++ [(k, d)]); eexists; intro put; rewrite E, Sc, fill_snoc; reflexivity).
    destruct (IHo (ms ++ [(k, d)]) st5) as (ms' & r & E2). exists ms', r. intro put. rewrite E, Sc, <- fill_snoc. apply E2.
Qed.

Lemma with_doc : forall cf h n c b, exists d o, forall put, parse_with put cf h n c b = (build put d, o).
Proof.
  intros cf h n c b. unfold parse_with. destruct (read_next cf (init_pst b)) as [st| | | |]; try (exists (DVal c); eexists; reflexivity).
  destruct (proj1 (g_doc cf n) c None st) as (d & r & E). exists d. eexists. intro put. unfold g_body. rewrite E. reflexivity.
Qed.

(** ** It is the document of the text *)
Scheme writes_mut := Minimality for writes Sort Prop
  with writes_elems_mut := Minimality for writes_elems Sort Prop
  with writes_members_mut := Minimality for writes_members Sort Prop.

Section Complete.
Variables (cf : pcfg) (t : term).
Hypothesis Hok : enc_ok (tgt_enc cf) (tgt_ck cf) = true.

Lemma scan_at : forall l l1 k l' st m, at_ cf st l t -> (length l < m)%nat -> blank l l1 -> tok_at cf l1 k l' -> ok t l' ->
  exists tk st1, scan cf m st = Ret (tk, st1) /\ tok_on cf t (tk, st1) (k, l').
Proof.
  intros l l1 k l' st m A L B T O. pose proof (scan_sim cf t l st m A L) as S. rewrite (scan_c cf t l l1 k l' B T O) in S.
  destruct (scan cf m st) as [[tk st1]| | | |]; cbn [sim] in S; try contradiction. eauto.
Qed.
Lemma scan_at_tok : forall l l1 k l' st m, at_ cf st l t -> (length l < m)%nat -> blank l l1 -> tok_at cf l1 (AT k) l' -> ok t l' ->
  exists st1, scan cf m st = Ret (k, st1) /\ at_ cf st1 l' t.
Proof.
  intros l l1 k l' st m A L B T O. destruct (scan_at l l1 (AT k) l' st m A L B T O) as (tk & st1 & S & X & Y & _).
  cbn [fst snd] in *. subst tk. eauto.
Qed.
Lemma get_string_at : forall l s l' st n, at_ cf st l t -> (length l <= n)%nat -> n <> 0%nat ->
  strlit (tgt_enc cf) (tgt_ck cf) l s l' -> ok t l' -> exists st', get_string cf n st = (s, Ret st') /\ at_ cf st' l' t.
Proof.
  intros l s l' st n A L N S O. destruct (get_string_sim cf t n l st A L N) as [E X].
  assert (G : a_get_string cf t n l = (s, Ret l')).
  { destruct (strlit_start cf _ _ _ _ _ S) as (l2 & -> & _). apply get_string_iff; auto. }
  rewrite G in E, X. destruct (get_string cf n st) as [s' r]. cbn [fst snd] in *. subst s'.
  destruct r as [st'| | | |]; cbn [sim] in X; try contradiction. eauto.
Qed.

Definition w_val (l : list N) (d : doc) (l' : list N) : Prop := ok t l' ->
  (length l' < length l)%nat /\
  forall put n m st, (2 * length l <= n)%nat -> (length l < m)%nat -> at_ cf st l t ->
  exists tk st1 st', scan cf m st = Ret (tk, st1) /\ starts_value tk = true /\
    (forall c, g_parse put cf (S n) c (Some tk) st1 = (build put d, Ret st')) /\ at_ cf st' l' t.
Definition w_elems (l : list N) (ds : list doc) (l' : list N) : Prop := ok t l' ->
  (length l' < length l)%nat /\
  forall put n acc st, (2 * length l + 2 <= n)%nat -> at_ cf st l t ->
  exists st', g_arr put cf n (map (build put) acc) st = (map (build put) (acc ++ ds), Ret (Tend_arr, st')) /\ at_ cf st' l' t.
Definition w_members (l : list N) (ms : list (str * doc)) (l' : list N) : Prop := ok t l' ->
  (length l' < length l)%nat /\
  forall put n acc st, (2 * length l + 2 <= n)%nat -> at_ cf st l t ->
  exists st', g_obj put cf n (fill put acc) st = (fill put (acc ++ ms), Ret (Tend_obj, st')) /\ at_ cf st' l' t.

Lemma w_none : forall l d l', w_val l d l' -> ok t l' -> forall put n c st, (2 * length l + 1 <= n)%nat -> at_ cf st l t ->
  exists st', g_parse put cf n c None st = (build put d, Ret st') /\ at_ cf st' l' t.
Proof.
  intros l d l' W O put n c st L A. destruct (W O) as [_ X]. destruct n as [|n]; [lia|].
  destruct (X put n (S n) st ltac:(lia) ltac:(lia) A) as (tk & st1 & st' & Sc & _ & P & A'). exists st'. split; [|assumption].
  rewrite <- (P c). cbn [g_parse]. rewrite Sc. reflexivity.
Qed.

Lemma writes_run : forall l d l', writes cf l d l' -> w_val l d l'.
Proof.
  apply (writes_mut cf w_val w_elems w_members).
  - (* literal *)
    intros l l1 v l' B Li O. apply tok_of_literal in Li. destruct Li as (x & T & X).
    pose proof (scan_c _ _ _ _ _ _ B T O) as S'. apply a_scan_len in S'. split.
    + apply S'. destruct x; try contradiction; reflexivity.
    + intros put n m st Ln Lm A. destruct (scan_at_tok l l1 x l' st m A Lm B T O) as (st1 & Sc & A1).
      exists x, st1, st1. split; [assumption|]. destruct x; try contradiction; subst v; repeat split; assumption.
  - (* number *)
    intros l l1 v l' B Nu O. destruct (number_numv _ _ _ _ _ Nu) as (k & Ek & Nk).
    pose proof (scan_c _ _ _ _ _ _ B (ta_num cf _ _ _ _ Nu Ek) O) as S'. apply a_scan_len in S'. split.
    + apply S'. destruct k; try reflexivity. exfalso. eapply Nk. reflexivity.
    + intros put n m st Ln Lm A. destruct (scan_at l l1 k l' st m A Lm B (ta_num cf _ _ _ _ Nu Ek) O) as (tk & st1 & Sc & A1 & T).
      cbn [fst snd] in *. exists tk, st1, st1. split; [assumption|].
      destruct k as [k|z|f]; cbn [tokv] in Ek; [exfalso; eapply Nk; reflexivity|..]; inversion Ek; subst v; destruct T as [-> G];
        (split; [reflexivity|]); (split; [|assumption]); intro c; cbn [g_parse]; rewrite G; reflexivity.
  - (* string *)
    intros l l1 s l' B Sl O. destruct (strlit_start cf _ _ _ _ _ Sl) as (l2 & -> & Ll). pose proof (blank_len _ _ B) as Bl. split; [lia|].
    intros put n m st Ln Lm A. destruct (scan_at_tok _ _ _ _ st m A Lm B (ta_str cf l2) (ok_cons _ _ _)) as (st1 & Sc & A1).
    destruct (get_string_at _ s l' st1 (S n) A1 ltac:(lia) ltac:(lia) Sl O) as (st' & G & A').
    exists Tstring, st1, st'. split; [assumption|]. split; [reflexivity|]. split; [|assumption]. intro c. cbn [g_parse]. rewrite G. reflexivity.
  - (* array *)
    intros l l1 ds l' B El IH O. destruct (IH O) as [Ll IHa].
    assert (O1 : ok t l1) by (eapply ok_mono; [exact O|lia]).
    pose proof (blank_len _ _ B) as Bl. cbn [length] in Bl. split; [lia|].
    intros put n m st Ln Lm A. destruct (scan_at_tok _ _ _ _ st m A Lm B (ta_larr cf l1) O1) as (st1 & Sc & A1).
    destruct (IHa put n [] st1 ltac:(lia) A1) as (st' & G & A').
    exists Tbegin_arr, st1, st'. split; [assumption|]. split; [reflexivity|]. split; [|assumption]. intro c. cbn [g_parse].
    cbn [map app] in G. rewrite G. reflexivity.
  - (* object *)
    intros l l1 ms l' B Me IH O. destruct (IH O) as [Ll IHo].
    assert (O1 : ok t l1) by (eapply ok_mono; [exact O|lia]).
    pose proof (blank_len _ _ B) as Bl. cbn [length] in Bl. split; [lia|].
    intros put n m st Ln Lm A. destruct (scan_at_tok _ _ _ _ st m A Lm B (ta_lobj cf l1) O1) as (st1 & Sc & A1).
    destruct (IHo put n [] st1 ltac:(lia) A1) as (st' & G & A').
    exists Tbegin_obj, st1, st'. split; [assumption|]. split; [reflexivity|]. split; [|assumption]. intro c. cbn [g_parse].
    unfold fill at 1 in G. cbn [map app fold_left] in G. rewrite G. reflexivity.
  - (* ] *)
    intros l l' B O. pose proof (blank_len _ _ B) as Bl. cbn [length] in Bl. split; [lia|].
    intros put n acc st L A. destruct n as [|n]; [lia|].
    destruct (scan_at_tok _ _ _ _ st (S n) A ltac:(lia) B (ta_rarr cf l') O) as (st1 & Sc & A1).
    exists st1. split; [|assumption]. cbn [g_arr]. rewrite Sc. cbn [starts_value]. rewrite app_nil_r. reflexivity.
  - (* value ] *)
    intros l d l1 l' V IH B O. assert (O1 : ok t l1) by (eapply ok_blank; [exact B|apply ok_cons]).
    destruct (IH O1) as [Ll IHp]. pose proof (blank_len _ _ B) as Bl. cbn [length] in Bl. split; [lia|].
    intros put n acc st L A. destruct n as [|[|n]]; [lia|lia|].
    destruct (IHp put n (S (S n)) st ltac:(lia) ltac:(lia) A) as (tk & st1 & st2 & Sc & Sv & P & A2).
    destruct (scan_at_tok _ _ _ _ st2 (S (S n)) A2 ltac:(lia) B (ta_rarr cf l') O) as (st3 & Sc3 & A3).
    exists st3. split; [|assumption]. cbn [g_arr]. fold (g_arr put cf). rewrite Sc, Sv, P, Sc3, map_app. reflexivity.
  - (* value , ... *)
    intros l d l1 l2 ds l' V IH B El IH2 O. destruct (IH2 O) as [L2 IHa].
    assert (O2 : ok t l2) by (eapply ok_mono; [exact O|lia]).
    assert (O1 : ok t l1) by (eapply ok_blank; [exact B|apply ok_cons]).
    destruct (IH O1) as [Ll IHp]. pose proof (blank_len _ _ B) as Bl. cbn [length] in Bl. split; [lia|].
    intros put n acc st L A. destruct n as [|[|n]]; [lia|lia|].
    destruct (IHp put n (S (S n)) st ltac:(lia) ltac:(lia) A) as (tk & st1 & st2 & Sc & Sv & P & A2).
    destruct (scan_at_tok _ _ _ _ st2 (S (S n)) A2 ltac:(lia) B (ta_comma cf l2) O2) as (st3 & Sc3 & A3).
    destruct (IHa put (S n) (acc ++ [d]) st3 ltac:(lia) A3) as (st' & G & A').
    exists st'. split; [|assumption]. rewrite map_app in G. cbn [map] in G. rewrite <- app_assoc in G. cbn [app] in G. rewrite <- G.
    remember (S n) as n1. cbn [g_arr]. rewrite Sc, Sv, P, Sc3. reflexivity.
  - (* } *)
    intros l l' B O. pose proof (blank_len _ _ B) as Bl. cbn [length] in Bl. split; [lia|].
    intros put n acc st L A. destruct n as [|n]; [lia|].
    destruct (scan_at_tok _ _ _ _ st (S n) A ltac:(lia) B (ta_robj cf l') O) as (st1 & Sc & A1).
    exists st1. split; [|assumption]. cbn [g_obj]. rewrite Sc, app_nil_r. reflexivity.
  - (* key } *)
    intros l l1 k l2 l' B Sl B2 O. destruct (strlit_start cf _ _ _ _ _ Sl) as (l3 & -> & Ll).
    assert (O2 : ok t l2) by (eapply ok_blank; [exact B2|apply ok_cons]).
    pose proof (blank_len _ _ B) as Bl. pose proof (blank_len _ _ B2) as Bl2. cbn [length] in *. split; [lia|].
    intros put n acc st L A. destruct n as [|n]; [lia|].
    destruct (scan_at_tok _ _ _ _ st (S n) A ltac:(lia) B (ta_str cf l3) (ok_cons _ _ _)) as (st1 & Sc & A1).
    destruct (get_string_at _ k l2 st1 (S n) A1 ltac:(cbn [length]; lia) ltac:(lia) Sl O2) as (st2 & G & A2).
    destruct (scan_at_tok _ _ _ _ st2 (S n) A2 ltac:(lia) B2 (ta_robj cf l') O) as (st3 & Sc3 & A3).
    exists st3. split; [|assumption]. cbn [g_obj]. rewrite Sc, G, Sc3, app_nil_r. reflexivity.
  - (* key : value } *)
    intros l l1 k l2 l3 d l4 l' B Sl B2 V IH B3 O. destruct (strlit_start cf _ _ _ _ _ Sl) as (l5 & -> & Ll).
    assert (O4 : ok t l4) by (eapply ok_blank; [exact B3|apply ok_cons]). destruct (IH O4) as [Lv _].
    assert (O3 : ok t l3) by (eapply ok_mono; [exact O4|lia]).
    assert (O2 : ok t l2) by (eapply ok_blank; [exact B2|apply ok_cons]).
    pose proof (blank_len _ _ B) as Bl. pose proof (blank_len _ _ B2) as Bl2. pose proof (blank_len _ _ B3) as Bl3.
    cbn [length] in *. split; [lia|].
    intros put n acc st L A. destruct n as [|n]; [lia|].
    destruct (scan_at_tok _ _ _ _ st (S n) A ltac:(lia) B (ta_str cf l5) (ok_cons _ _ _)) as (st1 & Sc & A1).
    destruct (get_string_at _ k l2 st1 (S n) A1 ltac:(cbn [length]; lia) ltac:(lia) Sl O2) as (st2 & G & A2).
    destruct (scan_at_tok _ _ _ _ st2 (S n) A2 ltac:(lia) B2 (ta_colon cf l3) O3) as (st3 & Sc3 & A3).
    destruct (w_none _ _ _ IH O4 put n VNull st3 ltac:(lia) A3) as (st4 & P & A4).
    destruct (scan_at_tok _ _ _ _ st4 (S n) A4 ltac:(lia) B3 (ta_robj cf l') O) as (st5 & Sc5 & A5).
    exists st5. split; [|assumption]. cbn [g_obj]. rewrite Sc, G, Sc3, P, Sc5, fill_snoc. reflexivity.
  - (* key : value , ... *)
    intros l l1 k l2 l3 d l4 l6 ms l' B Sl B2 V IH B3 Me IH2 O. destruct (strlit_start cf _ _ _ _ _ Sl) as (l5 & -> & Ll).
    destruct (IH2 O) as [L6 IHo]. assert (O6 : ok t l6) by (eapply ok_mono; [exact O|lia]).
    assert (O4 : ok t l4) by (eapply ok_blank; [exact B3|apply ok_cons]). destruct (IH O4) as [Lv _].
    assert (O3 : ok t l3) by (eapply ok_mono; [exact O4|lia]).
    assert (O2 : ok t l2) by (eapply ok_blank; [exact B2|apply ok_cons]).
    pose proof (blank_len _ _ B) as Bl. pose proof (blank_len _ _ B2) as Bl2. pose proof (blank_len _ _ B3) as Bl3.
    cbn [length] in *. split; [lia|].
    intros put n acc st L A. destruct n as [|n]; [lia|].
    destruct (scan_at_tok _ _ _ _ st (S n) A ltac:(lia) B (ta_str cf l5) (ok_cons _ _ _)) as (st1 & Sc & A1).
    destruct (get_string_at _ k l2 st1 (S n) A1 ltac:(cbn [length]; lia) ltac:(lia) Sl O2) as (st2 & G & A2).
    destruct (scan_at_tok _ _ _ _ st2 (S n) A2 ltac:(lia) B2 (ta_colon cf l3) O3) as (st3 & Sc3 & A3).
    destruct (w_none _ _ _ IH O4 put n VNull st3 ltac:(lia) A3) as (st4 & P & A4).
    destruct (scan_at_tok _ _ _ _ st4 (S n) A4 ltac:(lia) B3 (ta_comma cf l6) O6) as (st5 & Sc5 & A5).
    destruct (IHo put n (acc ++ [(k, d)]) st5 ltac:(lia) A5) as (st' & G' & A').
    exists st'. split; [|assumption]. rewrite <- app_assoc in G'. cbn [app] in G'. rewrite <- G'.
    cbn [g_obj]. rewrite Sc, G, Sc3, P, Sc5, fill_snoc. reflexivity.
Qed.
End Complete.

Lemma run_wrote : forall cf l t d rest b n, enc_ok (tgt_enc cf) (tgt_ck cf) = true ->
  feeds (src_enc cf) (src_ck cf) (is_open b) l t -> (2 * length l + 1 <= n)%nat ->
  wrote cf l d rest -> (t = TEof \/ rest <> []) ->
  forall put h c, parse_with put cf h n c b = (build put d, (Ret tt, ""%string)).
Proof.
  intros cf l t d rest b n Hok F L W Hr put h c.
  assert (X : exists l1, writes cf l d l1 /\ blank l1 rest /\ tok_at cf rest (AT Teoi) rest /\ ok t rest).
  { inversion W; subst.
    - exists l1. repeat split; auto; [constructor|]. destruct Hr as [->|Hr]; [reflexivity|contradiction].
    - exists l1. repeat split; auto; [constructor]. }
  destruct X as (l1 & V & B & T & Or). assert (O1 : ok t l1) by (eapply ok_blank; eassumption).
  pose proof (writes_run cf t Hok l d l1 V) as R. destruct (R O1) as [Ll _].
  assert (Ok : at_bad t l = false) by (destruct l; [cbn in Ll; lia|reflexivity]).
  assert (At : at_ cf (init_pst b) (0 :: l) t) by (apply (at_cons cf (init_pst b) l t); [reflexivity|assumption]).
  pose proof (read_sim cf (init_pst b) (0 :: l) t At) as Rd. cbn [tl] in Rd. rewrite ok_guard in Rd by assumption.
  unfold parse_with. destruct (read_next cf (init_pst b)) as [st| | | |]; cbn in Rd; try contradiction. destruct Rd as [A _].
  unfold g_body. destruct (w_none cf t l d l1 R O1 put n c st L A) as (st' & E & A'). rewrite E. cbn [bind].
  destruct (scan_at_tok cf t _ _ _ _ st' n A' ltac:(lia) B T Or) as (st2 & Sc & _). rewrite Sc. reflexivity.
Qed.

(** ** Documents and values *)
Lemma means_all_map : forall ds vs, means_all ds vs -> forall d v, means d v -> means_all (d :: ds) (v :: vs).
Proof. intros. constructor; assumption. Qed.

Lemma literal_scalar : forall ck l v l', literal ck l v l' -> scalar v.
Proof. intros ck l v l' H. destruct H; exact Logic.I. Qed.
Lemma number_scalar : forall ck nd l v l', number ck nd l v l' -> scalar v.
Proof.
  intros ck nd l v l' H. destruct (number_numv _ _ _ _ _ H) as (k & E & Nk).
  destruct k; cbn in E; inversion E; subst; exact Logic.I.
Qed.

Lemma val_writes : forall cf l v l', val cf l v l' -> exists d, writes cf l d l' /\ means d v.
Proof.
  intro cf. apply (val_mut cf (fun l v l' => exists d, writes cf l d l' /\ means d v)
    (fun l vs l' => exists ds, writes_elems cf l ds l' /\ means_all ds vs)
    (fun l vs l' => exists ms, writes_members cf l ms l' /\ means_members ms vs)).
  - intros l l1 v l' B H. exists (DVal v). split; [eapply w_lit; eassumption|constructor; eapply literal_scalar; eassumption].
  - intros l l1 v l' B H. exists (DVal v). split; [eapply w_num; eassumption|constructor; eapply number_scalar; eassumption].
  - intros l l1 s l' B H. exists (DStr s). split; [eapply w_str; eassumption|constructor].
  - intros l l1 vs l' B _ (ds & W & M). exists (DArr ds). split; [eapply w_arr; eassumption|constructor; assumption].
  - intros l l1 ms m l' B _ (ds & W & M) O. exists (DObj ds). split; [eapply w_obj; eassumption|econstructor; eassumption].
  - intros l l' B. exists []. split; [constructor; assumption|constructor].
  - intros l v l1 l' _ (d & W & M) B. exists [d]. split; [eapply we_last; eassumption|repeat constructor; assumption].
  - intros l v l1 l2 vs l' _ (d & W & M) B _ (ds & Ws & Ms). exists (d :: ds). split; [eapply we_more; eassumption|constructor; assumption].
  - intros l l' B. exists []. split; [constructor; assumption|constructor].
  - intros l l1 k l2 l' B S B2. exists []. split; [eapply wm_key; eassumption|constructor].
  - intros l l1 k l2 l3 v l4 l' B S B2 _ (d & W & M) B3. exists [(k, d)]. split; [eapply wm_last; eassumption|repeat constructor; assumption].
  - intros l l1 k l2 l3 v l4 l5 ms l' B S B2 _ (d & W & M) B3 _ (ds & Ws & Ms). exists ((k, d) :: ds).
    split; [eapply wm_more; eassumption|constructor; assumption].
Qed.

Lemma writes_val : forall cf l d l', writes cf l d l' -> forall v, means d v -> val cf l v l'.
Proof.
  intro cf. apply (writes_mut cf (fun l d l' => forall v, means d v -> val cf l v l')
    (fun l ds l' => forall vs, means_all ds vs -> elems cf l vs l')
    (fun l ms l' => forall vs, means_members ms vs -> SpecGrammar.members cf l vs l')).
  - intros l l1 v l' B H w M. inversion M; subst. eapply v_lit; eassumption.
  - intros l l1 v l' B H w M. inversion M; subst. eapply v_num; eassumption.
  - intros l l1 s l' B H w M. inversion M; subst. eapply v_str; eassumption.
  - intros l l1 ds l' B _ IH w M. inversion M; subst. eapply v_arr; eauto.
  - intros l l1 ds l' B _ IH w M. inversion M; subst. eapply v_obj; eauto.
  - intros l l' B vs M. inversion M; subst. apply el_end; assumption.
  - intros l d l1 l' _ IH B vs M. inversion M as [|? ? ? ? Md Ml]; subst. inversion Ml; subst. eapply el_last; eauto.
  - intros l d l1 l2 ds l' _ IH B _ IH2 vs M. inversion M; subst. eapply el_more; eauto.
  - intros l l' B vs M. inversion M; subst. apply me_end; assumption.
  - intros l l1 k l2 l' B S B2 vs M. inversion M; subst. eapply me_key; eassumption.
  - intros l l1 k l2 l3 d l4 l' B S B2 _ IH B3 vs M. inversion M as [|? ? ? ? ? Md Ml]; subst. inversion Ml; subst. eapply me_last; eauto.
  - intros l l1 k l2 l3 d l4 l5 ms l' B S B2 _ IH B3 _ IH2 vs M. inversion M; subst. eapply me_more; eauto.
Qed.

Lemma document_wrote : forall cf l v rest, document cf l v rest <-> exists d, wrote cf l d rest /\ means d v.
Proof.
  intros cf l v rest. split.
  - intro D. inversion D; subst; match goal with V : val _ _ _ _ |- _ => destruct (val_writes _ _ _ _ V) as (d & W & M) end;
      exists d; (split; [|assumption]); [eapply wr_end|eapply wr_nul]; eassumption.
  - intros (d & W & M). inversion W; subst; [eapply doc_end|eapply doc_nul]; try eassumption; eapply writes_val; eassumption.
Qed.

(** every document of a text has scalars where it should *)
Fixpoint well (d : doc) : Prop :=
  match d with
  | DVal v => scalar v
  | DStr _ => True
  | DArr ds => (fix go ds := match ds with [] => True | d :: ds => well d /\ go ds end) ds
  | DObj ms => (fix go ms := match ms with [] => True | p :: ms => well (snd p) /\ go ms end) ms
  end.
Fixpoint wells (ds : list doc) : Prop := match ds with [] => True | d :: ds => well d /\ wells ds end.
Fixpoint wellm (ms : list (str * doc)) : Prop := match ms with [] => True | p :: ms => well (snd p) /\ wellm ms end.
Lemma well_arr : forall ds, well (DArr ds) = wells ds.
Proof. induction ds; cbn in *; congruence. Qed.
Lemma well_obj : forall ms, well (DObj ms) = wellm ms.
Proof. induction ms as [|[k d] ms IH]; cbn in *; congruence. Qed.

Lemma writes_well : forall cf l d l', writes cf l d l' -> well d.
Proof.
  intro cf. apply (writes_mut cf (fun l d l' => well d) (fun l ds l' => wells ds) (fun l ms l' => wellm ms)); intros;
    rewrite ?well_arr, ?well_obj; cbn; auto; [eapply literal_scalar|eapply number_scalar]; eassumption.
Qed.

Fixpoint doc_rect2 (P : doc -> Prop) (HV : forall v, P (DVal v)) (HS : forall s, P (DStr s))
  (HA : forall ds, Forall P ds -> P (DArr ds)) (HO : forall ms, Forall (fun p => P (snd p)) ms -> P (DObj ms)) (d : doc) : P d :=
  match d with
  | DVal v => HV v
  | DStr s => HS s
  | DArr ds => HA ds ((fix go ds : Forall P ds := match ds with [] => Forall_nil _ | d :: ds => Forall_cons _ (doc_rect2 P HV HS HA HO d) (go ds) end) ds)
  | DObj ms => HO ms ((fix go ms : Forall (fun p => P (snd p)) ms :=
      match ms with [] => Forall_nil _ | p :: ms => Forall_cons _ (doc_rect2 P HV HS HA HO (snd p)) (go ms) end) ms)
  end.

(** a std::map gives the value the document means *)
Lemma fold_emplace : forall vs m, fold_left (fun m p => obj_emplace (fst p) (snd p) m) vs m = emplace_all vs m.
Proof. induction vs as [|[k v] vs IH]; intro m; [reflexivity|]. cbn [fold_left emplace_all fst snd]. apply IH. Qed.

Lemma build_means : forall d, well d -> means d (build obj_emplace d).
Proof.
  intro d. induction d as [v|s|ds IH|ms IH] using doc_rect2; intro W.
  - constructor. exact W.
  - constructor.
  - rewrite well_arr in W. cbn [build]. constructor. induction IH as [|d ds H IH IHl]; [constructor|]. destruct W.
    constructor; auto.
  - rewrite well_obj in W. cbn [build]. econstructor; [|apply obj_of_iff, fold_emplace].
    induction IH as [|[k d] ds H IH IHl]; [constructor|]. destruct W. cbn [map fst snd]. constructor; auto.
Qed.

Lemma means_build : forall d v, means d v -> v = build obj_emplace d.
Proof.
  intro d. induction d as [v|s|ds IH|ms IH] using doc_rect2; intros w M; inversion M as [| |? vs Ma|? vs m Mm O]; subst; [reflexivity|reflexivity|..].
  - cbn [build]. f_equal. clear M. revert vs Ma. induction IH as [|d ds H IH IHl]; intros vs Ma; inversion Ma; subst; [reflexivity|].
    cbn [map]. f_equal; auto.
  - cbn [build]. rewrite fold_emplace. apply obj_of_iff in O. subst m. f_equal. f_equal. clear M. revert vs Mm.
    induction IH as [|[k d] ds H IH IHl]; intros vs Mm; inversion Mm; subst; [reflexivity|]. cbn [map fst snd] in *. f_equal; [|auto]. f_equal. auto.
Qed.

(** ** What is accepted, and what it gives *)
Lemma accepts : forall put cf s l t v, enc_ok (tgt_enc cf) (tgt_ck cf) = true ->
  feeds (src_enc cf) (src_ck cf) (sis s) l t ->
  (parse_string_with put cf s = Ret v <-> exists d rest, wrote cf l d rest /\ (t = TEof \/ rest <> []) /\ v = build put d).
Proof.
  intros put cf s l t v Hok F. split.
  - intro P. destruct (with_doc cf HNone (fuel_for s) VNull (IStr s)) as (d & o & E).
    assert (R : fst o = Ret tt).
    { unfold parse_string_with in P. rewrite E in P. destruct o as [r m]. apply bind_ret_iff in P. destruct P as ([] & -> & _). reflexivity. }
    assert (D : parse_string cf s = Ret (build obj_emplace d)).
    { rewrite <- parse_string_with_emplace. unfold parse_string_with. rewrite E. destruct o as [r m]. cbn [fst] in R. subst r. reflexivity. }
    apply (dialect cf s l t _ Hok F) in D. destruct D as (rest & D & Hr).
    apply document_wrote in D. destruct D as (d' & W & _). exists d', rest. split; [assumption|]. split; [assumption|].
    assert (Ln : (length l <= length s)%nat).
    { destruct (feeds_string (src_enc cf) (src_ck cf) s) as (l2 & t2 & F2 & L2). destruct (feeds_det _ _ _ _ _ F _ _ F2) as [<- _]. exact L2. }
    pose proof (run_wrote cf l t d' rest (IStr s) (fuel_for s) Hok F ltac:(unfold fuel_for; lia) W Hr put HNone VNull) as X.
    unfold parse_string_with in P. rewrite X in P. cbn in P. inversion P. reflexivity.
  - intros (d & rest & W & Hr & ->). unfold parse_string_with.
    assert (Ln : (length l <= length s)%nat).
    { destruct (feeds_string (src_enc cf) (src_ck cf) s) as (l2 & t2 & F2 & L2). destruct (feeds_det _ _ _ _ _ F _ _ F2) as [<- _]. exact L2. }
    rewrite (run_wrote cf l t d rest (IStr s) (fuel_for s) Hok F ltac:(unfold fuel_for; lia) W Hr put HNone VNull). reflexivity.
Qed.
