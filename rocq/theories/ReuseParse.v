(** Proofs about parsers and streams that are used more than once. *)
From Coq Require Import Lia ZifyBool ZifyNat ZifyN.
From Verif Require Import Base Stream Encoding Value Token Message Parser EncodingProofs Feeds ListMachine Simulation SimParse
  SpecUnicode SpecGrammar SpecText GrammarLex GrammarTok GrammarProofs GrammarFacts Serializer Wrapper WrapProofs Reuse SpecReuse.
Ltac Zify.zify_post_hook ::= Z.div_mod_to_equations.
Open Scope N_scope.

(** json.hpp:157-162 on lists of code points, keeping the position *)
Definition a_again (cf : pcfg) (t : term) (n : nat) (c : value) (l : list N) : value * outcome (list N) :=
  if at_bad t l then (c, dec_err t)
  else let '(v, r) := a_parse cf t n c None l in
       (v,
        let* l := r in
        let* r := a_scan cf t l in
        match fst r with
        | AT Teoi => Ret (snd r)
        | _ => fail (token_msg "unexpected token" Teoi)
        end).

Lemma again_sim : forall cf t n c st x l, at_ cf st (x :: l) t \/ (at_ cf st [] t /\ l = []) -> (2 * length l + 1 <= n)%nat ->
  simv (fun st' l' => at_ cf st' l' t) (parse_again cf n c st) (a_again cf t n c l).
Proof.
  intros cf t n c st x l At Nd. unfold parse_again, a_again.
  assert (R : sim (fun st' _ => on cf t st st' l) (read_next cf st) (guard t l (Ret tt))).
  { destruct At as [At|[At ->]]; pose proof (read_sim cf st _ t At) as R; exact R. }
  destruct (at_bad t l) eqn:B.
  { destruct l, t; try discriminate. cbn [guard] in R.
    destruct (read_next cf st); cbn in R; try contradiction. subst. split; reflexivity. }
  assert (G : guard t l (Ret tt) = Ret tt) by (destruct l, t; try discriminate; reflexivity).
  rewrite G in R. destruct (read_next cf st) as [st1| | | |]; cbn in R; try contradiction.
  destruct R as [H S].
  destruct (sim_all cf t n) as (P & _ & _).
  pose proof (P c None None st1 l H Logic.I Nd) as [P1 P2].
  destruct (do_parse cf n c None st1) as [v r].
  destruct (a_parse cf t n c None l) as [v' r'] eqn:Ep. cbn [fst snd] in P1, P2. subst v'.
  split; [reflexivity|]. cbn [snd].
  destruct r as [st2| | | |], r' as [l1| | | |]; cbn [sim] in P2; try contradiction;
    try reflexivity; try (subst; reflexivity).
  destruct (len_all cf t n) as (Lp & _ & _). apply Lp in Ep. cbn [bind].
  eapply sim_bind; [apply (scan_sim cf t l1 st2 n P2); lia|].
  intros [tk st3] [k l2] [H2 T]. cbn [fst snd] in *.
  destruct k as [k| |]; [destruct T as (-> & T)|destruct T as [-> T]; reflexivity..].
  destruct k; try reflexivity. exact H2.
Qed.

Lemma a_again_iff : forall cf t n c l v rest, enc_ok (tgt_enc cf) (tgt_ck cf) = true -> (2 * length l + 1 <= n)%nat ->
  (a_again cf t n c l = (v, Ret rest) <-> document cf l v rest /\ (t = TEof \/ rest <> [])).
Proof.
  intros cf t n c l v rest Hok L. unfold a_again. destruct (at_bad t l) eqn:B.
  { split.
    - intro H. destruct t; destruct l; discriminate.
    - intros (D & _). destruct l; [|discriminate]. exfalso.
      assert (V : exists l1, val cf [] v l1) by (inversion D; subst; eauto). destruct V as [l1 V].
      apply (complete_val cf TEof Hok) in V. destruct V as [V _]; [destruct l1; reflexivity|cbn in V; lia]. }
  split.
  - destruct (a_parse cf t n c None l) as [v' r] eqn:E. intro H. inversion H as [[Hv Hr]]. subst v'. clear H.
    apply bind_ret_iff in Hr. destruct Hr as (l1 & -> & Hr).
    apply parse_iff in E; [|assumption..]. destruct E as [V O1].
    apply bind_ret_iff in Hr. destruct Hr as ([k l2] & S & Hk). cbn [fst snd] in Hk.
    apply scan_iff in S; [|assumption]. destruct S as (l3 & B3 & T & O2).
    destruct k as [k| |]; try discriminate. destruct k; try discriminate. inversion Hk; subst l2. apply tok_none in T.
    destruct T as [-> [->|(l4 & ->)]].
    + split; [econstructor; eassumption|]. left. destruct t; [reflexivity|discriminate O2].
    + split; [eapply doc_nul; eassumption|]. right. discriminate.
  - intros (D & Hr).
    assert (X : exists l1, val cf l v l1 /\ blank l1 rest /\ tok_at cf rest (AT Teoi) rest /\ ok t rest).
    { inversion D; subst.
      - exists l1. repeat split; auto; [constructor|]. destruct Hr as [->|Hr]; [reflexivity|contradiction].
      - exists l1. repeat split; auto; [constructor]. }
    destruct X as (l1 & V & B1 & T & Or).
    assert (O1 : ok t l1) by (eapply ok_blank; eassumption).
    assert (E : a_parse cf t n c None l = (v, Ret l1)) by (apply parse_iff; auto).
    rewrite E. cbn [bind]. rewrite (scan_c _ _ _ _ _ _ B1 T Or). reflexivity.
Qed.

Lemma document_shorter : forall cf l v rest, enc_ok (tgt_enc cf) (tgt_ck cf) = true -> document cf l v rest -> (length rest < length l)%nat.
Proof.
  intros cf l v rest Hok D.
  assert (X : exists l1, val cf l v l1 /\ blank l1 rest) by (inversion D; subst; eauto). destruct X as (l1 & V & B).
  destruct (complete_val cf TEof Hok _ _ _ V) as [L _]; [destruct l1; reflexivity|].
  apply blank_len in B. lia.
Qed.

(** ** One call *)
Lemma fresh_at : forall cf b l t, feeds (src_enc cf) (src_ck cf) (is_open b) l t -> at_ cf (init_pst b) (0 :: l) t.
Proof. intros cf b l t F. apply (at_cons cf (init_pst b) l t); [reflexivity|assumption]. Qed.

Lemma again_iff : forall cf t n c st l v, enc_ok (tgt_enc cf) (tgt_ck cf) = true ->
  is_good (p_is st) = true -> feeds (src_enc cf) (src_ck cf) (p_is st) l t -> (2 * length l + 1 <= n)%nat ->
  (exists st', parse_again cf n c st = (v, Ret st')) <-> exists rest, document cf l v rest /\ (t = TEof \/ rest <> []).
Proof.
  intros cf t n c st l v Hok G F L.
  pose proof (again_sim cf t n c st (p_cur st) l (or_introl (at_cons cf st l t G F)) L) as [S1 S2].
  split.
  - intros (st' & E). rewrite E in S1, S2. cbn [fst snd] in S1, S2.
    destruct (a_again cf t n c l) as [w [rest| | | |]] eqn:A; cbn [fst snd sim] in *; try contradiction. subst w.
    exists rest. eapply a_again_iff; eassumption.
  - intros (rest & D). eapply a_again_iff in D; [|eassumption..]. rewrite D in S1, S2. cbn [fst snd] in S1, S2.
    destruct (parse_again cf n c st) as [w [st'| | | |]]; cbn [fst snd sim] in *; try contradiction. subst w. eauto.
Qed.

(** where the parser stands afterwards *)
Lemma again_rest : forall cf t n c st l v rest, enc_ok (tgt_enc cf) (tgt_ck cf) = true ->
  is_good (p_is st) = true -> feeds (src_enc cf) (src_ck cf) (p_is st) l t -> (2 * length l + 1 <= n)%nat ->
  document cf l v rest -> (t = TEof \/ rest <> []) ->
  exists st', parse_again cf n c st = (v, Ret st') /\ at_ cf st' rest t.
Proof.
  intros cf t n c st l v rest Hok G F L D Hr.
  pose proof (again_sim cf t n c st (p_cur st) l (or_introl (at_cons cf st l t G F)) L) as [S1 S2].
  rewrite (proj2 (a_again_iff cf t n c l v rest Hok L) (conj D Hr)) in S1, S2. cbn [fst snd] in S1, S2.
  destruct (parse_again cf n c st) as [w [st'| | | |]]; cbn [fst snd sim] in *; try contradiction. subst w. eauto.
Qed.

Lemma open_good : forall i, is_good i = true -> is_open (is_buf i) = i.
Proof. intros [b [] []]; cbn; intro; try discriminate; reflexivity. Qed.

Lemma at_zero : forall cf st l t, at_ cf st (0 :: l) t -> is_good (p_is st) = true /\ feeds (src_enc cf) (src_ck cf) (p_is st) l t.
Proof. intros cf st l t H. inversion H; subst. auto. Qed.

(** a NUL after the document: the buffer is left behind it *)
Lemma next_document : forall cf t n c st l v l1, enc_ok (tgt_enc cf) (tgt_ck cf) = true ->
  is_good (p_is st) = true -> feeds (src_enc cf) (src_ck cf) (p_is st) l t -> (2 * length l + 1 <= n)%nat ->
  document cf l v (0 :: l1) ->
  exists st', parse_again cf n c st = (v, Ret st') /\ p_is st' = is_open (is_buf (p_is st')) /\ feeds (src_enc cf) (src_ck cf) (p_is st') l1 t.
Proof.
  intros cf t n c st l v l1 Hok G F L D. destruct (again_rest cf t n c st l v (0 :: l1) Hok G F L D) as (st' & E & A); [right; discriminate|].
  apply at_zero in A. destruct A as [G' F']. exists st'. split; [assumption|]. split; [symmetry; apply open_good; assumption|assumption].
Qed.

(** the end of the input after the document: the stream has seen it *)
Lemma last_document : forall cf n c st l v, enc_ok (tgt_enc cf) (tgt_ck cf) = true ->
  is_good (p_is st) = true -> feeds (src_enc cf) (src_ck cf) (p_is st) l TEof -> (2 * length l + 1 <= n)%nat ->
  document cf l v [] ->
  exists st', parse_again cf n c st = (v, Ret st') /\ is_eof (p_is st') = true /\
    forall m c', (1 <= m)%nat -> parse_again cf m c' st' = (c', Throw (EDeser "unexpected token 'end_of_input'")).
Proof.
  intros cf n c st l v Hok G F L D. destruct (again_rest cf TEof n c st l v [] Hok G F L D) as (st' & E & A); [auto|].
  exists st'. split; [assumption|]. split; [apply at_eof in A; exact A|].
  intros m c' Lm. pose proof (again_sim cf TEof m c' st' 0 [] (or_intror (conj A eq_refl)) Lm) as [S1 S2].
  assert (X : a_again cf TEof m c' [] = (c', Throw (EDeser "unexpected token 'end_of_input'"))).
  { destruct m as [|m]; [lia|]. reflexivity. }
  rewrite X in S1, S2. cbn [fst snd] in S1, S2.
  destruct (parse_again cf m c' st') as [w [st2| | | |]]; cbn [fst snd sim] in *; try contradiction. subst. reflexivity.
Qed.

(** nothing but blanks up to the end or a NUL *)
Lemma no_document : forall cf t n c st l rest,
  is_good (p_is st) = true -> feeds (src_enc cf) (src_ck cf) (p_is st) l t -> (2 * length l + 1 <= n)%nat ->
  blank l rest -> (rest = [] /\ t = TEof) \/ (exists l1, rest = 0 :: l1) ->
  parse_again cf n c st = (c, Throw (EDeser "unexpected token 'end_of_input'")).
Proof.
  intros cf t n c st l rest G F L B R.
  pose proof (again_sim cf t n c st (p_cur st) l (or_introl (at_cons cf st l t G F)) L) as [S1 S2].
  assert (T : tok_at cf rest (AT Teoi) rest /\ ok t rest).
  { destruct R as [[-> ->]|(l1 & ->)]; (split; [constructor|reflexivity]). }
  destruct T as [T O].
  assert (X : a_again cf t n c l = (c, Throw (EDeser "unexpected token 'end_of_input'"))).
  { unfold a_again. assert (Ol : ok t l) by (eapply ok_blank; eassumption). rewrite Ol.
    destruct n as [|n]; [lia|]. cbn [a_parse]. rewrite (scan_c _ _ _ _ _ _ B T O). reflexivity. }
  rewrite X in S1, S2. cbn [fst snd] in S1, S2.
  destruct (parse_again cf n c st) as [w [st2| | | |]]; cbn [fst snd sim] in *; try contradiction. subst. reflexivity.
Qed.

(** ** One parser again or a new one *)
Lemma same_parser : forall cf t n c st l, is_good (p_is st) = true ->
  feeds (src_enc cf) (src_ck cf) (p_is st) l t -> (2 * length l + 1 <= n)%nat ->
  fst (parse_again cf n c st) = fst (parse_again cf n c (init_pst (is_buf (p_is st)))) /\
  unit_of (snd (parse_again cf n c st)) = unit_of (snd (parse_again cf n c (init_pst (is_buf (p_is st))))).
Proof.
  intros cf t n c st l G F L.
  pose proof (again_sim cf t n c st (p_cur st) l (or_introl (at_cons cf st l t G F)) L) as [S1 S2].
  assert (F' : feeds (src_enc cf) (src_ck cf) (is_open (is_buf (p_is st))) l t) by (rewrite open_good by assumption; assumption).
  pose proof (again_sim cf t n c (init_pst (is_buf (p_is st))) 0 l (or_introl (fresh_at cf _ l t F')) L) as [R1 R2].
  rewrite S1, R1. split; [reflexivity|].
  destruct (snd (parse_again cf n c st)), (snd (a_again cf t n c l)), (snd (parse_again cf n c (init_pst (is_buf (p_is st)))));
    cbn [sim] in *; try contradiction; subst; reflexivity.
Qed.

Lemma again_new : forall cf n c b,
  parse_ibuf cf HNone n c b = (fst (parse_again cf n c (init_pst b)), (unit_of (snd (parse_again cf n c (init_pst b))), ""%string)).
Proof.
  intros cf n c b. unfold parse_ibuf, parse_again. destruct (read_next cf (init_pst b)) as [st| | | |]; try reflexivity.
  unfold parse_body. destruct (do_parse cf n c None st) as [v [st1| | | |]]; try reflexivity. cbn [bind fst snd].
  destruct (scan cf n st1) as [[tk st2]| | | |]; try reflexivity. cbn [bind fst snd]. destruct tk; reflexivity.
Qed.

Lemma keep_again : forall cf n c b,
  parse_keep cf n c b = (fst (parse_again cf n c (init_pst b)), let* st := snd (parse_again cf n c (init_pst b)) in Ret (p_is st)).
Proof.
  intros cf n c b. unfold parse_keep, parse_again. destruct (read_next cf (init_pst b)) as [st| | | |]; try reflexivity.
  destruct (do_parse cf n c None st) as [v [st1| | | |]]; try reflexivity. cbn [bind fst snd].
  destruct (scan cf n st1) as [[tk st2]| | | |]; try reflexivity. cbn [bind fst snd]. destruct tk; reflexivity.
Qed.

(** ** Many calls *)
Lemma docs_shorter : forall cf l vs rest, enc_ok (tgt_enc cf) (tgt_ck cf) = true -> docs cf l vs rest -> (length rest < length l)%nat.
Proof.
  intros cf l vs rest Hok D. induction D as [l v rest D|l v l1 vs rest D Ds IH].
  - eapply document_shorter; eassumption.
  - apply document_shorter in D; [|assumption]. cbn in D. lia.
Qed.

Lemma calls_docs : forall cf t l vs rest, enc_ok (tgt_enc cf) (tgt_ck cf) = true -> docs cf l vs rest -> (t = TEof \/ rest <> []) ->
  forall n st, is_good (p_is st) = true -> feeds (src_enc cf) (src_ck cf) (p_is st) l t -> (2 * length l + 1 <= n)%nat ->
  exists st', parse_calls cf n (length vs) st = (vs, Ret st') /\ at_ cf st' rest t.
Proof.
  intros cf t l vs rest Hok D Hr. induction D as [l v rest D|l v l1 vs rest D Ds IH]; intros n st G F L.
  - destruct (again_rest cf t n VNull st l v rest Hok G F L D Hr) as (st' & E & A). exists st'. cbn [length parse_calls]. rewrite E. auto.
  - destruct (next_document cf t n VNull st l v l1 Hok G F L D) as (st1 & E & O & F1).
    pose proof (document_shorter cf l v (0 :: l1) Hok D) as Ls. cbn [length] in Ls.
    destruct (IH Hr n st1) as (st' & E' & A); [rewrite O; reflexivity|assumption|lia|].
    exists st'. cbn [length parse_calls]. rewrite E, E'. auto.
Qed.

Lemma docs_calls : forall cf t, enc_ok (tgt_enc cf) (tgt_ck cf) = true -> forall k l n st vs st', 
  is_good (p_is st) = true -> feeds (src_enc cf) (src_ck cf) (p_is st) l t -> (2 * length l + 1 <= n)%nat ->
  parse_calls cf n (Datatypes.S k) st = (vs, Ret st') -> length vs = Datatypes.S k /\ exists rest, docs cf l vs rest /\ (t = TEof \/ rest <> []).
Proof.
  intros cf t Hok. induction k as [|k IH]; intros l n st vs st' G F L E.
  - cbn [parse_calls] in E. destruct (parse_again cf n VNull st) as [v [st1| | | |]] eqn:P; try discriminate. inversion E; subst.
    destruct (proj1 (again_iff cf t n VNull st l v Hok G F L) (ex_intro _ st' P)) as (rest & D & Hr).
    split; [reflexivity|]. exists rest. split; [constructor; assumption|assumption].
  - change (parse_calls cf n (Datatypes.S (Datatypes.S k)) st) with
      (match parse_again cf n VNull st with
       | (v, Ret st) => let '(vs, r) := parse_calls cf n (Datatypes.S k) st in (v :: vs, r)
       | (_, r) => ([], stop r)
       end) in E.
    destruct (parse_again cf n VNull st) as [v [st1| | | |]] eqn:P; try discriminate.
    destruct (proj1 (again_iff cf t n VNull st l v Hok G F L) (ex_intro _ st1 P)) as (rest & D & Hr).
    destruct (again_rest cf t n VNull st l v rest Hok G F L D Hr) as (st2 & P2 & A). rewrite P in P2. inversion P2; subst st2.
    destruct (parse_calls cf n (Datatypes.S k) st1) as [vs1 r1] eqn:E1. inversion E; subst. clear E.
    destruct rest as [|x l1].
    + exfalso. assert (t = TEof) by (destruct Hr as [Hr|Hr]; [assumption|contradiction]). subst t.
      destruct (last_document cf n VNull st l v Hok G F L D) as (st2 & P3 & _ & Th). rewrite P in P3. inversion P3; subst st2.
      cbn [parse_calls] in E1. rewrite (Th n VNull) in E1 by lia. discriminate.
    + assert (x = 0) by (inversion D; reflexivity). subst x. apply at_zero in A. destruct A as [G1 F1].
      pose proof (document_shorter cf l v (0 :: l1) Hok D) as Ls. cbn [length] in Ls.
      destruct (IH l1 n st1 vs1 st' G1 F1 ltac:(lia) E1) as (Lv & r2 & Ds & Hr2). split; [cbn; rewrite Lv; reflexivity|].
      exists r2. split; [eapply ds_more; eassumption|assumption].
Qed.

Lemma calls_iff : forall cf t n k b l vs, enc_ok (tgt_enc cf) (tgt_ck cf) = true ->
  feeds (src_enc cf) (src_ck cf) (is_open b) l t -> (2 * length l + 1 <= n)%nat -> (1 <= k)%nat ->
  (exists st', parse_calls cf n k (init_pst b) = (vs, Ret st')) <->
  length vs = k /\ exists rest, docs cf l vs rest /\ (t = TEof \/ rest <> []).
Proof.
  intros cf t n k b l vs Hok F L K. split.
  - intros (st' & E). destruct k as [|k]; [lia|]. apply (docs_calls cf t Hok k l n (init_pst b) vs st'); try assumption. reflexivity.
  - intros (<- & rest & D & Hr). destruct (calls_docs cf t l vs rest Hok D Hr n (init_pst b)) as (st' & E & _); [reflexivity|assumption..|]. eauto.
Qed.

(** a new parser for each document *)
Lemma each_docs : forall cf t l vs rest, enc_ok (tgt_enc cf) (tgt_ck cf) = true -> docs cf l vs rest -> (t = TEof \/ rest <> []) ->
  forall n b, feeds (src_enc cf) (src_ck cf) (is_open b) l t -> (2 * length l + 1 <= n)%nat ->
  exists b', parse_each cf n (length vs) b = (vs, Ret b') /\
    (forall l1, rest = 0 :: l1 -> feeds (src_enc cf) (src_ck cf) (is_open b') l1 t).
Proof.
  intros cf t l vs rest Hok D Hr. induction D as [l v rest D|l v l1 vs rest D Ds IH]; intros n b F L.
  - destruct (again_rest cf t n VNull (init_pst b) l v rest Hok eq_refl F L D Hr) as (st' & E & A).
    exists (is_buf (p_is st')). cbn [length parse_each]. rewrite keep_again, E. cbn [fst snd bind]. split; [reflexivity|].
    intros l1 ->. apply at_zero in A. destruct A as [G1 F1]. rewrite open_good by assumption. assumption.
  - destruct (next_document cf t n VNull (init_pst b) l v l1 Hok eq_refl F L D) as (st1 & E & O & F1).
    pose proof (document_shorter cf l v (0 :: l1) Hok D) as Ls. cbn [length] in Ls. rewrite O in F1.
    destruct (IH Hr n (is_buf (p_is st1)) F1) as (b' & E' & A); [lia|].
    exists b'. cbn [length parse_each]. rewrite keep_again, E. cbn [fst snd bind]. rewrite E'. auto.
Qed.

Lemma each_empty : forall cf t n b l rest k, feeds (src_enc cf) (src_ck cf) (is_open b) l t -> (2 * length l + 1 <= n)%nat ->
  blank l rest -> (rest = [] /\ t = TEof) \/ (exists l1, rest = 0 :: l1) ->
  parse_each cf n (Datatypes.S k) b = ([], Throw (EDeser "unexpected token 'end_of_input'")).
Proof.
  intros cf t n b l rest k F L B R. cbn [parse_each]. rewrite keep_again.
  rewrite (no_document cf t n VNull (init_pst b) l rest eq_refl F L B R). reflexivity.
Qed.
