(** The parser throws a message exactly where the grammar objects with it. *)
From Coq Require Import Lia ZifyBool ZifyNat ZifyN Ascii Floats.SpecFloat.
From Verif Require Import Base Stream Encoding Value Token FloatFmt Message Parser EncodingProofs Feeds ListMachine Simulation
  SimParse SpecUnicode SpecGrammar GrammarLex GrammarTok ObjFacts GrammarProofs SpecPos SpecGap PosSound Mono Context
  SpecMessage MessageLex MessageNum MessageStr MessageScan.

Section Msg.
Variables (cf : pcfg) (t : term).
Hypothesis Hok : enc_ok (tgt_enc cf) (tgt_ck cf) = true.

(** reading the next token where k is expected ends in m *)
Definition halts (k : kind) (l : list N) (m : string) : Prop :=
  ok t l /\
  (T (a_scan cf t l) m \/
   exists x r, a_scan cf t l = Ret (x, r) /\
     ((allowed k x = false /\ m = says k x) \/
      (x = AT Tstring /\ allowed k x = true /\ bad_string (tgt_enc cf) (tgt_ck cf) t r m))).

Lemma bad_string_start : forall e ck r m, bad_string e ck t r m -> exists l, r = 34 :: l.
Proof. intros e ck r m H. destruct H; eauto. Qed.

Lemma tok_bad_complaint : forall k r m, tok_bad cf t r m -> complaint cf t k r m.
Proof.
  intros k r m H. destruct H as [c l H|r m H|r m H|c m U H|r w v m U N H|r w v m U N H].
  - apply cp_char; assumption.
  - apply cp_literal; assumption.
  - apply cp_number; assumption.
  - apply cp_cut_punct; assumption.
  - eapply cp_cut_literal; eassumption.
  - eapply cp_cut_number; eassumption.
Qed.

Lemma halts_complaint : forall k l m, halts k l m -> exists g r, l = g ++ r /\ gap g /\ complaint cf t k r m.
Proof.
  intros k l m [O H]. assert (Here : complaint cf t k l m -> exists g r, l = g ++ r /\ gap g /\ complaint cf t k r m).
  { intro C. exists [], l. split; [reflexivity|]. split; [constructor|assumption]. }
  destruct H as [H|(x & r & E & H)].
  - unfold a_scan in H. apply T_bind in H. destruct H as [H|(r & E & H)].
    + apply skip_T in H; [|assumption]. destruct H as [(U & N & B)|(g & r & -> & G & F)].
      * apply Here. apply cp_blank; assumption.
      * exists g, r. split; [reflexivity|]. split; [assumption|]. destruct F as [l c S H1 H2|b Te Un].
        -- eapply cp_slash; eassumption.
        -- apply cp_comment; assumption.
    + apply skip_iff in E; [|assumption]. destruct E as [B O1].
      pose proof (blank_solid _ _ B) as So. apply T_scan_tok in H; [|assumption|exact So].
      destruct (tok_bad_nonempty cf t _ _ H) as (c & l1 & -> & _).
      destruct (blank_gap _ _ B ltac:(discriminate)) as (g & G & ->).
      exists g, (c :: l1). split; [reflexivity|]. split; [assumption|]. apply tok_bad_complaint; assumption.
  - pose proof E as E'. unfold a_scan in E'. apply bind_ret_iff in E'. destruct E' as (r1 & Sk & Et).
    apply skip_iff in Sk; [|assumption]. destruct Sk as [B O1].
    destruct H as [[A ->]|(-> & A & S)].
    + apply Here. rewrite <- unwelcome_eq. eapply cp_token; [exact B|apply token_iff; eauto|].
      apply scan_tok_iff in Et; [|assumption]. destruct Et as [Et _]. rewrite welcome_iff by (eapply tok_at_kind; exact Et). congruence.
    + destruct (bad_string_start _ _ _ _ S) as (l1 & ->). apply scan_tok_iff in Et; [|assumption]. destruct Et as [Et _].
      apply tok_none in Et. destruct Et as [E2 _].
      assert (r1 = 34 :: l1) by congruence. subst r1.
      destruct (blank_gap _ _ B ltac:(discriminate)) as (g & G & ->).
      exists g, (34 :: l1). split; [reflexivity|]. split; [assumption|]. apply cp_string; [|assumption].
      change "value_string"%string with (name_of (AT Tstring)). apply welcome_iff; [split; discriminate|assumption].
Qed.

Lemma bad_front_solid : forall r, (exists c l, r = c :: l /\ ~ space c /\ c <> 47) -> a_skip MWs t r = Ret r.
Proof.
  intros r (c & l & -> & S1 & S2). apply skip_iff; [apply ok_cons|]. split; [|apply ok_cons]. apply bl_none. cbn. auto.
Qed.

Lemma tok_bad_halts : forall k r m, tok_bad cf t r m -> halts k r m.
Proof.
  intros k r m H. pose proof (tok_bad_nonempty cf t _ _ H) as N. pose proof (bad_front_solid r N) as S.
  destruct N as (c & l & -> & S1 & S2). split; [apply ok_cons|]. left. unfold a_scan. rewrite S. cbn [bind].
  apply T_scan_tok; [apply ok_cons|auto|assumption].
Qed.

Lemma complaint_halts : forall k r m, complaint cf t k r m -> halts k r m.
Proof.
  assert (On : forall r : list N, r <> [] -> ok t r) by (intros [|c r] N; [congruence|apply ok_cons]).
  intros k r m H.
  destruct H as [k r m U N B|k l c S H1 H2|k b Te Un|k r r' n B Ta W|k c l H|k r m H|k r m H|k r m W H|k c m U H|k r w v m U N H|k r w v m U N H].
  - split; [auto|]. left. unfold a_scan. apply T_bind. left. apply skip_T; [auto|]. left. auto.
  - split; [apply ok_cons|]. left. unfold a_scan. apply T_bind. left. apply skip_T; [apply ok_cons|]. right.
    exists [], (47 :: l). split; [reflexivity|]. split; [constructor|]. eapply bf_slash; eassumption.
  - split; [apply ok_cons|]. left. unfold a_scan. apply T_bind. left. apply skip_T; [apply ok_cons|]. right.
    exists [], (47 :: 42 :: b). split; [reflexivity|]. split; [constructor|]. apply bf_block; assumption.
  - assert (O' : ok t r').
    { destruct r' as [|c r']; [|apply ok_cons]. assert (t = TEof); [|subst; reflexivity].
      inversion Ta as [| | | | | |r0 l0 L|r0 l0 L|r0 l0 L|r0 z0 l0 L|r0 f0 l0 L| | |]; subst; auto;
        try (apply literal_start in L; destruct L as (? & ? & E & _); discriminate);
        apply number_start in L; destruct L as (? & ? & E & _); discriminate. }
    assert (O : ok t r) by (eapply ok_blank; eassumption). split; [assumption|]. right.
    apply token_iff in Ta; [|assumption]. destruct Ta as (x & r2 & E & <-). exists x, r2.
    split; [unfold a_scan; rewrite (proj2 (skip_iff t r r' O) (conj B O')); exact E|]. left.
    apply scan_tok_iff in E; [|assumption]. destruct E as [E _]. rewrite welcome_iff in W by (eapply tok_at_kind; exact E).
    split; [destruct (allowed k x); congruence|apply unwelcome_eq].
  - apply tok_bad_halts, tb_char; assumption.
  - apply tok_bad_halts, tb_literal; assumption.
  - apply tok_bad_halts, tb_number; assumption.
  - destruct (bad_string_start _ _ _ _ H) as (l & ->). split; [apply ok_cons|]. right. exists (AT Tstring), (34 :: l).
    split; [unfold a_scan; rewrite bad_front_solid; [reflexivity|]|].
    { exists 34, l. unfold space. split; [reflexivity|]. split; lia. }
    right. split; [reflexivity|]. split; [|assumption].
    change "value_string"%string with (name_of (AT Tstring)) in W. apply welcome_iff in W; [assumption|split; discriminate].
  - apply tok_bad_halts, tb_cut_punct; assumption.
  - apply tok_bad_halts. eapply tb_cut_literal; eassumption.
  - apply tok_bad_halts. eapply tb_cut_number; eassumption.
Qed.

Lemma complaint_gap : forall k g r m, gap g -> complaint cf t k r m -> halts k (g ++ r) m.
Proof.
  intros k g r m G C. destruct r as [|c r].
  - apply complaint_halts. inversion C as [? ? ? U N| | |k0 r0 r' n B Ta W| |k0 r0 m0 H|k0 r0 m0 H|k0 r0 m0 W H| |? ? ? ? ? U N|? ? ? ? ? U N]; subst; try congruence.
    + eapply cp_token; [|exact Ta|exact W]. eapply gap_blank; eassumption.
    + inversion H.
    + inversion H.
    + inversion H.
  - apply complaint_halts in C. destruct C as [_ C].
    split; [destruct g; apply ok_cons|]. rewrite scan_gap by (assumption || discriminate). exact C.
Qed.

(** ** Soundness *)

Lemma T_stop : forall A B (o : outcome A) m, T (@stop A B o) m <-> T o m.
Proof. intros A B o m. unfold T. destruct o; cbn [stop]; split; intro H; try discriminate; injection H as ->; reflexivity. Qed.
Lemma T_arr_end : forall o m, T (arr_end o) m ->
  T o m \/ exists x r, o = Ret (x, r) /\ x <> AT Tend_arr /\ m = expect_msg (tok_of x) Tend_arr.
Proof.
  intros [[x r]|e| | |] m H; cbn [arr_end stop] in H; try discriminate H.
  - right. exists x, r. split; [reflexivity|]. destruct x as [x| |]; [destruct x|..]; try (apply T_ret in H; contradiction);
      apply T_fail in H; (split; [discriminate|exact H]).
  - left. unfold T in *. injection H as ->. reflexivity.
Qed.
Lemma T_obj_end : forall o m, T (obj_end o) m ->
  T o m \/ exists x r, o = Ret (x, r) /\ x <> AT Tend_obj /\ m = expect_msg (tok_of x) Tend_obj.
Proof.
  intros [[x r]|e| | |] m H; cbn [obj_end stop] in H; try discriminate H.
  - right. exists x, r. split; [reflexivity|]. destruct x as [x| |]; [destruct x|..]; try (apply T_ret in H; contradiction);
      apply T_fail in H; (split; [discriminate|exact H]).
  - left. unfold T in *. injection H as ->. reflexivity.
Qed.

Definition sm_parse n := forall c l m, ok t l -> (2 * length l + 1 <= n)%nat ->
  T (snd (a_parse cf t n c None l)) m -> halts KVal l m \/ (exists k r, in_spot cf k l r /\ complaint cf t k r m).
Definition sm_arr n := forall vs l m, ok t l -> (2 * length l + 2 <= n)%nat ->
  T (arr_end (snd (a_arr cf t n vs l))) m -> exists k r, e_spot cf k l r /\ complaint cf t k r m.
Definition sm_obj n := forall o l m, ok t l -> (2 * length l + 2 <= n)%nat ->
  T (obj_end (snd (a_obj cf t n o l))) m -> exists k r, m_spot cf k l r /\ complaint cf t k r m.

(** a thrown scan *)
Lemma scan_halts : forall k l m, ok t l -> T (a_scan cf t l) m -> halts k l m.
Proof. intros k l m O H. split; [assumption|]. left. assumption. Qed.
Lemma token_halts : forall k l x r, ok t l -> a_scan cf t l = Ret (x, r) -> allowed k x = false -> halts k l (says k x).
Proof. intros k l x r O E A. split; [assumption|]. right. exists x, r. split; [assumption|]. left. auto. Qed.
Lemma string_halts : forall k l r n m, ok t l -> a_scan cf t l = Ret (AT Tstring, r) -> allowed k (AT Tstring) = true ->
  (length r <= n)%nat -> T (snd (a_get_string cf t n r)) m -> halts k l m.
Proof.
  intros k l r n m O E A L H. split; [assumption|]. right. exists (AT Tstring), r. split; [assumption|]. right.
  split; [reflexivity|]. split; [assumption|]. apply scan_iff in E; [|assumption]. destruct E as (l2 & _ & Ta & _).
  apply tok_none in Ta. destruct Ta as [-> (l3 & ->)]. apply T_get_string in H; [assumption|assumption|cbn [length] in L; lia].
Qed.

Lemma sm_all : forall n, sm_parse n /\ sm_arr n /\ sm_obj n.
Proof.
  induction n as [|n (IHp & IHa & IHo)].
  { repeat split; repeat intro; discriminate. }
  split; [|split].
  - intros c l m O Fl H. cbn [a_parse] in H.
    destruct (a_scan cf t l) as [[x l1]|e| | |] eqn:E; cbn [snd stop] in H; try discriminate H.
    2: { left. apply scan_halts; [assumption|]. rewrite E. unfold T in *. injection H as ->. reflexivity. }
    pose proof E as E'. apply a_scan_len in E'. destruct E' as [L1 L2].
    pose proof E as Sc. apply scan_iff in Sc; [|assumption]. destruct Sc as (l2 & B & Ta & O1).
    destruct x as [x|z|f]; [|apply T_ret in H; contradiction..].
    pose proof (tok_none _ _ _ _ Ta) as Tn.
    destruct x; cbn [tok_of] in H; try (apply T_ret in H; contradiction); try contradiction;
      try (apply T_fail in H; subst m; left; apply (token_halts KVal l _ l1 O E eq_refl)).
    + left. eapply string_halts; [assumption|exact E|reflexivity| |].
      * instantiate (1 := Datatypes.S n). lia.
      * destruct (a_get_string cf t (Datatypes.S n) l1). exact H.
    + right. subst l2. specialize (L2 eq_refl). pose proof (IHa [] l1 m O1 ltac:(lia)) as P.
      destruct (a_arr cf t n [] l1) as [vs o]. cbn [snd] in H, P.
      destruct (P H) as (k & r & Ep & K). exists k, r. split; [eapply is_arr; eassumption|assumption].
    + right. subst l2. specialize (L2 eq_refl). pose proof (IHo [] l1 m O1 ltac:(lia)) as P.
      destruct (a_obj cf t n [] l1) as [vs o]. cbn [snd] in H, P.
      destruct (P H) as (k & r & Ep & K). exists k, r. split; [eapply is_obj; eassumption|assumption].
  - intros vs l m O L H. cbn [a_arr] in H.
    assert (Here : halts KElem l m -> exists k r, e_spot cf k l r /\ complaint cf t k r m).
    { intro X. destruct (halts_complaint _ _ _ X) as (g & r & -> & G & C). exists KElem, r. split; [apply es_here; assumption|assumption]. }
    destruct (a_scan cf t l) as [[x l1]|e| | |] eqn:E; cbn [snd stop arr_end] in H; try discriminate H.
    2: { apply Here, scan_halts; [assumption|]. rewrite E. unfold T in *. injection H as ->. reflexivity. }
    pose proof E as E'. apply a_scan_len in E'. destruct E' as [L1 L2].
    destruct (a_starts x) eqn:Es.
    2: { cbn [snd] in H. apply T_arr_end in H. destruct H as [H|(x' & r' & Ex & Nx & ->)]; [apply T_ret in H; contradiction|].
         injection Ex as <- <-. apply Here, (token_halts KElem l x l1 O E). cbn [allowed]. rewrite Es. cbn [orb].
         destruct x as [x| |]; [destruct x|..]; congruence. }
    assert (PN : a_parse cf t n VNull (Some x) l1 = a_parse cf t n VNull None l).
    { destruct n; [reflexivity|]. cbn [a_parse]. rewrite E. reflexivity. }
    rewrite PN in H. destruct (a_parse cf t n VNull None l) as [v o] eqn:Ep.
    destruct o as [l3|e| | |]; cbn [snd stop arr_end] in H; try discriminate H.
    + pose proof (parse_len_none cf t n VNull l v l3 Ep) as Lp.
      destruct (sound_all cf t Hok n) as (SP & _ & _).
      destruct (SP VNull None l l v l3 (conj eq_refl O) ltac:(unfold flen; lia) Ep) as [V O3].
      assert (After : halts KAfterElem l3 m -> exists k r, e_spot cf k l r /\ complaint cf t k r m).
      { intro X. destruct (halts_complaint _ _ _ X) as (g & r & -> & G & C). exists KAfterElem, r.
        split; [eapply es_after; eassumption|assumption]. }
      destruct (a_scan cf t l3) as [[x2 l4]|e| | |] eqn:E2; cbn [snd stop arr_end] in H; try discriminate H.
      2: { apply After, scan_halts; [assumption|]. rewrite E2. unfold T in *. injection H as ->. reflexivity. }
      pose proof E2 as E2'. apply a_scan_len in E2'. destruct E2' as [L3 _].
      destruct (match x2 with AT Tval_sep => true | _ => false end) eqn:Ec.
      * destruct x2 as [x2| |]; try discriminate Ec. destruct x2; try discriminate Ec.
        apply scan_iff in E2; [|assumption]. destruct E2 as (l5 & B2 & T2 & O4).
        apply tok_none in T2. subst l5. apply IHa in H; [|assumption|lia].
        destruct H as (k' & r & Ep' & K). exists k', r. split; [eapply es_next; eassumption|assumption].
      * assert (H' : T (arr_end (Ret (x2, l4))) m).
        { destruct x2 as [x2| |]; [destruct x2|..]; try discriminate Ec; exact H. }
        apply T_arr_end in H'. destruct H' as [H'|(x' & r' & Ex & Nx & ->)]; [apply T_ret in H'; contradiction|].
        injection Ex as <- <-. apply After, (token_halts KAfterElem l3 x2 l4 O3 E2). cbn [allowed].
        destruct x2 as [x2| |]; [destruct x2|..]; congruence.
    + assert (H' : T (snd (a_parse cf t n VNull None l)) m) by (rewrite Ep; unfold T in *; injection H as ->; reflexivity).
      apply IHp in H'; [|assumption|lia]. destruct H' as [X|(k & r & In & K)].
      * apply Here. destruct X as [_ X]. split; [assumption|].
        destruct X as [X|(x' & r & Ex & X)]; [left; assumption|]. right. exists x', r. split; [assumption|].
        rewrite E in Ex. injection Ex as <- <-. destruct X as [[A _]|(-> & _ & X)].
        -- cbn [allowed] in A. congruence.
        -- right. auto.
      * exists k, r. split; [apply es_in; assumption|assumption].
  - intros mm l m O L H. cbn [a_obj] in H.
    assert (Here : halts KKey l m -> exists k r, m_spot cf k l r /\ complaint cf t k r m).
    { intro X. destruct (halts_complaint _ _ _ X) as (g & r & -> & G & C). exists KKey, r. split; [apply ms_here; assumption|assumption]. }
    destruct (a_scan cf t l) as [[x l1]|e| | |] eqn:E; cbn [snd stop obj_end] in H; try discriminate H.
    2: { apply Here, scan_halts; [assumption|]. rewrite E. unfold T in *. injection H as ->. reflexivity. }
    pose proof E as E'. apply a_scan_len in E'. destruct E' as [L1 L2].
    destruct (match x with AT Tstring => true | _ => false end) eqn:Ec.
    2: { assert (H' : T (obj_end (Ret (x, l1))) m) by (destruct x as [x| |]; [destruct x|..]; try discriminate Ec; exact H).
         apply T_obj_end in H'. destruct H' as [H'|(x' & r' & Ex & Nx & ->)]; [apply T_ret in H'; contradiction|].
         injection Ex as <- <-. apply Here, (token_halts KKey l x l1 O E). cbn [allowed].
         destruct x as [x| |]; [destruct x|..]; congruence. }
    destruct x as [x| |]; try discriminate Ec. destruct x; try discriminate Ec.
    pose proof E as Sc. apply scan_iff in Sc; [|assumption]. destruct Sc as (l2 & B & Ta & O1).
    apply tok_none in Ta. destruct Ta as [-> (l3 & ->)].
    destruct (a_get_string cf t (Datatypes.S n) (34 :: l3)) as [key o] eqn:Eg.
    destruct o as [l4|e| | |]; cbn [snd stop obj_end] in H; try discriminate H.
    2: { apply Here. eapply string_halts; [assumption|exact E|reflexivity| |].
         - instantiate (1 := Datatypes.S n). lia.
         - rewrite Eg. unfold T in *. injection H as ->. reflexivity. }
    pose proof Eg as Eg'. apply a_get_string_len in Eg'.
    apply get_string_iff in Eg; [|assumption|cbn [length] in *; lia]. destruct Eg as [Sl O4].
    assert (Colon : halts KColon l4 m -> exists k r, m_spot cf k l r /\ complaint cf t k r m).
    { intro X. destruct (halts_complaint _ _ _ X) as (g & r & -> & G & C). exists KColon, r. split; [eapply ms_colon; eassumption|assumption]. }
    destruct (a_scan cf t l4) as [[x2 l5]|e| | |] eqn:E2; cbn [snd stop obj_end] in H; try discriminate H.
    2: { apply Colon, scan_halts; [assumption|]. rewrite E2. unfold T in *. injection H as ->. reflexivity. }
    pose proof E2 as E2'. apply a_scan_len in E2'. destruct E2' as [L3 _].
    destruct (match x2 with AT Tname_sep => true | _ => false end) eqn:Ec2.
    2: { assert (H' : T (obj_end (Ret (x2, l5))) m) by (destruct x2 as [x2| |]; [destruct x2|..]; try discriminate Ec2; exact H).
         apply T_obj_end in H'. destruct H' as [H'|(x' & r' & Ex & Nx & ->)]; [apply T_ret in H'; contradiction|].
         injection Ex as <- <-. apply Colon, (token_halts KColon l4 x2 l5 O4 E2). cbn [allowed].
         destruct x2 as [x2| |]; [destruct x2|..]; congruence. }
    destruct x2 as [x2| |]; try discriminate Ec2. destruct x2; try discriminate Ec2.
    apply scan_iff in E2; [|assumption]. destruct E2 as (l6 & B2 & T2 & O5).
    apply tok_none in T2. subst l6.
    destruct (a_parse cf t n VNull None l5) as [v o] eqn:Ep.
    destruct o as [l7|e| | |]; cbn [snd stop obj_end] in H; try discriminate H.
    2: { assert (H' : T (snd (a_parse cf t n VNull None l5)) m) by (rewrite Ep; unfold T in *; injection H as ->; reflexivity).
         apply IHp in H'; [|assumption|lia]. destruct H' as [X|(k & r & In & K)].
         - destruct (halts_complaint _ _ _ X) as (g & r & -> & G & C). exists KVal, r. split; [eapply ms_val; eassumption|assumption].
         - exists k, r. split; [eapply ms_in; eassumption|assumption]. }
    pose proof Ep as Ep'. apply parse_len_none in Ep'.
    destruct (sound_all cf t Hok n) as (SP & _ & _).
    destruct (SP VNull None l5 l5 v l7 (conj eq_refl O5) ltac:(unfold flen; lia) Ep) as [V O7].
    assert (After : halts KAfterMem l7 m -> exists k r, m_spot cf k l r /\ complaint cf t k r m).
    { intro X. destruct (halts_complaint _ _ _ X) as (g & r & -> & G & C). exists KAfterMem, r. split; [eapply ms_after; eassumption|assumption]. }
    destruct (a_scan cf t l7) as [[x3 l8]|e| | |] eqn:E3; cbn [snd stop obj_end] in H; try discriminate H.
    2: { apply After, scan_halts; [assumption|]. rewrite E3. unfold T in *. injection H as ->. reflexivity. }
    pose proof E3 as E3'. apply a_scan_len in E3'. destruct E3' as [L4 _].
    destruct (match x3 with AT Tval_sep => true | _ => false end) eqn:Ec3.
    2: { assert (H' : T (obj_end (Ret (x3, l8))) m) by (destruct x3 as [x3| |]; [destruct x3|..]; try discriminate Ec3; exact H).
         apply T_obj_end in H'. destruct H' as [H'|(x' & r' & Ex & Nx & ->)]; [apply T_ret in H'; contradiction|].
         injection Ex as <- <-. apply After, (token_halts KAfterMem l7 x3 l8 O7 E3). cbn [allowed].
         destruct x3 as [x3| |]; [destruct x3|..]; congruence. }
    destruct x3 as [x3| |]; try discriminate Ec3. destruct x3; try discriminate Ec3.
    apply scan_iff in E3; [|assumption]. destruct E3 as (l9 & B3 & T3 & O8).
    apply tok_none in T3. subst l9. apply IHo in H; [|assumption|lia].
    destruct H as (k' & r & Mp & K). exists k', r. split; [eapply ms_next; eassumption|assumption].
Qed.

Lemma sm_body : forall n c l m, ok t l -> (2 * length l + 1 <= n)%nat ->
  T (snd (a_body cf t n c l)) m -> exists k r, spot cf k l r /\ complaint cf t k r m.
Proof.
  intros n c l m O L H. unfold a_body in H.
  destruct (sm_all n) as (P & _ & _). specialize (P c l m O L).
  destruct (a_parse cf t n c None l) as [v o] eqn:E. cbn [snd] in *. apply T_bind in H.
  destruct H as [H|(l1 & -> & H)].
  { destruct (P H) as [X|(k & r & In & K)].
    - destruct (halts_complaint _ _ _ X) as (g & r & -> & G & C). exists KVal, r. split; [apply st_start; assumption|assumption].
    - exists k, r. split; [apply st_in; assumption|assumption]. }
  apply parse_iff in E; [|assumption|assumption|assumption]. destruct E as [V O1].
  assert (After : halts KEnd l1 m -> exists k r, spot cf k l r /\ complaint cf t k r m).
  { intro X. destruct (halts_complaint _ _ _ X) as (g & r & -> & G & C). exists KEnd, r. split; [eapply st_end; eassumption|assumption]. }
  apply T_bind in H. destruct H as [H|([x l2] & S & H)].
  - apply After, scan_halts; assumption.
  - cbn [fst] in H. apply After.
    destruct (allowed KEnd x) eqn:A.
    + destruct x as [x| |]; try discriminate A. destruct x; try discriminate A. apply T_ret in H. contradiction.
    + replace m with (says KEnd x); [eapply token_halts; eassumption|].
      destruct x as [x| |]; [destruct x|..]; try discriminate A; apply T_fail in H; symmetry; exact H.
Qed.

(** ** Completeness *)

Definition c_in (k : kind) (l r : list N) : Prop := forall m, complaint cf t k r m ->
  ok t l /\ (exists x l1, a_scan cf t l = Ret (x, l1) /\ a_starts x = true) /\
  forall n v, (2 * length l + 1 <= n)%nat -> T (snd (a_parse cf t n v None l)) m.
Definition c_e (k : kind) (l r : list N) : Prop := forall m, complaint cf t k r m ->
  ok t l /\ forall n vs, (2 * length l + 2 <= n)%nat -> T (arr_end (snd (a_arr cf t n vs l))) m.
Definition c_m (k : kind) (l r : list N) : Prop := forall m, complaint cf t k r m ->
  ok t l /\ forall n o, (2 * length l + 2 <= n)%nat -> T (obj_end (snd (a_obj cf t n o l))) m.

Lemma halts_string : forall l r m n, ok t l -> a_scan cf t l = Ret (AT Tstring, r) -> bad_string (tgt_enc cf) (tgt_ck cf) t r m ->
  (length l <= n)%nat -> T (snd (a_get_string cf t n r)) m.
Proof.
  intros l r m n O E B L. apply a_scan_len in E. destruct E as [E _]. apply bad_string_T; [assumption|assumption|lia].
Qed.

Lemma halts_val : forall l m, halts KVal l m -> forall n v, (2 * length l + 1 <= n)%nat -> T (snd (a_parse cf t n v None l)) m.
Proof.
  intros l m [O H] n v L. destruct n as [|n]; [lia|]. cbn [a_parse]. destruct H as [H|(x & r & E & H)].
  - unfold T in H. rewrite H. reflexivity.
  - rewrite E. destruct H as [[A ->]|(-> & A & B)].
    + destruct x as [x| |]; try discriminate A; destruct x; try discriminate A; reflexivity.
    + pose proof (halts_string l r m (Datatypes.S n) O E B ltac:(lia)) as G.
      destruct (a_get_string cf t (Datatypes.S n) r). exact G.
Qed.

Lemma msg_in : forall k l r, in_spot cf k l r -> c_in k l r.
Proof.
  apply (in_spot_mut cf c_in c_e c_m).
  - intros k l l1 r B _ IH m C. destruct (IH m C) as [O1 IHa].
    pose proof (scan_c cf t _ _ _ _ B (ta_larr cf l1) O1) as Sc.
    split; [eapply ok_blank; [exact B|apply ok_cons]|]. split; [eauto|]. intros n v L. destruct n as [|n]; [lia|].
    pose proof (blank_len _ _ B) as Bl. cbn [length] in Bl. cbn [a_parse]. rewrite Sc.
    specialize (IHa n [] ltac:(lia)). destruct (a_arr cf t n [] l1). exact IHa.
  - intros k l l1 r B _ IH m C. destruct (IH m C) as [O1 IHo].
    pose proof (scan_c cf t _ _ _ _ B (ta_lobj cf l1) O1) as Sc.
    split; [eapply ok_blank; [exact B|apply ok_cons]|]. split; [eauto|]. intros n v L. destruct n as [|n]; [lia|].
    pose proof (blank_len _ _ B) as Bl. cbn [length] in Bl. cbn [a_parse]. rewrite Sc.
    specialize (IHo n [] ltac:(lia)). destruct (a_obj cf t n [] l1). exact IHo.
  - (* es_here *)
    intros g r G m C. pose proof (complaint_gap _ _ _ _ G C) as [O H]. split; [assumption|].
    intros n vs L. destruct n as [|n]; [lia|]. cbn [a_arr]. destruct H as [H|(x & r' & E & H)].
    + unfold T in H. rewrite H. reflexivity.
    + rewrite E. destruct H as [[A ->]|(-> & A & B)].
      * cbn [allowed] in A. apply Bool.orb_false_iff in A. destruct A as [A1 A2]. rewrite A1. cbn [snd].
        destruct x as [x| |]; [destruct x|..]; try discriminate A2; reflexivity.
      * cbn [a_starts starts_value]. destruct n as [|n]; [lia|]. cbn [a_parse].
        pose proof (halts_string _ r' m (Datatypes.S n) O E B ltac:(lia)) as G'.
        destruct (a_get_string cf t (Datatypes.S n) r') as [s o]. cbn [snd] in *. unfold T in G'. rewrite G'. reflexivity.
  - (* es_in *)
    intros k l r _ IH m C. destruct (IH m C) as (O & (x & l1 & Sc & Es) & IHp). split; [assumption|].
    intros n vs L. destruct n as [|n]; [lia|].
    cbn [a_arr]. specialize (IHp n VNull ltac:(lia)). rewrite Sc, Es.
    assert (PN : a_parse cf t n VNull (Some x) l1 = a_parse cf t n VNull None l).
    { destruct n; [reflexivity|]. cbn [a_parse]. rewrite Sc. reflexivity. }
    rewrite PN. destruct (a_parse cf t n VNull None l) as [v o]. cbn [snd] in IHp. unfold T in IHp. rewrite IHp. reflexivity.
  - (* es_after *)
    intros l v g r V G m C. pose proof (complaint_gap _ _ _ _ G C) as [O1 H].
    destruct (complete_val cf t Hok l v _ V O1) as [Ll P].
    split; [eapply ok_mono; [exact O1|lia]|]. intros n vs L. destruct n as [|n]; [lia|]. cbn [a_arr].
    destruct (parse_scan cf t n VNull l v _ (P n VNull ltac:(lia))) as (x & lk & Sc & Es & Pk).
    rewrite Sc, Es, Pk. destruct H as [H|(y & r' & E & H)].
    + unfold T in H. rewrite H. reflexivity.
    + rewrite E. destruct H as [[A ->]|(-> & A & B)]; [|discriminate A].
      destruct y as [y| |]; [destruct y|..]; try discriminate A; reflexivity.
  - (* es_next *)
    intros k l v l1 l2 r V B _ IH m C. destruct (IH m C) as [O2 IHa].
    assert (O1 : ok t l1) by (eapply ok_blank; [exact B|apply ok_cons]).
    destruct (complete_val cf t Hok l v l1 V O1) as [Ll P].
    pose proof (blank_len _ _ B) as Bl. cbn [length] in Bl.
    split; [eapply ok_mono; [exact O1|lia]|]. intros n vs L. destruct n as [|n]; [lia|]. cbn [a_arr].
    destruct (parse_scan cf t n VNull l v l1 (P n VNull ltac:(lia))) as (x & lk & Sc & Es & Pk).
    rewrite Sc, Es, Pk. rewrite (scan_c cf t _ _ _ _ B (ta_comma cf l2) O2). apply IHa. lia.
  - (* ms_here *)
    intros g r G m C. pose proof (complaint_gap _ _ _ _ G C) as [O H]. split; [assumption|].
    intros n o L. destruct n as [|n]; [lia|]. cbn [a_obj]. destruct H as [H|(x & r' & E & H)].
    + unfold T in H. rewrite H. reflexivity.
    + rewrite E. destruct H as [[A ->]|(-> & A & B)].
      * destruct x as [x| |]; [destruct x|..]; try discriminate A; reflexivity.
      * pose proof (halts_string _ r' m (Datatypes.S n) O E B ltac:(lia)) as G'.
        destruct (a_get_string cf t (Datatypes.S n) r') as [s oo]. cbn [snd] in G'. unfold T in G'. rewrite G'. reflexivity.
  - (* ms_colon *)
    intros l l1 s g r B Sl G m C. pose proof (complaint_gap _ _ _ _ G C) as [O2 H].
    destruct (strlit_start cf _ _ _ _ _ Sl) as (l5 & -> & Ll).
    pose proof (blank_len _ _ B) as Bl.
    split; [eapply ok_mono; [exact O2|lia]|]. intros n o L. destruct n as [|n]; [lia|].
    rewrite (obj_key cf t Hok n o l (34 :: l5) s _ B Sl O2) by (unfold need; lia). unfold after_key.
    destruct H as [H|(y & r' & E & H)].
    + unfold T in H. rewrite H. reflexivity.
    + rewrite E. destruct H as [[A ->]|(-> & A & _)]; [|discriminate A].
      destruct y as [y| |]; [destruct y|..]; try discriminate A; reflexivity.
  - (* ms_val *)
    intros l l1 s l2 g r B Sl B2 G m C. pose proof (complaint_gap _ _ _ _ G C) as H. pose proof (proj1 H) as O3.
    assert (O2 : ok t l2) by (eapply ok_blank; [exact B2|apply ok_cons]).
    destruct (strlit_start cf _ _ _ _ _ Sl) as (l5 & -> & Ll).
    pose proof (blank_len _ _ B) as Bl. pose proof (blank_len _ _ B2) as Bl2. cbn [length] in *.
    split; [eapply ok_mono; [exact O2|lia]|]. intros n o L. destruct n as [|n]; [lia|].
    rewrite (obj_key cf t Hok n o l (34 :: l5) s _ B Sl O2) by (unfold need; lia). unfold after_key.
    rewrite (scan_c cf t _ _ _ _ B2 (ta_colon cf _) O3).
    pose proof (halts_val _ _ H n VNull ltac:(lia)) as HP.
    destruct (a_parse cf t n VNull None (g ++ r)) as [v oo]. cbn [snd] in HP. unfold T in HP. rewrite HP. reflexivity.
  - (* ms_in *)
    intros k l l1 s l2 l3 r B Sl B2 _ IH m C. destruct (IH m C) as (O3 & _ & IHp).
    assert (O2 : ok t l2) by (eapply ok_blank; [exact B2|apply ok_cons]).
    destruct (strlit_start cf _ _ _ _ _ Sl) as (l5 & -> & Ll).
    pose proof (blank_len _ _ B) as Bl. pose proof (blank_len _ _ B2) as Bl2. cbn [length] in *.
    split; [eapply ok_mono; [exact O2|lia]|]. intros n o L. destruct n as [|n]; [lia|].
    rewrite (obj_key cf t Hok n o l (34 :: l5) s _ B Sl O2) by (unfold need; lia). unfold after_key.
    rewrite (scan_c cf t _ _ _ _ B2 (ta_colon cf _) O3).
    specialize (IHp n VNull ltac:(lia)). destruct (a_parse cf t n VNull None l3) as [v oo]. cbn [snd] in IHp. unfold T in IHp. rewrite IHp. reflexivity.
  - (* ms_after *)
    intros l l1 s l2 l3 v g r B Sl B2 V G m C. pose proof (complaint_gap _ _ _ _ G C) as [O4 H].
    destruct (complete_val cf t Hok l3 v _ V O4) as [Lv P].
    assert (O3 : ok t l3) by (eapply ok_mono; [exact O4|lia]).
    assert (O2 : ok t l2) by (eapply ok_blank; [exact B2|apply ok_cons]).
    destruct (strlit_start cf _ _ _ _ _ Sl) as (l5 & -> & Ll).
    pose proof (blank_len _ _ B) as Bl. pose proof (blank_len _ _ B2) as Bl2. cbn [length] in *.
    split; [eapply ok_mono; [exact O2|lia]|]. intros n o L. destruct n as [|n]; [lia|].
    rewrite (obj_key cf t Hok n o l (34 :: l5) s _ B Sl O2) by (unfold need; lia). unfold after_key.
    rewrite (scan_c cf t _ _ _ _ B2 (ta_colon cf _) O3). rewrite P by lia. unfold after_mem.
    destruct H as [H|(y & r' & E & H)].
    + unfold T in H. rewrite H. reflexivity.
    + rewrite E. destruct H as [[A ->]|(-> & A & _)]; [|discriminate A].
      destruct y as [y| |]; [destruct y|..]; try discriminate A; reflexivity.
  - (* ms_next *)
    intros k l l1 s l2 l3 v l4 l6 r B Sl B2 V B3 _ IH m C. destruct (IH m C) as [O6 IHo].
    assert (O4 : ok t l4) by (eapply ok_blank; [exact B3|apply ok_cons]).
    destruct (complete_val cf t Hok l3 v l4 V O4) as [Lv P].
    assert (O3 : ok t l3) by (eapply ok_mono; [exact O4|lia]).
    assert (O2 : ok t l2) by (eapply ok_blank; [exact B2|apply ok_cons]).
    destruct (strlit_start cf _ _ _ _ _ Sl) as (l5 & -> & Ll).
    pose proof (blank_len _ _ B) as Bl. pose proof (blank_len _ _ B2) as Bl2. pose proof (blank_len _ _ B3) as Bl3. cbn [length] in *.
    split; [eapply ok_mono; [exact O2|lia]|]. intros n o L. destruct n as [|n]; [lia|].
    rewrite (obj_key cf t Hok n o l (34 :: l5) s _ B Sl O2) by (unfold need; lia). unfold after_key.
    rewrite (scan_c cf t _ _ _ _ B2 (ta_colon cf _) O3). rewrite P by lia. unfold after_mem.
    rewrite (scan_c cf t _ _ _ _ B3 (ta_comma cf l6) O6). apply IHo. lia.
Qed.

Lemma msg_body : forall k l r m n c, spot cf k l r -> complaint cf t k r m -> (2 * length l + 1 <= n)%nat ->
  ok t l /\ T (snd (a_body cf t n c l)) m.
Proof.
  intros k l r m n c S C L. unfold a_body. destruct S as [g r G|k l r In|l w g r V G].
  - pose proof (complaint_gap _ _ _ _ G C) as H. split; [apply H|].
    pose proof (halts_val _ _ H n c L) as HP. destruct (a_parse cf t n c None (g ++ r)) as [v o]. cbn [snd] in *. unfold T in HP. rewrite HP. reflexivity.
  - destruct (msg_in k l r In m C) as (O & _ & HP). split; [assumption|]. specialize (HP n c L).
    destruct (a_parse cf t n c None l) as [v o]. cbn [snd] in *. unfold T in HP. rewrite HP. reflexivity.
  - pose proof (complaint_gap _ _ _ _ G C) as [O1 H].
    destruct (complete_val cf t Hok l w _ V O1) as [Ll P]. split; [eapply ok_mono; [exact O1|lia]|]. rewrite P by assumption. cbn [snd bind].
    destruct H as [H|(y & r' & E & H)].
    + unfold T in H. rewrite H. reflexivity.
    + rewrite E. cbn [bind fst]. destruct H as [[A ->]|(-> & A & _)]; [|discriminate A].
      destruct y as [y| |]; [destruct y|..]; try discriminate A; reflexivity.
Qed.

(** the whole of the parser *)
Lemma body_message : forall n c l m, ok t l -> (2 * length l + 1 <= n)%nat ->
  (T (snd (a_body cf t n c l)) m <-> objection cf t l m).
Proof.
  intros n c l m O L. split.
  - intro H. apply sm_body in H; [|assumption|assumption]. destruct H as (k & r & S & C). eapply ob_at; eassumption.
  - intro H. destruct H as [m U ->|k r m S C].
    + exfalso. eapply undec_ok; [exact U|exact O|reflexivity].
    + eapply msg_body; eassumption.
Qed.
End Msg.
