(** Assertion failures and overflows happen only at token positions, and
    whatever goes wrong at a token position decides the outcome. *)
From Coq Require Import Lia ZifyBool ZifyNat ZifyN Floats.SpecFloat.
From Verif Require Import Base Stream Encoding Value Token Message Parser EncodingProofs Feeds ListMachine Simulation SimParse
  SpecUnicode SpecGrammar GrammarLex GrammarTok ObjFacts GrammarProofs SpecPos PosProofs.

Scheme inside_mut := Minimality for inside Sort Prop
  with epos_mut := Minimality for epos Sort Prop
  with mpos_mut := Minimality for mpos Sort Prop.

Definition arr_end (o : outcome (atok * list N)) : outcome (list N) :=
  match o with
  | Ret (AT Tend_arr, l) => Ret l
  | Ret (k, _) => fail (expect_msg (tok_of k) Tend_arr)
  | r => stop r
  end.
Definition obj_end (o : outcome (atok * list N)) : outcome (list N) :=
  match o with
  | Ret (AT Tend_obj, l) => Ret l
  | Ret (k, _) => fail (expect_msg (tok_of k) Tend_obj)
  | r => stop r
  end.

Lemma isX_arr_end : forall b o, isX b (arr_end o) -> isX b o.
Proof. intros b [[[k| |] l]| | | |] H; cbn in *; auto; try (destruct k; exact H). Qed.
Lemma isX_obj_end : forall b o, isX b (obj_end o) -> isX b o.
Proof. intros b [[[k| |] l]| | | |] H; cbn in *; auto; try (destruct k; exact H). Qed.

(** what may follow, in terms of tokens *)
Definition allowed (k : kind) (x : atok) : bool :=
  match k with
  | KVal => a_starts x
  | KElem => a_starts x || match x with AT Tend_arr => true | _ => false end
  | KAfterElem => match x with AT Tval_sep | AT Tend_arr => true | _ => false end
  | KKey => match x with AT Tstring | AT Tend_obj => true | _ => false end
  | KColon => match x with AT Tname_sep | AT Tend_obj => true | _ => false end
  | KAfterMem => match x with AT Tval_sep | AT Tend_obj => true | _ => false end
  | KEnd => match x with AT Teoi => true | _ => false end
  end.

Inductive oc := OErr | OX (b : bool).
Definition hasc (c : oc) {A} (o : outcome A) : Prop :=
  match c with OErr => exists m, o = Throw (EDeser m) | OX b => isX b o end.

(** a token that may not stand here, or a string that cannot be read *)
Definition wrong (cf : pcfg) (t : term) (k : kind) (x : atok) (r : list N) : Prop :=
  allowed k x = false \/
  (x = AT Tstring /\ forall n, (length r <= n)%nat -> exists m, snd (a_get_string cf t n r) = Throw (EDeser m)).

Definition stuck (cf : pcfg) (t : term) (c : oc) (k : kind) (r : list N) : Prop :=
  ok t r /\
  (hasc c (a_scan_tok cf t r) \/
   (c = OErr /\ exists x r', a_scan_tok cf t r = Ret (x, r') /\ wrong cf t k x r')).

Lemma hasc_stop : forall c A B (o : outcome A), hasc c o -> hasc c (@stop A B o).
Proof. intros [|b] A B o H; cbn in *; [destruct H as [m ->]; cbn; eauto|]. destruct o; cbn in *; tauto. Qed.

Lemma hasc_not_ret : forall c A (a : A), ~ hasc c (Ret a).
Proof. intros [|b] A a H; cbn in H; [destruct H as [m H]; discriminate|exact H]. Qed.

Section Pos.
Variables (cf : pcfg) (t : term).
Hypothesis Hok : enc_ok (tgt_enc cf) (tgt_ck cf) = true.

(** ** Soundness *)

Definition sx_parse (b : bool) n := forall c tok l l0, start cf t l0 tok l -> (flen tok l <= n)%nat ->
  isX b (snd (a_parse cf t n c tok l)) ->
  (tok = None /\ exists r, blank l0 r /\ badtok b cf t r) \/ (exists k r, inside cf k l0 r /\ badtok b cf t r).
Definition sx_arr (b : bool) n := forall vs l, ok t l -> (2 * length l + 2 <= n)%nat ->
  isX b (snd (a_arr cf t n vs l)) -> exists k r, epos cf k l r /\ badtok b cf t r.
Definition sx_obj (b : bool) n := forall m l, ok t l -> (2 * length l + 2 <= n)%nat ->
  isX b (snd (a_obj cf t n m l)) -> exists k r, mpos cf k l r /\ badtok b cf t r.

Lemma sx_all : forall b n, sx_parse b n /\ sx_arr b n /\ sx_obj b n.
Proof.
  intro b. induction n as [|n (IHp & IHa & IHo)].
  { repeat split; repeat intro; contradiction. }
  split; [|split].
  - intros c tok l l0 St Fl H. cbn [a_parse] in H.
    assert (X : (tok = None /\ exists r, blank l0 r /\ badtok b cf t r) \/
       exists k l1 l2, (match tok with None => a_scan cf t l | Some k => Ret (k, l) end) = Ret (k, l1) /\
       blank l0 l2 /\ tok_at cf l2 k l1 /\ ok t l1 /\
       (2 * length l1 + 1 <= S n)%nat /\ (eats k = true -> (2 * length l1 + 3 <= S n)%nat)).
    { destruct tok as [k|]; unfold flen in Fl; cbn [start] in *.
      - right. destruct St as [O (l1 & B & T)]. exists k, l, l1. repeat split; auto; lia.
      - destruct St as [-> O]. destruct (a_scan cf t l0) as [[k l1]| | | |] eqn:E.
        + pose proof E as E'. apply scan_iff in E; [|assumption]. destruct E as (l2 & B & T & O1).
          apply a_scan_len in E'. destruct E' as [L1 L2]. right.
          exists k, l1, l2. repeat split; auto; [lia|]. intro K. specialize (L2 K). lia.
        + contradiction.
        + left. split; [reflexivity|]. pose proof (proj1 (scan_x b cf t l0 O)) as P. rewrite E in P.
          destruct (P H) as (r & B & _ & K). eauto.
        + left. split; [reflexivity|]. pose proof (proj1 (scan_x b cf t l0 O)) as P. rewrite E in P.
          destruct (P H) as (r & B & _ & K). eauto.
        + contradiction. }
    destruct X as [X|(k & l1 & l2 & E & B & T & O & L1 & L2)]; [left; assumption|]. right.
    rewrite E in H. clear E Fl St.
    destruct k as [k|z|f]; [|contradiction..].
    apply tok_none in T. destruct k; try contradiction.
    + exfalso. pose proof (nox_get_string b cf t (S n) l1) as P.
      destruct (a_get_string cf t (S n) l1). exact (P H).
    + subst l2. specialize (L2 eq_refl). pose proof (IHa [] l1 O ltac:(lia)) as P.
      destruct (a_arr cf t n [] l1) as [vs o]. cbn [snd] in H, P.
      destruct P as (k & r & Ep & K); [apply isX_arr_end; exact H|].
      exists k, r. split; [eapply in_arr; eassumption|assumption].
    + subst l2. specialize (L2 eq_refl). pose proof (IHo [] l1 O ltac:(lia)) as P.
      destruct (a_obj cf t n [] l1) as [vs o]. cbn [snd] in H, P.
      destruct P as (k & r & Ep & K); [apply isX_obj_end; exact H|].
      exists k, r. split; [eapply in_obj; eassumption|assumption].
  - intros vs l O L H. cbn [a_arr] in H.
    destruct (a_scan cf t l) as [[k l1]| | | |] eqn:E; try contradiction.
    2,3: pose proof (proj1 (scan_x b cf t l O)) as P; rewrite E in P; destruct (P H) as (r & B & _ & K);
         exists KElem, r; split; [apply ep_here; assumption|assumption].
    pose proof E as E'. apply a_scan_len in E'. destruct E' as [L1 L2].
    pose proof E as Sc. apply scan_iff in E; [|assumption]. destruct E as (l2 & B & T & O1).
    destruct (a_starts k) eqn:Es; [|contradiction].
    (* a value parsed after its first token is a value parsed from the text *)
    assert (PN : a_parse cf t n VNull (Some k) l1 = a_parse cf t n VNull None l).
    { destruct n; [reflexivity|]. cbn [a_parse]. rewrite Sc. reflexivity. }
    destruct (a_parse cf t n VNull (Some k) l1) as [v o] eqn:Ep.
    destruct o as [l3| | | |]; try contradiction.
    + pose proof (parse_len_none cf t n VNull l v l3 (eq_sym PN)) as Lp.
      destruct (sound_all cf t Hok n) as (SP & _ & _).
      destruct (SP VNull None l l v l3 (conj eq_refl O) ltac:(unfold flen; lia) (eq_sym PN)) as [V O3].
      destruct (a_scan cf t l3) as [[k2 l4]| | | |] eqn:E2; try contradiction.
      2,3: pose proof (proj1 (scan_x b cf t l3 O3)) as P; rewrite E2 in P; destruct (P H) as (r & B2 & _ & K);
           exists KAfterElem, r; split; [eapply ep_after; eassumption|assumption].
      pose proof E2 as E2'. apply a_scan_len in E2'. destruct E2' as [L3 _].
      apply scan_iff in E2; [|assumption]. destruct E2 as (l5 & B2 & T2 & O4).
      destruct k2 as [k2| |]; try contradiction. destruct k2; try contradiction.
      apply tok_none in T2. subst l5. apply IHa in H; [|assumption|lia].
      destruct H as (k' & r & Ep' & K). exists k', r. split; [eapply ep_next; eassumption|assumption].
    + assert (H' : isX b (snd (a_parse cf t n VNull None l))) by (rewrite <- PN; exact H).
      destruct n as [|m]; [discriminate Ep|].
      (* the token was scanned, so the failure is inside *)
      assert (Q : exists k r, inside cf k l r /\ badtok b cf t r).
      { destruct (IHp VNull None l l (conj eq_refl O) ltac:(unfold flen; lia) H') as [(_ & r & Br & K)|Q]; [|assumption].
        exfalso. assert (X : isX b (a_scan cf t l)).
        { apply scan_x; [assumption|]. exists r. split; [assumption|]. split; [eapply badtok_ok; exact K|assumption]. }
        rewrite Sc in X. exact X. }
      destruct Q as (k' & r & In & K). exists k', r. split; [apply ep_in; assumption|assumption].
    + assert (H' : isX b (snd (a_parse cf t n VNull None l))) by (rewrite <- PN; exact H).
      destruct n as [|m]; [discriminate Ep|].
      assert (Q : exists k r, inside cf k l r /\ badtok b cf t r).
      { destruct (IHp VNull None l l (conj eq_refl O) ltac:(unfold flen; lia) H') as [(_ & r & Br & K)|Q]; [|assumption].
        exfalso. assert (X : isX b (a_scan cf t l)).
        { apply scan_x; [assumption|]. exists r. split; [assumption|]. split; [eapply badtok_ok; exact K|assumption]. }
        rewrite Sc in X. exact X. }
      destruct Q as (k' & r & In & K). exists k', r. split; [apply ep_in; assumption|assumption].
  - intros m l O L H. cbn [a_obj] in H.
    destruct (a_scan cf t l) as [[k l1]| | | |] eqn:E; try contradiction.
    2,3: pose proof (proj1 (scan_x b cf t l O)) as P; rewrite E in P; destruct (P H) as (r & B & _ & K);
         exists KKey, r; split; [apply mp_here; assumption|assumption].
    pose proof E as E'. apply a_scan_len in E'. destruct E' as [L1 L2].
    apply scan_iff in E; [|assumption]. destruct E as (l2 & B & T & O1).
    destruct k as [k| |]; try contradiction. destruct k; try contradiction.
    apply tok_none in T. destruct T as [-> (l3 & ->)].
    pose proof (nox_get_string b cf t (S n) (34 :: l3)) as Ng.
    destruct (a_get_string cf t (S n) (34 :: l3)) as [key o] eqn:Es. cbn [snd] in Ng.
    destruct o as [l4| | | |]; try contradiction; try (exfalso; exact (Ng H)).
    pose proof Es as Es'. apply a_get_string_len in Es'.
    apply get_string_iff in Es; [|assumption|cbn [length] in *; lia]. destruct Es as [Sl O4].
    destruct (a_scan cf t l4) as [[k2 l5]| | | |] eqn:E2; try contradiction.
    2,3: pose proof (proj1 (scan_x b cf t l4 O4)) as P; rewrite E2 in P; destruct (P H) as (r & B2 & _ & K);
         exists KColon, r; split; [eapply mp_colon; eassumption|assumption].
    pose proof E2 as E2'. apply a_scan_len in E2'. destruct E2' as [L3 _].
    apply scan_iff in E2; [|assumption]. destruct E2 as (l6 & B2 & T2 & O5).
    destruct k2 as [k2| |]; try contradiction. destruct k2; try contradiction.
    apply tok_none in T2. subst l6.
    pose proof (IHp VNull None l5 l5 (conj eq_refl O5) ltac:(unfold flen; lia)) as P.
    destruct (a_parse cf t n VNull None l5) as [v o] eqn:Ep. cbn [snd] in P.
    destruct o as [l7| | | |]; try contradiction.
    2,3: destruct (P H) as [(_ & r & Br & K)|(k' & r & In & K)];
         [exists KVal, r; split; [eapply mp_val; eassumption|assumption]
         |exists k', r; split; [eapply mp_in; eassumption|assumption]].
    pose proof Ep as Ep'. apply parse_len_none in Ep'.
    destruct (sound_all cf t Hok n) as (SP & _ & _).
    destruct (SP VNull None l5 l5 v l7 (conj eq_refl O5) ltac:(unfold flen; lia) Ep) as [V O7].
    destruct (a_scan cf t l7) as [[k3 l8]| | | |] eqn:E3; try contradiction.
    2,3: pose proof (proj1 (scan_x b cf t l7 O7)) as P3; rewrite E3 in P3; destruct (P3 H) as (r & B3 & _ & K);
         exists KAfterMem, r; split; [eapply mp_after; eassumption|assumption].
    pose proof E3 as E3'. apply a_scan_len in E3'. destruct E3' as [L4 _].
    apply scan_iff in E3; [|assumption]. destruct E3 as (l9 & B3 & T3 & O8).
    destruct k3 as [k3| |]; try contradiction. destruct k3; try contradiction.
    apply tok_none in T3. subst l9. apply IHo in H; [|assumption|lia].
    destruct H as (k' & r & Mp & K). exists k', r. split; [eapply mp_next; eassumption|assumption].
Qed.

Lemma sx_body : forall b n c l, ok t l -> (2 * length l + 1 <= n)%nat ->
  isX b (snd (a_body cf t n c l)) -> exists k r, pos cf k l r /\ badtok b cf t r.
Proof.
  intros b n c l O L H. unfold a_body in H.
  destruct (sx_all b n) as (P & _ & _). specialize (P c None l l (conj eq_refl O) ltac:(unfold flen; lia)).
  destruct (a_parse cf t n c None l) as [v o] eqn:E. cbn [snd] in *. apply isX_bind in H.
  destruct H as [H|(l1 & -> & H)].
  { destruct (P H) as [(_ & r & B & K)|(k & r & In & K)].
    - exists KVal, r. split; [apply ps_start; assumption|assumption].
    - exists k, r. split; [apply ps_in; assumption|assumption]. }
  apply parse_iff in E; [|assumption|assumption|assumption]. destruct E as [V O1].
  apply isX_bind in H. destruct H as [H|([k l2] & S & H)].
  - apply scan_x in H; [|assumption]. destruct H as (r & B & _ & K).
    exists KEnd, r. split; [eapply ps_end; eassumption|assumption].
  - cbn [fst] in H. destruct k as [k| |]; [destruct k|..]; contradiction.
Qed.

(** ** Completeness *)

Lemma scan_stuck : forall c k l r, blank l r -> stuck cf t c k r ->
  hasc c (a_scan cf t l) \/ (c = OErr /\ exists x r', a_scan cf t l = Ret (x, r') /\ wrong cf t k x r' /\
    (x = AT Tstring -> r' = r)).
Proof.
  intros c k l r B [O S]. unfold a_scan. rewrite (skip_complete t l r B O). cbn [bind].
  destruct S as [S|(-> & x & r' & E & W)]; [left; assumption|]. right. split; [reflexivity|]. exists x, r'.
  split; [assumption|]. split; [assumption|]. intros ->.
  apply scan_tok_iff in E; [|assumption]. destruct E as [E _]. inversion E; subst; try reflexivity; discriminate.
Qed.

(** reading a string that cannot be read *)
Lemma wrong_string : forall k l r, blank l r -> wrong cf t k (AT Tstring) r -> allowed k (AT Tstring) = true ->
  forall n, (length l <= n)%nat -> exists s m, a_get_string cf t n r = (s, Throw (EDeser m)).
Proof.
  intros k l r B [A|[_ W]] A' n L; [congruence|]. apply blank_len in B.
  destruct (W n ltac:(lia)) as [m E]. destruct (a_get_string cf t n r) as [s o]. cbn [snd] in E. subst. eauto.
Qed.

Definition k_inside (k : kind) (l r : list N) : Prop := forall c, stuck cf t c k r ->
  ok t l /\ (exists x l1, a_scan cf t l = Ret (x, l1) /\ a_starts x = true) /\
  forall n v, (2 * length l + 1 <= n)%nat -> hasc c (snd (a_parse cf t n v None l)).
Definition k_epos (k : kind) (l r : list N) : Prop := forall c, stuck cf t c k r ->
  ok t l /\ forall n vs, (2 * length l + 2 <= n)%nat -> hasc c (arr_end (snd (a_arr cf t n vs l))).
Definition k_mpos (k : kind) (l r : list N) : Prop := forall c, stuck cf t c k r ->
  ok t l /\ forall n m, (2 * length l + 2 <= n)%nat -> hasc c (obj_end (snd (a_obj cf t n m l))).

Ltac err := eexists; reflexivity.
Ltac noret H := exfalso; eapply hasc_not_ret; exact H.
(** an outcome of the wanted class passes through *)
Ltac pass o H := destruct o; [noret H|exact (hasc_stop _ _ _ _ H)..].

Lemma pos_complete : forall k l r, inside cf k l r -> k_inside k l r.
Proof.
  apply (inside_mut cf k_inside k_epos k_mpos).
  - intros k l l1 r B _ IH c S. destruct (IH c S) as [O1 IHa].
    pose proof (scan_c cf t _ _ _ _ B (ta_larr cf l1) O1) as Sc.
    split; [eapply ok_blank; [exact B|apply ok_cons]|]. split; [eauto|]. intros n v L. destruct n as [|n]; [lia|].
    pose proof (blank_len _ _ B) as Bl. cbn [length] in Bl. cbn [a_parse]. rewrite Sc.
    specialize (IHa n [] ltac:(lia)). destruct (a_arr cf t n [] l1). exact IHa.
  - intros k l l1 r B _ IH c S. destruct (IH c S) as [O1 IHo].
    pose proof (scan_c cf t _ _ _ _ B (ta_lobj cf l1) O1) as Sc.
    split; [eapply ok_blank; [exact B|apply ok_cons]|]. split; [eauto|]. intros n v L. destruct n as [|n]; [lia|].
    pose proof (blank_len _ _ B) as Bl. cbn [length] in Bl. cbn [a_parse]. rewrite Sc.
    specialize (IHo n [] ltac:(lia)). destruct (a_obj cf t n [] l1). exact IHo.
  - (* ep_here *)
    intros l r B c S. split; [eapply ok_blank; [exact B|apply S]|]. intros n vs L. destruct n as [|n]; [lia|].
    cbn [a_arr]. destruct (scan_stuck c KElem l r B S) as [H|(-> & x & r' & E & A & Rs)].
    + pass (a_scan cf t l) H.
    + rewrite E. destruct (a_starts x) eqn:A1.
      * destruct A as [A|[-> W]]; [cbn [allowed] in A; rewrite A1 in A; discriminate|]. rewrite (Rs eq_refl) in *.
        destruct n as [|n]; [lia|]. cbn [a_parse].
        destruct (wrong_string KElem l r B (or_intror (conj eq_refl W)) eq_refl (Datatypes.S n) ltac:(lia)) as (s & m & G).
        rewrite G. err.
      * cbn [snd]. destruct A as [A|[-> _]]; [|discriminate]. cbn [allowed] in A. rewrite A1 in A. cbn [orb] in A.
        destruct x as [x| |]; try discriminate. destruct x; try discriminate; err.
  - (* ep_in *)
    intros k l r _ IH c S. destruct (IH c S) as (O & (x & l1 & Sc & Es) & IHp). split; [assumption|].
    intros n vs L. destruct n as [|n]; [lia|].
    cbn [a_arr]. specialize (IHp n VNull ltac:(lia)). rewrite Sc, Es.
    assert (PN : a_parse cf t n VNull (Some x) l1 = a_parse cf t n VNull None l).
    { destruct n; [reflexivity|]. cbn [a_parse]. rewrite Sc. reflexivity. }
    rewrite PN. destruct (a_parse cf t n VNull None l) as [v o]. cbn [snd] in IHp. pass o IHp.
  - (* ep_after *)
    intros l v l1 r V B c S.
    assert (O1 : ok t l1) by (eapply ok_blank; [exact B|apply S]).
    destruct (complete_val cf t Hok l v l1 V O1) as [Ll P].
    split; [eapply ok_mono; [exact O1|lia]|]. intros n vs L. destruct n as [|n]; [lia|]. cbn [a_arr].
    destruct (parse_scan cf t n VNull l v l1 (P n VNull ltac:(lia))) as (x & lk & Sc & Es & Pk).
    rewrite Sc, Es, Pk. destruct (scan_stuck c KAfterElem l1 r B S) as [H|(-> & y & r' & E & A & Rs)].
    + pass (a_scan cf t l1) H.
    + rewrite E. destruct A as [A|[-> _]]; [|err]. destruct y as [y| |]; try discriminate; [destruct y; try discriminate|..]; err.
  - (* ep_next *)
    intros k l v l1 l2 r V B _ IH c S. destruct (IH c S) as [O2 IHa].
    assert (O1 : ok t l1) by (eapply ok_blank; [exact B|apply ok_cons]).
    destruct (complete_val cf t Hok l v l1 V O1) as [Ll P].
    pose proof (blank_len _ _ B) as Bl. cbn [length] in Bl.
    split; [eapply ok_mono; [exact O1|lia]|]. intros n vs L. destruct n as [|n]; [lia|]. cbn [a_arr].
    destruct (parse_scan cf t n VNull l v l1 (P n VNull ltac:(lia))) as (x & lk & Sc & Es & Pk).
    rewrite Sc, Es, Pk. rewrite (scan_c cf t _ _ _ _ B (ta_comma cf l2) O2). apply IHa. lia.
  - (* mp_here *)
    intros l r B c S. split; [eapply ok_blank; [exact B|apply S]|]. intros n m L. destruct n as [|n]; [lia|].
    cbn [a_obj]. destruct (scan_stuck c KKey l r B S) as [H|(-> & x & r' & E & A & Rs)].
    + pass (a_scan cf t l) H.
    + rewrite E. destruct A as [A|[-> W]].
      * destruct x as [x| |]; try discriminate; [destruct x; try discriminate|..]; err.
      * rewrite (Rs eq_refl) in *.
        destruct (wrong_string KKey l r B (or_intror (conj eq_refl W)) eq_refl (Datatypes.S n) ltac:(lia)) as (s & m' & G).
        rewrite G. err.
  - (* mp_colon *)
    intros l l1 s l2 r B Sl B2 c S.
    assert (O2 : ok t l2) by (eapply ok_blank; [exact B2|apply S]).
    destruct (strlit_start cf _ _ _ _ _ Sl) as (l5 & -> & Ll).
    pose proof (scan_c cf t _ _ _ _ B (ta_str cf l5) (ok_cons _ _ _)) as Sc. pose proof (blank_len _ _ B) as Bl.
    split; [eapply ok_mono; [exact O2|lia]|]. intros n m L. destruct n as [|n]; [lia|]. cbn [a_obj]. rewrite Sc.
    assert (G : a_get_string cf t (Datatypes.S n) (34 :: l5) = (s, Ret l2)).
    { apply get_string_iff; [assumption|cbn [length] in *; lia|auto]. }
    rewrite G. destruct (scan_stuck c KColon l2 r B2 S) as [H|(-> & y & r' & E & A & Rs)].
    + pass (a_scan cf t l2) H.
    + rewrite E. destruct A as [A|[-> _]]; [|err]. destruct y as [y| |]; try discriminate; [destruct y; try discriminate|..]; err.
  - (* mp_val *)
    intros l l1 s l2 l3 r B Sl B2 B3 c S.
    assert (O3 : ok t l3) by (eapply ok_blank; [exact B3|apply S]).
    assert (O2 : ok t l2) by (eapply ok_blank; [exact B2|apply ok_cons]).
    destruct (strlit_start cf _ _ _ _ _ Sl) as (l5 & -> & Ll).
    pose proof (scan_c cf t _ _ _ _ B (ta_str cf l5) (ok_cons _ _ _)) as Sc. pose proof (blank_len _ _ B) as Bl.
    pose proof (blank_len _ _ B2) as Bl2. cbn [length] in *.
    split; [eapply ok_mono; [exact O2|lia]|]. intros n m L. destruct n as [|n]; [lia|]. cbn [a_obj]. rewrite Sc.
    assert (G : a_get_string cf t (Datatypes.S n) (34 :: l5) = (s, Ret l2)).
    { apply get_string_iff; [assumption|cbn [length] in *; lia|auto]. }
    rewrite G. rewrite (scan_c cf t _ _ _ _ B2 (ta_colon cf l3) O3).
    assert (HP : hasc c (snd (a_parse cf t n VNull None l3))).
    { destruct n as [|n]; [lia|]. cbn [a_parse]. destruct (scan_stuck c KVal l3 r B3 S) as [H|(-> & y & r' & E & A & Rs)].
      - pass (a_scan cf t l3) H.
      - rewrite E. destruct A as [A|[-> W]].
        + destruct y as [y| |]; try discriminate; destruct y; try discriminate; err.
        + rewrite (Rs eq_refl) in *.
          destruct (wrong_string KVal l3 r B3 (or_intror (conj eq_refl W)) eq_refl (Datatypes.S n) ltac:(lia)) as (s' & m' & G').
          rewrite G'. err. }
    destruct (a_parse cf t n VNull None l3) as [v o]. cbn [snd] in HP. pass o HP.
  - (* mp_in *)
    intros k l l1 s l2 l3 r B Sl B2 _ IH c S. destruct (IH c S) as (O3 & _ & IHp).
    assert (O2 : ok t l2) by (eapply ok_blank; [exact B2|apply ok_cons]).
    destruct (strlit_start cf _ _ _ _ _ Sl) as (l5 & -> & Ll).
    pose proof (scan_c cf t _ _ _ _ B (ta_str cf l5) (ok_cons _ _ _)) as Sc. pose proof (blank_len _ _ B) as Bl.
    pose proof (blank_len _ _ B2) as Bl2. cbn [length] in *.
    split; [eapply ok_mono; [exact O2|lia]|]. intros n m L. destruct n as [|n]; [lia|]. cbn [a_obj]. rewrite Sc.
    assert (G : a_get_string cf t (Datatypes.S n) (34 :: l5) = (s, Ret l2)).
    { apply get_string_iff; [assumption|cbn [length] in *; lia|auto]. }
    rewrite G. rewrite (scan_c cf t _ _ _ _ B2 (ta_colon cf l3) O3).
    specialize (IHp n VNull ltac:(lia)). destruct (a_parse cf t n VNull None l3) as [v o]. cbn [snd] in IHp. pass o IHp.
  - (* mp_after *)
    intros l l1 s l2 l3 v l4 r B Sl B2 V B3 c S.
    assert (O4 : ok t l4) by (eapply ok_blank; [exact B3|apply S]).
    destruct (complete_val cf t Hok l3 v l4 V O4) as [Lv P].
    assert (O3 : ok t l3) by (eapply ok_mono; [exact O4|lia]).
    assert (O2 : ok t l2) by (eapply ok_blank; [exact B2|apply ok_cons]).
    destruct (strlit_start cf _ _ _ _ _ Sl) as (l5 & -> & Ll).
    pose proof (scan_c cf t _ _ _ _ B (ta_str cf l5) (ok_cons _ _ _)) as Sc. pose proof (blank_len _ _ B) as Bl.
    pose proof (blank_len _ _ B2) as Bl2. cbn [length] in *.
    split; [eapply ok_mono; [exact O2|lia]|]. intros n m L. destruct n as [|n]; [lia|]. cbn [a_obj]. rewrite Sc.
    assert (G : a_get_string cf t (Datatypes.S n) (34 :: l5) = (s, Ret l2)).
    { apply get_string_iff; [assumption|cbn [length] in *; lia|auto]. }
    rewrite G. rewrite (scan_c cf t _ _ _ _ B2 (ta_colon cf l3) O3). rewrite P by lia.
    destruct (scan_stuck c KAfterMem l4 r B3 S) as [H|(-> & y & r' & E & A & Rs)].
    + pass (a_scan cf t l4) H.
    + rewrite E. destruct A as [A|[-> _]]; [|err]. destruct y as [y| |]; try discriminate; [destruct y; try discriminate|..]; err.
  - (* mp_next *)
    intros k l l1 s l2 l3 v l4 l6 r B Sl B2 V B3 _ IH c S. destruct (IH c S) as [O6 IHo].
    assert (O4 : ok t l4) by (eapply ok_blank; [exact B3|apply ok_cons]).
    destruct (complete_val cf t Hok l3 v l4 V O4) as [Lv P].
    assert (O3 : ok t l3) by (eapply ok_mono; [exact O4|lia]).
    assert (O2 : ok t l2) by (eapply ok_blank; [exact B2|apply ok_cons]).
    destruct (strlit_start cf _ _ _ _ _ Sl) as (l5 & -> & Ll).
    pose proof (scan_c cf t _ _ _ _ B (ta_str cf l5) (ok_cons _ _ _)) as Sc. pose proof (blank_len _ _ B) as Bl.
    pose proof (blank_len _ _ B2) as Bl2. pose proof (blank_len _ _ B3) as Bl3. cbn [length] in *.
    split; [eapply ok_mono; [exact O2|lia]|]. intros n m L. destruct n as [|n]; [lia|]. cbn [a_obj]. rewrite Sc.
    assert (G : a_get_string cf t (Datatypes.S n) (34 :: l5) = (s, Ret l2)).
    { apply get_string_iff; [assumption|cbn [length] in *; lia|auto]. }
    rewrite G. rewrite (scan_c cf t _ _ _ _ B2 (ta_colon cf l3) O3). rewrite P by lia.
    rewrite (scan_c cf t _ _ _ _ B3 (ta_comma cf l6) O6). apply IHo. lia.
Qed.

Lemma pos_body : forall k l r, pos cf k l r -> forall c n v, stuck cf t c k r -> (2 * length l + 1 <= n)%nat ->
  hasc c (snd (a_body cf t n v l)).
Proof.
  intros k l r P c n v S L. unfold a_body. destruct P as [l r B|k l r In|l w l1 r V B].
  - assert (HP : hasc c (snd (a_parse cf t n v None l))).
    { destruct n as [|n]; [lia|]. cbn [a_parse]. destruct (scan_stuck c KVal l r B S) as [H|(-> & y & r' & E & A & Rs)].
      - pass (a_scan cf t l) H.
      - rewrite E. destruct A as [A|[-> W]].
        + destruct y as [y| |]; try discriminate; destruct y; try discriminate; err.
        + rewrite (Rs eq_refl) in *.
          destruct (wrong_string KVal l r B (or_intror (conj eq_refl W)) eq_refl (Datatypes.S n) ltac:(lia)) as (s' & m' & G').
          rewrite G'. err. }
    destruct (a_parse cf t n v None l) as [w o]. cbn [snd] in *. pass o HP.
  - destruct (pos_complete k l r In c S) as (_ & _ & HP). specialize (HP n v L).
    destruct (a_parse cf t n v None l) as [w o]. cbn [snd] in *. pass o HP.
  - assert (O1 : ok t l1) by (eapply ok_blank; [exact B|apply S]).
    destruct (complete_val cf t Hok l w l1 V O1) as [Ll P]. rewrite P by assumption. cbn [snd bind].
    destruct (scan_stuck c KEnd l1 r B S) as [H|(-> & y & r' & E & A & Rs)].
    + pass (a_scan cf t l1) H.
    + rewrite E. cbn [bind fst]. destruct A as [A|[-> _]]; [|err]. destruct y as [y| |]; try discriminate; [destruct y; try discriminate|..]; err.
Qed.

(** exactly where assertion failures and overflows come from *)
Lemma body_x : forall b n c l, ok t l -> (2 * length l + 1 <= n)%nat ->
  (isX b (snd (a_body cf t n c l)) <-> exists k r, pos cf k l r /\ badtok b cf t r).
Proof.
  intros b n c l O L. split; [apply sx_body; assumption|].
  intros (k & r & P & K). apply (pos_body k l r P (OX b) n c); [|assumption].
  split; [eapply badtok_ok; exact K|]. left. cbn [hasc]. apply scan_tok_x. assumption.
Qed.
End Pos.

(** ** Error type *)

(** only deserialization errors are thrown; the budget may run out only if [b] *)
Definition nice (b : bool) {A} (o : outcome A) : Prop :=
  match o with Throw e => exists m, e = EDeser m | OutOfFuel => b = true | _ => True end.

Lemma nice_bind : forall b A B (m : outcome A) (k : A -> outcome B), nice b m -> (forall a, nice b (k a)) -> nice b (bind m k).
Proof. intros b A B [] k H1 H2; cbn in *; auto. Qed.
Lemma nice_guard : forall b A t l (k : outcome A), nice b k -> nice b (guard t l k).
Proof. intros b A t l k H. destruct l, t; cbn; eauto. Qed.
Lemma nice_fail : forall b A m, nice b (@fail A m).
Proof. intros b A m. cbn. eauto. Qed.
Lemma nice_fail_code : forall b A m c, nice b (@fail_code A m c).
Proof. intros b A m c. cbn. eauto. Qed.
Lemma nice_stop : forall b A B (o : outcome A), nice b o -> nice b (@stop A B o).
Proof. intros b A B [] H; cbn in *; auto. Qed.
#[global] Hint Resolve nice_fail nice_fail_code nice_stop : core.

Lemma nice_skip : forall b n t l, (length l <= n)%nat -> forall m, nice b (a_skip m t l).
Proof.
  intros b n t. induction n as [n IH] using lt_wf_ind. intros l Hn m.
  assert (IHs : forall l', (length l' < length l)%nat -> forall m, nice b (a_skip m t l')).
  { intros l' L. exact (IH (length l') ltac:(lia) l' (le_n _)). }
  destruct l as [|c l1]; [destruct m; cbn; eauto|]. destruct m.
  - rewrite skip_ws_eq. destruct (is_space c); [apply nice_guard, IHs; cbn; lia|].
    destruct (c =? 47); [|exact I]. apply nice_guard. destruct l1 as [|c1 l2]; [auto|].
    destruct (c1 =? 47); [apply IHs; cbn; lia|]. destruct (c1 =? 42); [apply IHs; cbn; lia|auto].
  - rewrite skip_line_eq. apply nice_guard. destruct l1 as [|c1 l2]; [exact I|].
    destruct (is_nl c1); apply IHs; cbn; lia.
  - rewrite skip_block_eq. apply nice_guard. destruct l1 as [|c1 l2]; [auto|].
    destruct (c1 =? 42); [|apply IHs; cbn; lia]. apply nice_guard. destruct l2 as [|c2 l3]; [auto|].
    destruct (c2 =? 47); [|apply IHs; cbn; lia]. apply nice_guard, IHs. cbn; lia.
Qed.

Lemma nice_literal : forall b cf t x w l, nice b (a_literal cf t x w l).
Proof.
  intros b cf t x w. induction w as [|c w IH]; intro l; [exact I|]. cbn [a_literal].
  destruct (_ =? _); [apply nice_guard, IH|auto].
Qed.
Lemma nice_expd : forall b cf t l ex, nice b (a_expd cf t ex l).
Proof.
  intros b cf t l. induction l as [|c l IH]; intro ex; [exact I|]. cbn [a_expd].
  apply nice_guard. destruct (is_digit cf (hd0 l)); [apply IH|exact I].
Qed.
Lemma nice_exponent : forall b cf t f l, nice b (a_exponent cf t f l).
Proof.
  intros b cf t f l. unfold a_exponent. cbv zeta. apply nice_guard. destruct (negb _); [auto|].
  apply nice_guard, nice_bind; [apply nice_expd|intro; exact I].
Qed.
Lemma nice_frac : forall b cf t l fr f, nice b (a_frac cf t fr f l).
Proof.
  intros b cf t l. induction l as [|c l IH]; intros fr f; [exact I|]. cbn [a_frac].
  apply nice_guard. destruct (_ || _); [apply nice_exponent|]. destruct (is_digit _ _); [apply IH|exact I].
Qed.
Lemma nice_float_num : forall b cf t z l, nice b (a_float_num cf t z l).
Proof.
  intros b cf t z l. unfold a_float_num. apply nice_bind; [|intro; exact I]. unfold a_float.
  destruct (_ || _); [apply nice_exponent|]. apply nice_guard. destruct (negb _); [auto|apply nice_frac].
Qed.
Lemma nice_chk64 : forall b z, nice b (chk64 z).
Proof. intros b z. unfold chk64. destruct (in_int64 z); exact I. Qed.
Lemma nice_intd : forall b cf t l z, nice b (a_intd cf t z l).
Proof.
  intros b cf t l. induction l as [|c l IH]; intro z; [exact I|]. cbn [a_intd]. cbv zeta. apply nice_guard.
  destruct (_ || _); [apply nice_float_num|]. destruct (is_digit _ _); [|exact I].
  apply nice_bind; [apply nice_chk64|intro]. apply nice_bind; [apply nice_chk64|intro]. apply IH.
Qed.
Lemma nice_scan : forall b cf t l, nice b (a_scan cf t l).
Proof.
  intros b cf t l. unfold a_scan. apply nice_bind; [eapply nice_skip, le_n|]. intro l1. unfold a_scan_tok.
  destruct l1 as [|c l2]; [exact I|]. destruct (punct c); [apply nice_guard; exact I|].
  destruct (c =? c_t); [apply nice_bind; [apply nice_literal|intro; exact I]|].
  destruct (c =? c_f); [apply nice_bind; [apply nice_literal|intro; exact I]|].
  destruct (c =? c_n); [apply nice_bind; [apply nice_literal|intro; exact I]|].
  destruct (c =? c_quote); [exact I|].
  destruct (_ || _); [|destruct (c =? 0); [exact I|auto]].
  unfold a_number. cbv zeta. apply nice_guard, nice_bind; [|intro; exact I].
  unfold a_unsigned. destruct (_ =? c_0).
  - cbv zeta. apply nice_guard. destruct (_ =? c_dot); [apply nice_float_num|]. destruct (_ || _); [auto|exact I].
  - unfold a_integer. destruct (_ && _); [exact I|apply nice_intd].
Qed.
Lemma nice_u : forall b t l, nice b (a_u t l).
Proof.
  assert (Hx : forall b t fs code l, nice b (a_hex t fs code l)).
  { intros b t fs. induction fs as [|f fs IH]; intros code l; [exact I|]. cbn [a_hex].
    apply nice_guard. destruct (hex_val _); [apply IH|auto]. }
  intros b t l. unfold a_u. apply nice_bind; [apply Hx|]. intros [cp r].
  destruct (is_lead_surrogate cp); [|exact I]. cbv zeta. apply nice_guard.
  destruct (negb _); [auto|]. apply nice_guard. destruct (negb _); [auto|].
  apply nice_bind; [apply Hx|]. intros [tr r2]. destruct (negb _); [auto|exact I].
Qed.
Lemma nice_string : forall cf t n o l, nice true (snd (a_string cf t n o l)).
Proof.
  intros cf t n. induction n as [|n IH]; intros o l; [reflexivity|]. cbn [a_string].
  destruct (tl l) as [|c l2]; [destruct t; cbn; eauto|].
  destruct (c =? 34); [apply nice_guard; exact I|].
  destruct (c <=? 31); [cbn; eauto|]. destruct (c =? 92).
  - destruct (at_bad t l2); [cbn; eauto|]. destruct (simple_escape _); [apply IH|].
    destruct (_ =? _); [|cbn; eauto]. pose proof (nice_u true t l2) as Nu. destruct (a_u t l2) as [[cp l3]| | | |].
    + destruct (os_fail _); [cbn; eauto|apply IH].
    + exact Nu.
    + exact I.
    + exact I.
    + reflexivity.
  - destruct (os_fail _); [cbn; eauto|apply IH].
Qed.
Lemma nice_get_string : forall cf t n l, nice true (snd (a_get_string cf t n l)).
Proof.
  intros cf t n l. unfold a_get_string. pose proof (nice_string cf t n (mkOs [] false) l) as X.
  destruct (a_string cf t n (mkOs [] false) l). exact X.
Qed.

Lemma nice_all : forall cf t n,
  (forall c tok l, nice true (snd (a_parse cf t n c tok l))) /\
  (forall vs l, nice true (snd (a_arr cf t n vs l))) /\
  (forall m l, nice true (snd (a_obj cf t n m l))).
Proof.
  intros cf t n. induction n as [|n (IHp & IHa & IHo)]; [repeat split; intros; reflexivity|].
  split; [|split].
  - intros c tok l. cbn [a_parse].
    assert (Nr : nice true (match tok with None => a_scan cf t l | Some k => Ret (k, l) end)) by (destruct tok; [exact I|apply nice_scan]).
    destruct (match tok with None => a_scan cf t l | Some k => Ret (k, l) end) as [[k l1]| | | |]; try exact Nr; try exact I; try reflexivity.
    destruct k as [k| |]; try exact I; try reflexivity. destruct k; try exact I; try reflexivity; try (cbn; eauto; fail).
    + pose proof (nice_get_string cf t (S n) l1) as X. destruct (a_get_string cf t (S n) l1). exact X.
    + specialize (IHa [] l1). destruct (a_arr cf t n [] l1) as [vs o]. cbn [snd] in *.
      destruct o as [[[k| |] l2]| | | |]; try exact IHa; try exact I; try reflexivity; try (cbn; eauto; fail). destruct k; cbn; eauto.
    + specialize (IHo [] l1). destruct (a_obj cf t n [] l1) as [vs o]. cbn [snd] in *.
      destruct o as [[[k| |] l2]| | | |]; try exact IHo; try exact I; try reflexivity; try (cbn; eauto; fail). destruct k; cbn; eauto.
  - intros vs l. cbn [a_arr]. pose proof (nice_scan true cf t l) as X.
    destruct (a_scan cf t l) as [[k l1]| | | |]; try exact X; try exact I; try reflexivity.
    destruct (a_starts k); [|exact I]. specialize (IHp VNull (Some k) l1).
    destruct (a_parse cf t n VNull (Some k) l1) as [v o]. cbn [snd] in IHp.
    destruct o as [l2| | | |]; try exact IHp; try exact I; try reflexivity. clear X. pose proof (nice_scan true cf t l2) as X.
    destruct (a_scan cf t l2) as [[k2 l3]| | | |]; try exact X; try exact I; try reflexivity.
    destruct k2 as [k2| |]; try exact I; try reflexivity. destruct k2; try exact I; try reflexivity. apply IHa.
  - intros m l. cbn [a_obj]. pose proof (nice_scan true cf t l) as X.
    destruct (a_scan cf t l) as [[k l1]| | | |]; try exact X; try exact I; try reflexivity.
    destruct k as [k| |]; try exact I; try reflexivity. destruct k; try exact I; try reflexivity.
    clear X. pose proof (nice_get_string cf t (S n) l1) as X. destruct (a_get_string cf t (S n) l1) as [s o]. cbn [snd] in X.
    destruct o as [l2| | | |]; try exact X; try exact I; try reflexivity. clear X. pose proof (nice_scan true cf t l2) as X.
    destruct (a_scan cf t l2) as [[k2 l3]| | | |]; try exact X; try exact I; try reflexivity.
    destruct k2 as [k2| |]; try exact I; try reflexivity. destruct k2; try exact I; try reflexivity.
    specialize (IHp VNull None l3). destruct (a_parse cf t n VNull None l3) as [v o]. cbn [snd] in IHp.
    destruct o as [l4| | | |]; try exact IHp; try exact I; try reflexivity. clear X. pose proof (nice_scan true cf t l4) as X.
    destruct (a_scan cf t l4) as [[k3 l5]| | | |]; try exact X; try exact I; try reflexivity.
    destruct k3 as [k3| |]; try exact I; try reflexivity. destruct k3; try exact I; try reflexivity. apply IHo.
Qed.

Lemma nice_body : forall cf t n c l, nice true (snd (a_body cf t n c l)).
Proof.
  intros cf t n c l. unfold a_body. destruct (nice_all cf t n) as (P & _ & _). specialize (P c None l).
  destruct (a_parse cf t n c None l) as [v o]. cbn [snd] in *. apply nice_bind; [exact P|]. intro l1.
  apply nice_bind; [apply nice_scan|]. intros [k l2]. cbn [fst]. destruct k as [k| |]; [destruct k|..]; cbn; eauto.
Qed.
