(** The list machine's recursive descent accepts exactly the documents of
    SpecGrammar.v and builds the values they denote. *)
From Coq Require Import Lia ZifyBool ZifyNat ZifyN Floats.SpecFloat.
From Verif Require Import Base Stream Encoding Value Token Parser EncodingProofs Feeds ListMachine Simulation SimParse
  SpecUnicode SpecGrammar GrammarLex GrammarTok ObjFacts.

(** ** Inversion of tokens *)

Lemma tok_none : forall cf l x l', tok_at cf l (AT x) l' ->
  match x with
  | Teoi => l' = l /\ (l = [] \/ exists l1, l = 0 :: l1)
  | Tbegin_arr => l = 91 :: l'
  | Tend_arr => l = 93 :: l'
  | Tbegin_obj => l = 123 :: l'
  | Tend_obj => l = 125 :: l'
  | Tname_sep => l = 58 :: l'
  | Tval_sep => l = 44 :: l'
  | Tstring => l' = l /\ exists l1, l = 34 :: l1
  | Ttrue => literal (src_ck cf) l (VBool true) l'
  | Tfalse => literal (src_ck cf) l (VBool false) l'
  | Tnull => literal (src_ck cf) l VNull l'
  | _ => False
  end.
Proof. intros cf l x l' H. inversion H; subst; try discriminate; eauto. Qed.

Lemma tok_num : forall cf l k v l', tok_at cf l k l' -> tokv k = Some v ->
  number (src_ck cf) (ndebug cf) l v l'.
Proof. intros cf l k v l' H E. inversion H; subst; try discriminate. congruence. Qed.

(** the start of a phrase: the text itself, or a token already scanned *)
Definition start (cf : pcfg) (t : term) (l0 : list N) (tok : option atok) (l : list N) : Prop :=
  match tok with
  | None => l = l0 /\ ok t l0
  | Some k => ok t l /\ exists l1, blank l0 l1 /\ tok_at cf l1 k l
  end.

Definition flen (tok : option atok) (l : list N) : nat := (2 * length l + match tok with None => 1 | Some _ => 3 end)%nat.

Section Sound.
Variables (cf : pcfg) (t : term).
Hypothesis Hok : enc_ok (tgt_enc cf) (tgt_ck cf) = true.

Definition snd_parse n := forall c tok l l0 v l', start cf t l0 tok l -> (flen tok l <= n)%nat ->
  a_parse cf t n c tok l = (v, Ret l') -> val cf l0 v l' /\ ok t l'.
Definition snd_arr n := forall vs l vs' l', ok t l -> (2 * length l + 2 <= n)%nat ->
  a_arr cf t n vs l = (vs', Ret (AT Tend_arr, l')) ->
  exists ws, vs' = vs ++ ws /\ elems cf l ws l' /\ ok t l'.
Definition snd_obj n := forall m l m' l', ok t l -> (2 * length l + 2 <= n)%nat ->
  a_obj cf t n m l = (m', Ret (AT Tend_obj, l')) ->
  exists ms, m' = emplace_all ms m /\ members cf l ms l' /\ ok t l'.

Lemma parse_len_none : forall n c l v l', a_parse cf t n c None l = (v, Ret l') -> (length l' < length l)%nat.
Proof. intros n c l v l' H. destruct (len_all cf t n) as (P & _ & _). apply P in H. assumption. Qed.
Lemma parse_len_some : forall n c k l v l', a_parse cf t n c (Some k) l = (v, Ret l') -> (length l' <= length l)%nat.
Proof. intros n c k l v l' H. destruct (len_all cf t n) as (P & _ & _). apply P in H. apply H. Qed.

Lemma sound_all : forall n, snd_parse n /\ snd_arr n /\ snd_obj n.
Proof.
  induction n as [|n (IHp & IHa & IHo)].
  { repeat split; repeat intro; discriminate. }
  split; [|split].
  - intros c tok l l0 v l' St Fl H. cbn [a_parse] in H.
    assert (X : exists k l1 l2, (match tok with None => a_scan cf t l | Some k => Ret (k, l) end) = Ret (k, l1) /\
       blank l0 l2 /\ tok_at cf l2 k l1 /\ ok t l1 /\
       (2 * length l1 + 1 <= S n)%nat /\ (eats k = true -> (2 * length l1 + 3 <= S n)%nat)).
    { destruct tok as [k|]; cbn [start flen] in *.
      - destruct St as [O (l1 & B & T)]. exists k, l, l1. unfold flen in Fl. repeat split; auto; try lia.
      - unfold flen in Fl. destruct St as [-> O]. destruct (a_scan cf t l0) as [[k l1]| | | |] eqn:E; try discriminate.
        pose proof E as E'. apply scan_iff in E; [|assumption]. destruct E as (l2 & B & T & O1).
        apply a_scan_len in E'. destruct E' as [L1 L2].
        exists k, l1, l2. repeat split; auto; [lia|]. intro K. specialize (L2 K). lia. }
    destruct X as (k & l1 & l2 & E & B & T & O & L1 & L2). rewrite E in H. clear E Fl St.
    destruct k as [k|z|f].
    + apply tok_none in T. destruct k; try (inversion H; fail); try contradiction.
      * inversion H; subst. split; [eapply v_lit; eassumption|assumption].
      * inversion H; subst. split; [eapply v_lit; eassumption|assumption].
      * inversion H; subst. split; [eapply v_lit; eassumption|assumption].
      * destruct T as [-> (l3 & ->)].
        destruct (a_get_string cf t (S n) (34 :: l3)) as [s r] eqn:Es. inversion H; subst.
        apply get_string_iff in Es; [|assumption|cbn [length] in L1; lia]. destruct Es as [Sl O'].
        split; [eapply v_str; eassumption|assumption].
      * subst l2. specialize (L2 eq_refl).
        destruct (a_arr cf t n [] l1) as [vs r] eqn:Ea.
        destruct r as [[k l3]| | | |]; try (inversion H; fail).
        destruct k as [k| |]; try (inversion H; fail). destruct k; try (inversion H; fail).
        inversion H; subst. apply IHa in Ea; [|assumption|lia]. destruct Ea as (ws & -> & El & O').
        split; [|assumption]. eapply v_arr; eassumption.
      * subst l2. specialize (L2 eq_refl).
        destruct (a_obj cf t n [] l1) as [m r] eqn:Ea.
        destruct r as [[k l3]| | | |]; try (inversion H; fail).
        destruct k as [k| |]; try (inversion H; fail). destruct k; try (inversion H; fail).
        inversion H; subst. apply IHo in Ea; [|assumption|lia]. destruct Ea as (ms & -> & Me & O').
        split; [|assumption]. eapply v_obj; [eassumption|eassumption|]. apply obj_of_iff. reflexivity.
    + inversion H; subst. split; [|assumption]. eapply v_num; [eassumption|]. eapply tok_num; [eassumption|reflexivity].
    + inversion H; subst. split; [|assumption]. eapply v_num; [eassumption|]. eapply tok_num; [eassumption|reflexivity].
  - intros vs l vs' l' O L H. cbn [a_arr] in H.
    destruct (a_scan cf t l) as [[k l1]| | | |] eqn:E; try discriminate.
    pose proof E as E'. apply a_scan_len in E'. destruct E' as [L1 L2].
    apply scan_iff in E; [|assumption]. destruct E as (l2 & B & T & O1).
    destruct (a_starts k) eqn:Es.
    + destruct (a_parse cf t n VNull (Some k) l1) as [v r] eqn:Ep.
      destruct r as [l3| | | |]; try (inversion H; fail).
      pose proof Ep as Ep'. apply parse_len_some in Ep'.
      assert (V : val cf l v l3 /\ ok t l3).
      { destruct (eats k) eqn:Ek.
        - eapply IHp; [| |exact Ep]; [split; [assumption|]; eauto|]. specialize (L2 eq_refl). unfold flen. lia.
        - (* only a string token leaves the text where it is *)
          destruct k as [k| |]; try discriminate. destruct k; try discriminate.
          assert (Sc : a_scan cf t l = Ret (AT Tstring, l1)) by (apply scan_iff; eauto).
          apply (IHp VNull None l); [split; auto|unfold flen; lia|].
          rewrite <- Ep. destruct n; [reflexivity|]. cbn [a_parse]. rewrite Sc. reflexivity. }
      destruct V as [V O3].
      destruct (a_scan cf t l3) as [[k2 l4]| | | |] eqn:E2; try (inversion H; fail).
      pose proof E2 as E2'. apply a_scan_len in E2'. destruct E2' as [L3 _].
      apply scan_iff in E2; [|assumption]. destruct E2 as (l5 & B2 & T2 & O4).
      destruct k2 as [k2| |]; try (inversion H; fail).
      apply tok_none in T2. destruct k2; try (inversion H; fail).
      * inversion H; subst. exists [v]. split; [reflexivity|]. split; [|assumption]. eapply el_last; eassumption.
      * subst l5. apply IHa in H; [|assumption|].
        -- destruct H as (ws & -> & El & O5). exists (v :: ws). rewrite <- app_assoc. split; [reflexivity|].
           split; [|assumption]. eapply el_more; eassumption.
        -- assert (length l3 < length l)%nat; [|lia].
           destruct (eats k) eqn:Ek; [specialize (L2 eq_refl); lia|].
           destruct k as [k| |]; try discriminate. destruct k; try discriminate.
           assert (Sc : a_scan cf t l = Ret (AT Tstring, l1)) by (apply scan_iff; eauto).
           apply (parse_len_none n VNull l v). rewrite <- Ep. destruct n; [reflexivity|]. cbn [a_parse].
           rewrite Sc. reflexivity.
    + inversion H; subst. apply tok_none in T. subst l2. exists []. rewrite app_nil_r.
      split; [reflexivity|]. split; [|assumption]. apply el_end. assumption.
  - intros m l m' l' O L H. cbn [a_obj] in H.
    destruct (a_scan cf t l) as [[k l1]| | | |] eqn:E; try discriminate.
    pose proof E as E'. apply a_scan_len in E'. destruct E' as [L1 L2].
    apply scan_iff in E; [|assumption]. destruct E as (l2 & B & T & O1).
    destruct k as [k| |]; try (inversion H; fail).
    apply tok_none in T. destruct k; try (inversion H; fail).
    + destruct T as [-> (l3 & ->)].
      destruct (a_get_string cf t (S n) (34 :: l3)) as [key r] eqn:Es.
      destruct r as [l4| | | |]; try (inversion H; fail).
      pose proof Es as Es'. apply a_get_string_len in Es'.
      apply get_string_iff in Es; [|assumption|cbn [length] in *; lia]. destruct Es as [Sl O4].
      destruct (a_scan cf t l4) as [[k2 l5]| | | |] eqn:E2; try (inversion H; fail).
      pose proof E2 as E2'. apply a_scan_len in E2'. destruct E2' as [L3 _].
      apply scan_iff in E2; [|assumption]. destruct E2 as (l6 & B2 & T2 & O5).
      destruct k2 as [k2| |]; try (inversion H; fail).
      apply tok_none in T2. destruct k2; try (inversion H; fail).
      * inversion H; subst. exists []. split; [reflexivity|]. split; [|assumption]. eapply me_key; eassumption.
      * subst l6.
        destruct (a_parse cf t n VNull None l5) as [v r] eqn:Ep.
        destruct r as [l7| | | |]; try (inversion H; fail).
        pose proof Ep as Ep'. apply parse_len_none in Ep'.
        destruct (IHp VNull None l5 l5 v l7 (conj eq_refl O5) ltac:(unfold flen; lia) Ep) as [V O7].
        destruct (a_scan cf t l7) as [[k3 l8]| | | |] eqn:E3; try (inversion H; fail).
        pose proof E3 as E3'. apply a_scan_len in E3'. destruct E3' as [L4 _].
        apply scan_iff in E3; [|assumption]. destruct E3 as (l9 & B3 & T3 & O8).
        destruct k3 as [k3| |]; try (inversion H; fail).
        apply tok_none in T3. destruct k3; try (inversion H; fail).
        -- inversion H; subst. exists [(key, v)]. split; [reflexivity|]. split; [|assumption]. eapply me_last; eassumption.
        -- subst l9. apply IHo in H; [|assumption|lia]. destruct H as (ms & -> & Me & O9).
           exists ((key, v) :: ms). split; [reflexivity|]. split; [|assumption]. eapply me_more; eassumption.
    + inversion H; subst. exists []. split; [reflexivity|]. split; [|assumption]. apply me_end. assumption.
Qed.
End Sound.

Scheme val_mut := Minimality for val Sort Prop
  with elems_mut := Minimality for elems Sort Prop
  with members_mut := Minimality for members Sort Prop.

Section Complete.
Variables (cf : pcfg) (t : term).
Hypothesis Hok : enc_ok (tgt_enc cf) (tgt_ck cf) = true.

Lemma ok_of_tok : forall l k l', tok_at cf l k l' -> ok t l' -> ok t l.
Proof.
  intros l k l' T O. destruct l; [|apply ok_cons].
  inversion T as [| | | | | | | | |? ? L|? ? L|? ? L|? ? ? ? L]; subst.
  - assumption.
  - apply literal_start in L. destruct L as (? & ? & E & _). discriminate.
  - apply literal_start in L. destruct L as (? & ? & E & _). discriminate.
  - apply literal_start in L. destruct L as (? & ? & E & _). discriminate.
  - apply number_start in L. destruct L as (? & ? & E & _). discriminate.
Qed.

Lemma ok_blank : forall l l', blank l l' -> ok t l' -> ok t l.
Proof. intros l l' B O. eapply ok_mono; [exact O|]. apply blank_len. assumption. Qed.

Lemma scan_c : forall l l1 k l', blank l l1 -> tok_at cf l1 k l' -> ok t l' ->
  a_scan cf t l = Ret (k, l').
Proof.
  intros l l1 k l' B T O. apply scan_iff; [|eauto].
  eapply ok_blank; [exact B|]. eapply ok_of_tok; eassumption.
Qed.

Lemma parse_scan : forall n c l v l', a_parse cf t n c None l = (v, Ret l') ->
  exists k lk, a_scan cf t l = Ret (k, lk) /\ a_starts k = true /\ a_parse cf t n c (Some k) lk = (v, Ret l').
Proof.
  intros n c l v l' H. destruct n as [|n]; [discriminate|]. cbn [a_parse] in H |- *.
  destruct (a_scan cf t l) as [[k lk]| | | |] eqn:E; try (inversion H; fail).
  exists k, lk. split; [reflexivity|]. split; [|assumption].
  destruct k as [k| |]; try reflexivity. destruct k; try reflexivity; inversion H.
Qed.

Definition c_val (l : list N) (v : value) (l' : list N) : Prop := ok t l' ->
  (length l' < length l)%nat /\
  forall n c, (2 * length l + 1 <= n)%nat -> a_parse cf t n c None l = (v, Ret l').
Definition c_elems (l : list N) (vs : list value) (l' : list N) : Prop := ok t l' ->
  (length l' < length l)%nat /\
  forall n acc, (2 * length l + 2 <= n)%nat -> a_arr cf t n acc l = (acc ++ vs, Ret (AT Tend_arr, l')).
Definition c_members (l : list N) (ms : list (str * value)) (l' : list N) : Prop := ok t l' ->
  (length l' < length l)%nat /\
  forall n m, (2 * length l + 2 <= n)%nat -> a_obj cf t n m l = (emplace_all ms m, Ret (AT Tend_obj, l')).

Lemma tok_of_literal : forall l v l', literal (src_ck cf) l v l' ->
  exists x, tok_at cf l (AT x) l' /\ match x with Ttrue => v = VBool true | Tfalse => v = VBool false | Tnull => v = VNull | _ => False end.
Proof.
  intros l v l' H. inversion H; subst.
  - exists Ttrue. split; [constructor; assumption|reflexivity].
  - exists Tfalse. split; [constructor; assumption|reflexivity].
  - exists Tnull. split; [constructor; assumption|reflexivity].
Qed.

Lemma strlit_start : forall e ck l s l', strlit e ck l s l' -> exists l1, l = 34 :: l1 /\ (length l' + 2 <= length l)%nat.
Proof. intros e ck l s l' H. inversion H; subst. eexists. split; [reflexivity|]. cbn [length]. rewrite app_length. cbn [length]. lia. Qed.

Lemma complete_val : forall l v l', val cf l v l' -> c_val l v l'.
Proof.
  apply (val_mut cf c_val c_elems c_members).
  - (* literal *)
    intros l l1 v l' B L O. apply tok_of_literal in L. destruct L as (x & T & X).
    pose proof (scan_c _ _ _ _ B T O) as S. pose proof S as S'. apply a_scan_len in S'. split.
    + apply S'. destruct x; try contradiction; reflexivity.
    + intros n c L. destruct n as [|n]; [lia|]. cbn [a_parse]. rewrite S.
      destruct x; try contradiction; subst; reflexivity.
  - (* number *)
    intros l l1 v l' B L O. destruct (number_numv _ _ _ _ _ L) as (k & Ek & Nk).
    pose proof (scan_c _ _ _ _ B (ta_num cf _ _ _ _ L Ek) O) as S. pose proof S as S'. apply a_scan_len in S'. split.
    + apply S'. destruct k; try reflexivity. exfalso. eapply Nk. reflexivity.
    + intros n c L'. destruct n as [|n]; [lia|]. cbn [a_parse]. rewrite S.
      destruct k; cbn [tokv] in Ek; try discriminate; inversion Ek; subst; reflexivity.
  - (* string *)
    intros l l1 s l' B L O. destruct (strlit_start _ _ _ _ _ L) as (l2 & -> & Ll).
    pose proof (scan_c _ _ _ _ B (ta_str cf l2) (ok_cons _ _ _)) as S.
    pose proof (blank_len _ _ B) as Bl. split; [lia|].
    intros n c L'. destruct n as [|n]; [lia|]. cbn [a_parse]. rewrite S.
    assert (G : a_get_string cf t (Datatypes.S n) (34 :: l2) = (s, Ret l')).
    { apply get_string_iff; [assumption|cbn [length] in *; lia|auto]. }
    rewrite G. reflexivity.
  - (* array *)
    intros l l1 vs l' B El IH O. destruct (IH O) as [Ll IHa].
    assert (O1 : ok t l1) by (eapply ok_mono; [exact O|lia]).
    pose proof (scan_c _ _ _ _ B (ta_larr cf l1) O1) as S.
    pose proof (blank_len _ _ B) as Bl. cbn [length] in Bl. split; [lia|].
    intros n c L'. destruct n as [|n]; [lia|]. cbn [a_parse]. rewrite S.
    rewrite IHa by lia. reflexivity.
  - (* object *)
    intros l l1 ms m l' B Me IH Ob O. destruct (IH O) as [Ll IHo].
    assert (O1 : ok t l1) by (eapply ok_mono; [exact O|lia]).
    pose proof (scan_c _ _ _ _ B (ta_lobj cf l1) O1) as S.
    pose proof (blank_len _ _ B) as Bl. cbn [length] in Bl. split; [lia|].
    intros n c L'. destruct n as [|n]; [lia|]. cbn [a_parse]. rewrite S.
    rewrite IHo by lia. apply obj_of_iff in Ob. subst m. reflexivity.
  - (* ] *)
    intros l l' B O. pose proof (scan_c _ _ _ _ B (ta_rarr cf l') O) as S.
    pose proof (blank_len _ _ B) as Bl. cbn [length] in Bl. split; [lia|].
    intros n acc L. destruct n as [|n]; [lia|]. cbn [a_arr]. rewrite S. cbn [a_starts starts_value].
    rewrite app_nil_r. reflexivity.
  - (* value ] *)
    intros l v l1 l' V IH B O.
    assert (O1 : ok t l1) by (eapply ok_blank; [exact B|apply ok_cons]).
    destruct (IH O1) as [Ll IHp]. pose proof (blank_len _ _ B) as Bl. cbn [length] in Bl. split; [lia|].
    intros n acc L. destruct n as [|n]; [lia|]. cbn [a_arr].
    destruct (parse_scan n VNull l v l1 (IHp n VNull ltac:(lia))) as (k & lk & S & Sk & P).
    rewrite S, Sk, P. rewrite (scan_c _ _ _ _ B (ta_rarr cf l') O). reflexivity.
  - (* value , ... *)
    intros l v l1 l2 vs l' V IH B El IH2 O. destruct (IH2 O) as [L2 IHa].
    assert (O2 : ok t l2) by (eapply ok_mono; [exact O|lia]).
    assert (O1 : ok t l1) by (eapply ok_blank; [exact B|apply ok_cons]).
    destruct (IH O1) as [Ll IHp]. pose proof (blank_len _ _ B) as Bl. cbn [length] in Bl. split; [lia|].
    intros n acc L. destruct n as [|n]; [lia|]. cbn [a_arr].
    destruct (parse_scan n VNull l v l1 (IHp n VNull ltac:(lia))) as (k & lk & S & Sk & P).
    rewrite S, Sk, P. rewrite (scan_c _ _ _ _ B (ta_comma cf l2) O2).
    rewrite IHa by lia. rewrite <- app_assoc. reflexivity.
  - (* } *)
    intros l l' B O. pose proof (scan_c _ _ _ _ B (ta_robj cf l') O) as S.
    pose proof (blank_len _ _ B) as Bl. cbn [length] in Bl. split; [lia|].
    intros n m L. destruct n as [|n]; [lia|]. cbn [a_obj]. rewrite S. reflexivity.
  - (* key } *)
    intros l l1 k l2 l' B Sl B2 O. destruct (strlit_start _ _ _ _ _ Sl) as (l3 & -> & Ll).
    assert (O2 : ok t l2) by (eapply ok_blank; [exact B2|apply ok_cons]).
    pose proof (scan_c _ _ _ _ B (ta_str cf l3) (ok_cons _ _ _)) as S.
    pose proof (blank_len _ _ B) as Bl. pose proof (blank_len _ _ B2) as Bl2. cbn [length] in *. split; [lia|].
    intros n m L. destruct n as [|n]; [lia|]. cbn [a_obj]. rewrite S.
    assert (G : a_get_string cf t (Datatypes.S n) (34 :: l3) = (k, Ret l2)).
    { apply get_string_iff; [assumption|lia|auto]. }
    rewrite G. rewrite (scan_c _ _ _ _ B2 (ta_robj cf l') O). reflexivity.
  - (* key : value } *)
    intros l l1 k l2 l3 v l4 l' B Sl B2 V IH B3 O. destruct (strlit_start _ _ _ _ _ Sl) as (l5 & -> & Ll).
    assert (O4 : ok t l4) by (eapply ok_blank; [exact B3|apply ok_cons]). destruct (IH O4) as [Lv IHp].
    assert (O3 : ok t l3) by (eapply ok_mono; [exact O4|lia]).
    assert (O2 : ok t l2) by (eapply ok_blank; [exact B2|apply ok_cons]).
    pose proof (scan_c _ _ _ _ B (ta_str cf l5) (ok_cons _ _ _)) as S.
    pose proof (blank_len _ _ B) as Bl. pose proof (blank_len _ _ B2) as Bl2. pose proof (blank_len _ _ B3) as Bl3.
    cbn [length] in *. split; [lia|].
    intros n m L. destruct n as [|n]; [lia|]. cbn [a_obj]. rewrite S.
    assert (G : a_get_string cf t (Datatypes.S n) (34 :: l5) = (k, Ret l2)).
    { apply get_string_iff; [assumption|lia|auto]. }
    rewrite G. rewrite (scan_c _ _ _ _ B2 (ta_colon cf l3) O3). rewrite IHp by lia.
    rewrite (scan_c _ _ _ _ B3 (ta_robj cf l') O). reflexivity.
  - (* key : value , ... *)
    intros l l1 k l2 l3 v l4 l6 ms l' B Sl B2 V IH B3 Me IH2 O. destruct (strlit_start _ _ _ _ _ Sl) as (l5 & -> & Ll).
    destruct (IH2 O) as [L6 IHo]. assert (O6 : ok t l6) by (eapply ok_mono; [exact O|lia]).
    assert (O4 : ok t l4) by (eapply ok_blank; [exact B3|apply ok_cons]). destruct (IH O4) as [Lv IHp].
    assert (O3 : ok t l3) by (eapply ok_mono; [exact O4|lia]).
    assert (O2 : ok t l2) by (eapply ok_blank; [exact B2|apply ok_cons]).
    pose proof (scan_c _ _ _ _ B (ta_str cf l5) (ok_cons _ _ _)) as S.
    pose proof (blank_len _ _ B) as Bl. pose proof (blank_len _ _ B2) as Bl2. pose proof (blank_len _ _ B3) as Bl3.
    cbn [length] in *. split; [lia|].
    intros n m L. destruct n as [|n]; [lia|]. cbn [a_obj]. rewrite S.
    assert (G : a_get_string cf t (Datatypes.S n) (34 :: l5) = (k, Ret l2)).
    { apply get_string_iff; [assumption|lia|auto]. }
    rewrite G. rewrite (scan_c _ _ _ _ B2 (ta_colon cf l3) O3). rewrite IHp by lia.
    rewrite (scan_c _ _ _ _ B3 (ta_comma cf l6) O6). rewrite IHo by lia. reflexivity.
Qed.

(** ** The whole document *)

Lemma parse_iff : forall n c l v l', ok t l -> (2 * length l + 1 <= n)%nat ->
  (a_parse cf t n c None l = (v, Ret l') <-> val cf l v l' /\ ok t l').
Proof.
  intros n c l v l' O L. split.
  - intro H. destruct (sound_all cf t Hok n) as (P & _ & _).
    apply (P c None l l v l'); [split; auto|unfold flen; lia|assumption].
  - intros [V O']. apply complete_val; assumption.
Qed.

Lemma body_iff : forall n c l v, ok t l -> (2 * length l + 1 <= n)%nat ->
  (a_body cf t n c l = (v, Ret tt) <->
   exists rest, document cf l v rest /\ (t = TEof \/ rest <> [])).
Proof.
  intros n c l v O L. unfold a_body. split.
  - destruct (a_parse cf t n c None l) as [v' r] eqn:E. intro H. inversion H as [[Hv Hr]]. subst v'. clear H.
    apply bind_ret_iff in Hr. destruct Hr as (l1 & -> & Hr).
    apply parse_iff in E; [|assumption|assumption]. destruct E as [V O1].
    apply bind_ret_iff in Hr. destruct Hr as ([k l2] & S & Hk). cbn [fst] in Hk.
    apply scan_iff in S; [|assumption]. destruct S as (l3 & B & T & O2).
    destruct k as [k| |]; try discriminate. destruct k; try discriminate. apply tok_none in T.
    destruct T as [-> [->|(l4 & ->)]].
    + exists []. split; [econstructor; eassumption|]. left. destruct t; [reflexivity|discriminate O2].
    + exists (0 :: l4). split; [eapply doc_nul; eassumption|]. right. discriminate.
  - intros (rest & D & Hr).
    assert (X : exists l1, val cf l v l1 /\ blank l1 rest /\ tok_at cf rest (AT Teoi) rest /\ ok t rest).
    { inversion D; subst.
      - exists l1. repeat split; auto; [constructor|]. destruct Hr as [->|Hr]; [reflexivity|contradiction].
      - exists l1. repeat split; auto; [constructor]. }
    destruct X as (l1 & V & B & T & Or).
    assert (O1 : ok t l1) by (eapply ok_blank; eassumption).
    assert (E : a_parse cf t n c None l = (v, Ret l1)) by (apply parse_iff; auto).
    rewrite E. cbn [bind]. rewrite (scan_c _ _ _ _ B T Or). reflexivity.
Qed.
End Complete.

