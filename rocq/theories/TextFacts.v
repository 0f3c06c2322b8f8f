(** Strings, blanks, separators and duplicate keys: facts about whole texts. *)
From Coq Require Import Lia ZifyBool ZifyNat ZifyN Floats.SpecFloat Permutation.
From Verif Require Import Base Stream Encoding Value Token Parser EncodingProofs Feeds ListMachine Simulation SimParse
  SpecUnicode SpecGrammar SpecPos SpecGap SpecText GrammarLex GrammarTok ObjFacts GrammarProofs PosProofs PosSound Mono Context GrammarFacts.

(** ** Strings *)

Lemma string_fuel : forall cf t n o x l, (length l < n)%nat -> snd (a_string cf t n o (x :: l)) <> OutOfFuel.
Proof.
  intros cf t n. induction n as [|n IH]; intros o x l L; [lia|]. cbn [a_string tl].
  destruct l as [|c l2]; [destruct t; discriminate|]. cbn [length] in L.
  destruct (c =? c_quote); [destruct l2, t; discriminate|]. destruct (c <=? 31); [discriminate|].
  destruct (c =? c_bslash).
  - destruct (at_bad t l2) eqn:B; [discriminate|]. destruct (simple_escape (hd0 l2)) eqn:Es.
    + destruct l2 as [|y l3]; [discriminate Es|]. cbn [length] in L. apply IH. lia.
    + destruct (hd0 l2 =? c_u) eqn:E; [|discriminate]. destruct l2 as [|y l3]; [discriminate E|].
      destruct (a_u t (y :: l3)) as [[cp l4]|e| | |] eqn:Eu; try discriminate.
      * cbv zeta. destruct (os_fail _); [discriminate|]. cbn [hd0 hd] in E. apply N.eqb_eq in E. subst y.
        apply u_iff in Eu. destruct Eu as (w & y & l1 & -> & -> & _).
        apply IH. cbn [length] in L. rewrite app_length in L. cbn [length] in *. lia.
      * pose proof (nice_u false t (y :: l3)) as Nu. rewrite Eu in Nu. discriminate Nu.
  - cbv zeta. destruct (os_fail _); [discriminate|]. apply IH. lia.
Qed.

Lemma string_throws : forall cf t n l, enc_ok (tgt_enc cf) (tgt_ck cf) = true -> (length l < n)%nat ->
  (forall s r, ~ strlit (tgt_enc cf) (tgt_ck cf) (34 :: l) s r) ->
  exists m, snd (a_get_string cf t n (34 :: l)) = Throw (EDeser m).
Proof.
  intros cf t n l Hok L N. pose proof (nice_get_string cf t n (34 :: l)) as Ni.
  destruct (a_get_string cf t n (34 :: l)) as [s o] eqn:E. cbn [snd] in *.
  pose proof (nox_get_string true cf t n (34 :: l)) as X1. pose proof (nox_get_string false cf t n (34 :: l)) as X2.
  rewrite E in X1, X2. cbn [snd isX] in X1, X2.
  destruct o as [r|e| | |]; cbn in *.
  - exfalso. apply get_string_iff in E; [|assumption|assumption]. apply (N s r), E.
  - destruct Ni as [m ->]. eauto.
  - contradiction X1; reflexivity.
  - contradiction X2; reflexivity.
  - exfalso. unfold a_get_string in E. pose proof (string_fuel cf t n (mkOs [] false) 34 l L) as F.
    destruct (a_string cf t n (mkOs [] false) (34 :: l)) as [o' r']. inversion E; subst. apply F. reflexivity.
Qed.

(** a value or key position at a quote without string literal *)
Lemma bad_string : forall cf s l t k r, enc_ok (tgt_enc cf) (tgt_ck cf) = true ->
  feeds (src_enc cf) (src_ck cf) (sis s) l t -> pos cf k l (34 :: r) ->
  (forall u r', ~ strlit (tgt_enc cf) (tgt_ck cf) (34 :: r) u r') ->
  exists m, parse_string cf s = Throw (EDeser m).
Proof.
  intros cf s l t k r Hok F P N. rewrite (parse_string_tops cf s l t F).
  assert (Ol : ok t l) by (eapply ok_mono; [apply (ok_cons t 34 r)|eapply pos_len; exact P]).
  assert (S : stuck cf t OErr k (34 :: r)).
  { split; [apply ok_cons|]. right. split; [reflexivity|]. exists (AT Tstring), (34 :: r). split; [reflexivity|].
    right. split; [reflexivity|]. intros n L. apply string_throws; [assumption|cbn [length] in L; lia|assumption]. }
  pose proof (pos_body cf t Hok k l _ P OErr (need l) VNull S (le_n _)) as [m H].
  unfold tops. rewrite Ol. destruct (a_body cf t (need l) VNull l) as [v o]. cbn [snd] in H. subst o. cbn. eauto.
Qed.

(** items are read in one way only *)
Lemma hexd_det : forall c x y, hexd c x -> hexd c y -> x = y.
Proof. intros c x y H1 H2. destruct H1; inversion H2; subst; lia. Qed.

Lemma hex4_det : forall h cp h2 cp2 l l2, hex4 h cp -> hex4 h2 cp2 -> h ++ l = h2 ++ l2 -> h = h2 /\ cp = cp2 /\ l = l2.
Proof.
  intros h cp h2 cp2 l l2 H1 H2 E. destruct H1, H2. cbn [app] in E. inversion E; subst.
  repeat match goal with A : hexd ?c ?x, B : hexd ?c ?y |- _ => lazymatch x with y => fail | _ =>
    pose proof (hexd_det _ _ _ A B); subst end end. auto.
Qed.

Lemma short_det : forall e x y, short e x -> short e y -> x = y.
Proof. intros e x y H1 H2. apply simple_iff in H1, H2. congruence. Qed.

Lemma item_det : forall w cp w2 cp2 l l2, item w cp -> item w2 cp2 -> w ++ l = w2 ++ l2 -> w = w2 /\ cp = cp2 /\ l = l2.
Proof.
  intros w cp w2 cp2 l l2 H1 H2 E.
  destruct H1 as [c A B C|e c S|h cp H NL|h1 hi h2 lo H1 L H2' T];
  destruct H2 as [c' A' B' C'|e' c' S'|h' cp' H' NL'|h1' hi' h2' lo' H1' L' H2'' T']; cbn [app] in E; inversion E; subst; clear E;
    try (exfalso; congruence); auto.
  - split; [reflexivity|]. split; [eapply short_det; eassumption|reflexivity].
  - apply short_small in S. lia.
  - apply short_small in S. lia.
  - apply short_small in S'. lia.
  - match goal with E : _ ++ _ = _ ++ _ |- _ => destruct (hex4_det _ _ _ _ _ _ H H' E) as (-> & -> & ->) end. auto.
  - match goal with E : _ ++ _ = _ ++ _ |- _ => rewrite <- app_assoc in E;
      destruct (hex4_det _ _ _ _ _ _ H H1' E) as (-> & -> & _) end. contradiction.
  - apply short_small in S'. lia.
  - match goal with E : _ ++ _ = _ ++ _ |- _ => rewrite <- app_assoc in E;
      destruct (hex4_det _ _ _ _ _ _ H1 H' E) as (-> & -> & _) end. contradiction.
  - match goal with E : _ ++ _ = _ ++ _ |- _ => rewrite <- !app_assoc in E;
      destruct (hex4_det _ _ _ _ _ _ H1 H1' E) as (-> & -> & E2) end. cbn [app] in E2. inversion E2 as [E3].
    destruct (hex4_det _ _ _ _ _ _ H2' H2'' E3) as (-> & -> & ->). auto.
Qed.

Lemma broken_no_item : forall x w cp l, broken x -> item w cp -> x <> w ++ l.
Proof.
  intros x w cp l B H E. destruct B as [|c l0 C| |c l0 S U|l0 Nh|h hi l0 Hh L Nt];
    destruct H as [c' A' B' C'|e' c' S'|h' cp' H' NL'|h1' hi' h2' lo' H1' L' H2'' T']; cbn [app] in E; inversion E; subst; clear E;
    try lia; try congruence.
  - eapply S; eassumption.
  - apply short_small in S'. lia.
  - eapply Nh; [reflexivity|eassumption].
  - rewrite <- app_assoc in Nh. eapply Nh; [reflexivity|eassumption].
  - apply short_small in S'. lia.
  - match goal with E : _ ++ _ = _ ++ _ |- _ => destruct (hex4_det _ _ _ _ _ _ Hh H' E) as (-> & -> & _) end. contradiction.
  - match goal with E : _ ++ _ = _ ++ _ |- _ => rewrite <- app_assoc in E;
      destruct (hex4_det _ _ _ _ _ _ Hh H1' E) as (-> & -> & E2) end. subst.
    eapply Nt; [reflexivity|eassumption|assumption].
Qed.

Lemma broken_no_quote : forall x l, broken x -> x <> 34 :: l.
Proof. intros x l B E. destruct B; inversion E; subst. lia. Qed.

(** good characters, then a broken rest: no literal *)
Lemma broken_no_lit : forall e ck b cps x s r, items b cps -> broken x -> ~ strlit e ck (34 :: b ++ x) s r.
Proof.
  intros e ck b cps x s r I B H. inversion H as [b' cps' s' l' I' O E]; subst. clear H O.
  revert b' cps' I' E. induction I as [|w cp b cps It Is IH]; intros b' cps' I' E.
  - cbn [app] in E. destruct I' as [|w' cp' b' cps' It' Is'].
    + eapply broken_no_quote; [exact B|symmetry; exact E].
    + rewrite <- app_assoc in E. eapply broken_no_item; [exact B|exact It'|symmetry; exact E].
  - destruct I' as [|w' cp' b' cps' It' Is'].
    + cbn [app] in E. apply item_hd in It. destruct It as (c & w' & -> & N & _). cbn [app] in E. inversion E; subst. congruence.
    + rewrite <- !app_assoc in E. destruct (item_det _ _ _ _ _ _ It' It E) as (_ & _ & E2). eapply IH; eassumption.
Qed.

(** good characters up to the quote, but one of them cannot be encoded *)
Lemma unencodable_no_lit : forall e ck b cps x s r, items b cps -> out_text e ck cps = None -> ~ strlit e ck (34 :: b ++ 34 :: x) s r.
Proof.
  intros e ck b cps x s r I N H. inversion H as [b' cps' s' l' I' O E]; subst. clear H.
  assert (X : cps' = cps).
  { clear O N. revert b' cps' I' E. induction I as [|w cp b cps It Is IH]; intros b' cps' I' E.
    - destruct I' as [|w' cp' b' cps' It' Is']; [reflexivity|]. exfalso.
      apply item_hd in It'. destruct It' as (c & w2 & -> & N & _). cbn [app] in E. inversion E; subst. congruence.
    - destruct I' as [|w' cp' b' cps' It' Is'].
      + exfalso. cbn [app] in E. apply item_hd in It. destruct It as (c & w' & -> & N & _). cbn [app] in E. inversion E; subst. congruence.
      + rewrite <- !app_assoc in E. destruct (item_det _ _ _ _ _ _ It' It E) as (-> & -> & E2). f_equal. eapply IH; eassumption. }
  subst. congruence.
Qed.

Lemma good_string : forall cf s b cps u, enc_ok (tgt_enc cf) (tgt_ck cf) = true ->
  feeds (src_enc cf) (src_ck cf) (sis s) (34 :: b ++ [34]) TEof -> items b cps ->
  out_text (tgt_enc cf) (tgt_ck cf) cps = Some u -> parse_string cf s = Ret (VStr u).
Proof.
  intros cf s b cps u Hok F I O. eapply dialect_eof; [assumption|exact F|]. exists [].
  apply doc_end with (l1 := []); [|apply bl_none; exact Logic.I].
  apply v_str with (l1 := 34 :: b ++ [34]); [apply bl_none; unfold space; lia|]. econstructor; eassumption.
Qed.

(** ** Blanks *)

Lemma same_rest : forall cf h c s1 s2 t k p r1 r2, enc_ok (tgt_enc cf) (tgt_ck cf) = true ->
  feeds (src_enc cf) (src_ck cf) (sis s1) (p ++ r1) t -> feeds (src_enc cf) (src_ck cf) (sis s2) (p ++ r2) t ->
  compat (src_ck cf) r1 r2 -> r2 <> [] -> spot cf k (p ++ r1) r1 -> conts cf t k r1 r2 ->
  parse_into cf h c s1 = parse_into cf h c s2.
Proof.
  intros cf h c s1 s2 t k p r1 r2 Hok F1 F2 C N2 Sp Ct.
  rewrite (parse_into_top cf h c s1 _ t F1), (parse_into_top cf h c s2 _ t F2). unfold top, a_top.
  assert (N1 : r1 <> []) by apply C.
  rewrite (ok_ne t _ (app_r p r1 N1)), (ok_ne t _ (app_r p r2 N2)).
  pose proof (ctx_body cf t Hok r1 r2 C N2 k p Sp Ct (need (p ++ r1) + need (p ++ r2)) c ltac:(lia) ltac:(lia)) as E.
  rewrite (mono_body cf t (need (p ++ r1)) c (p ++ r1)) in E.
  - rewrite (mono_body cf t (need (p ++ r2)) c (p ++ r2)) in E.
    + rewrite E. reflexivity.
    + eapply body_nofuel; [exact F2|apply ok_ne, app_r; assumption|apply le_n].
    + lia.
  - eapply body_nofuel; [exact F1|apply ok_ne, app_r; assumption|apply le_n].
  - lia.
Qed.

Lemma gap_hd : forall g c g' r, gap g -> g = c :: g' -> forall ck l, l <> [] -> compat ck l (c :: r).
Proof.
  intros g c g' r G -> ck l N. apply compat_stop; [assumption|..]; inversion G; subst; unfold space, newline in *;
    unfold digit; rewrite ?low_small by lia; lia.
Qed.

Lemma insert_gap : forall cf h c s1 s2 t k p g r, enc_ok (tgt_enc cf) (tgt_ck cf) = true ->
  feeds (src_enc cf) (src_ck cf) (sis s1) (p ++ r) t -> feeds (src_enc cf) (src_ck cf) (sis s2) (p ++ g ++ r) t ->
  spot cf k (p ++ r) r -> r <> [] -> gap g -> parse_into cf h c s1 = parse_into cf h c s2.
Proof.
  intros cf h c s1 s2 t k p g r Hok F1 F2 Sp N G. destruct g as [|x g'].
  - cbn [app] in F2. rewrite (parse_into_top cf h c s1 _ t F1), (parse_into_top cf h c s2 _ t F2). reflexivity.
  - eapply same_rest with (r1 := r) (r2 := (x :: g') ++ r); try eassumption.
    + cbn [app]. eapply gap_hd; [exact G|reflexivity|assumption].
    + discriminate.
    + apply conts_scan. symmetry. apply scan_gap; assumption.
Qed.

(** the boundary before a token is a boundary in the sense of [pos] too *)

(** ** Lenient separators *)

Lemma scan_punct : forall cf t c k l, punct c = Some k -> a_scan cf t (c :: l) = guard t l (Ret (AT k, l)).
Proof.
  intros cf t c k l P. unfold a_scan.
  assert (E : a_skip MWs t (c :: l) = Ret (c :: l)).
  { apply skip_complete; [|apply ok_cons]. apply bl_none. unfold punct in P. unfold space.
    repeat match type of P with context [?a =? ?b] => destruct (a =? b) eqn:?; [lia|] end. discriminate. }
  rewrite E. cbn [bind a_scan_tok]. rewrite P. reflexivity.
Qed.

Lemma comma_arr : forall cf h c s1 s2 t p g q, enc_ok (tgt_enc cf) (tgt_ck cf) = true ->
  feeds (src_enc cf) (src_ck cf) (sis s1) (p ++ 44 :: g ++ 93 :: q) t ->
  feeds (src_enc cf) (src_ck cf) (sis s2) (p ++ 93 :: q) t ->
  spot cf KAfterElem (p ++ 44 :: g ++ 93 :: q) (44 :: g ++ 93 :: q) -> gap g ->
  parse_into cf h c s1 = parse_into cf h c s2.
Proof.
  intros cf h c s1 s2 t p g q Hok F1 F2 Sp G. eapply same_rest; try eassumption; try discriminate.
  - apply compat_stop; try discriminate; try lia. unfold digit. rewrite low_small by lia. lia.
  - cbn [conts]. intros n vs L1 L2. unfold after_elem.
    rewrite (scan_punct cf t 44 Tval_sep) by reflexivity. rewrite (scan_punct cf t 93 Tend_arr) by reflexivity.
    rewrite ok_guard by (apply ok_ne, app_cons_ne).
    destruct n as [|n]; [unfold need in L1; lia|]. cbn [a_arr].
    rewrite (scan_gap cf t g (93 :: q) G ltac:(discriminate)), (scan_punct cf t 93 Tend_arr) by reflexivity.
    destruct q, t; reflexivity.
Qed.

Lemma comma_obj : forall cf h c s1 s2 t p g q, enc_ok (tgt_enc cf) (tgt_ck cf) = true ->
  feeds (src_enc cf) (src_ck cf) (sis s1) (p ++ 44 :: g ++ 125 :: q) t ->
  feeds (src_enc cf) (src_ck cf) (sis s2) (p ++ 125 :: q) t ->
  spot cf KAfterMem (p ++ 44 :: g ++ 125 :: q) (44 :: g ++ 125 :: q) -> gap g ->
  parse_into cf h c s1 = parse_into cf h c s2.
Proof.
  intros cf h c s1 s2 t p g q Hok F1 F2 Sp G. eapply same_rest; try eassumption; try discriminate.
  - apply compat_stop; try discriminate; try lia. unfold digit. rewrite low_small by lia. lia.
  - cbn [conts]. intros n vs L1 L2. unfold after_mem.
    rewrite (scan_punct cf t 44 Tval_sep) by reflexivity. rewrite (scan_punct cf t 125 Tend_obj) by reflexivity.
    rewrite ok_guard by (apply ok_ne, app_cons_ne).
    destruct n as [|n]; [unfold need in L1; lia|]. cbn [a_obj].
    rewrite (scan_gap cf t g (125 :: q) G ltac:(discriminate)), (scan_punct cf t 125 Tend_obj) by reflexivity.
    destruct q, t; reflexivity.
Qed.

Lemma lone_key : forall cf h c s1 s2 t p w u g q, enc_ok (tgt_enc cf) (tgt_ck cf) = true ->
  feeds (src_enc cf) (src_ck cf) (sis s1) (p ++ w ++ g ++ 125 :: q) t ->
  feeds (src_enc cf) (src_ck cf) (sis s2) (p ++ 125 :: q) t ->
  spot cf KKey (p ++ w ++ g ++ 125 :: q) (w ++ g ++ 125 :: q) ->
  strlit (tgt_enc cf) (tgt_ck cf) (w ++ g ++ 125 :: q) u (g ++ 125 :: q) -> gap g ->
  parse_into cf h c s1 = parse_into cf h c s2.
Proof.
  intros cf h c s1 s2 t p w u g q Hok F1 F2 Sp Sl G. eapply same_rest; try eassumption; try discriminate.
  - apply compat_stop; try lia.
    + destruct (strlit_start cf _ _ _ _ _ Sl) as (l5 & E & _). rewrite E. discriminate.
    + unfold digit. rewrite low_small by lia. lia.
  - cbn [conts]. intros n m L1 L2. destruct n as [|n]; [unfold need in L1; lia|].
    assert (B : blank (w ++ g ++ 125 :: q) (w ++ g ++ 125 :: q)).
    { apply bl_none. destruct (strlit_start cf _ _ _ _ _ Sl) as (l5 & E & _). rewrite E. unfold space. lia. }
    destruct n as [|n]; [exfalso; unfold need in L1; rewrite !app_length in L1; cbn [length] in L1; lia|].
    assert (E : a_obj cf t (S (S n)) m (w ++ g ++ 125 :: q) = after_key cf t (S n) m u (g ++ 125 :: q)).
    { destruct (strlit_start cf _ _ _ _ _ Sl) as (l5 & El & Ll). rewrite El in *.
      cbn [a_obj]. rewrite (scan_c cf t _ _ _ _ B (ta_str cf l5) (ok_cons _ _ _)).
      assert (Gs : a_get_string cf t (S (S n)) (34 :: l5) = (u, Ret (g ++ 125 :: q))).
      { apply get_string_iff; [assumption|unfold need in L1; cbn [length] in *; lia|]. split; [assumption|apply ok_ne, app_cons_ne]. }
      rewrite Gs. reflexivity. }
    rewrite E. unfold after_key. rewrite (scan_gap cf t g (125 :: q) G ltac:(discriminate)). cbn [a_obj].
    rewrite (scan_punct cf t 125 Tend_obj) by reflexivity.
    destruct q, t; reflexivity.
Qed.

(** ** Duplicate keys *)

Lemma obj_of_first : forall ms m k v, obj_of ms m -> assoc k v ms -> In (k, v) m.
Proof. intros ms m k v [_ E] A. apply assoc_in. apply E. assumption. Qed.

Lemma obj_of_keys : forall ms m k, obj_of ms m -> (In k (map fst m) <-> In k (map fst ms)).
Proof.
  assert (X : forall (l : list (str * value)) k, In k (map fst l) <-> exists v, assoc k v l).
  { induction l as [|[k' v'] l IH]; intro k; cbn [map fst In].
    - split; [intros []|intros (v & H); inversion H].
    - rewrite IH. split.
      + intros [->|(v & H)]; [exists v'; constructor|].
        destruct (str_eqb k' k) eqn:E; [apply str_eqb_iff in E; subst; exists v'; constructor|].
        apply str_eqb_neq in E. exists v. constructor; assumption.
      + intros (v & H). inversion H; subst; auto. right. eauto. }
  intros ms m k [_ E]. rewrite !X. split; intros (v & H); exists v; apply E; assumption.
Qed.

Lemma obj_of_perm : forall ms1 ms2 m1 m2, Permutation ms1 ms2 -> NoDup (map fst ms1) ->
  obj_of ms1 m1 -> obj_of ms2 m2 -> m1 = m2.
Proof.
  intros ms1 ms2 m1 m2 P N O1 O2.
  assert (X : forall (l : list (str * value)) k v, NoDup (map fst l) -> (assoc k v l <-> In (k, v) l)).
  { induction l as [|[k' v'] l IH]; intros k v H; cbn [map fst In] in *.
    - split; [intro A; inversion A|intros []].
    - inversion H as [|? ? N1 N2]; subst. split.
      + intro A. inversion A; subst; [auto|]. right. apply IH; assumption.
      + intros [E|I]; [inversion E; subst; constructor|]. apply as_next; [|apply IH; assumption].
        intros ->. apply N1. apply (in_map fst) in I. exact I. }
  destruct O1 as [S1 E1], O2 as [S2 E2]. apply sorted_unique; [assumption|assumption|]. intros k v.
  assert (N2 : NoDup (map fst ms2)) by (eapply Permutation_NoDup; [apply Permutation_map; exact P|assumption]).
  rewrite <- E1, <- E2, !X by assumption. split; intro I; [eapply Permutation_in; [exact P|exact I]|].
  eapply Permutation_in; [apply Permutation_sym; exact P|exact I].
Qed.

Lemma val_ordered : forall cf l v l', val cf l v l' -> ordered v.
Proof.
  intro cf.
  apply (val_mut cf (fun _ v _ => ordered v) (fun _ vs _ => Forall ordered vs) (fun _ ms _ => Forall (fun p => ordered (snd p)) ms)).
  - intros l l1 v l' B L. inversion L; constructor.
  - intros l l1 v l' B H. destruct H as [c l0 v l2 C1 C2 U|l0 v l2 U|l0 v l2 U]; inversion U; subst; constructor.
  - intros. constructor.
  - intros l l1 vs l' B E F. constructor. apply Forall_forall. assumption.
  - intros l l1 ms m l' B M F [S E]. constructor; [assumption|].
    rewrite Forall_forall in *. intros k v H. apply sorted_in_assoc in H; [|assumption]. apply E in H.
    apply assoc_in in H. exact (F _ H).
  - intros. constructor.
  - intros. constructor; [assumption|constructor].
  - intros. constructor; assumption.
  - intros. constructor.
  - intros. constructor.
  - intros. constructor; [assumption|constructor].
  - intros. constructor; assumption.
Qed.

Lemma parse_ordered : forall cf s v, enc_ok (tgt_enc cf) (tgt_ck cf) = true -> parse_string cf s = Ret v -> ordered v.
Proof.
  intros cf s v Hok H. destruct (feeds_string (src_enc cf) (src_ck cf) s) as (l & t & F & _).
  apply (dialect cf s l t v Hok F) in H. destruct H as (r & D & _). destruct D; eapply val_ordered; eassumption.
Qed.

Lemma parse_object : forall cf s l1 ms l', enc_ok (tgt_enc cf) (tgt_ck cf) = true ->
  feeds (src_enc cf) (src_ck cf) (sis s) (123 :: l1) TEof -> members cf l1 ms l' -> blank l' [] ->
  exists m, parse_string cf s = Ret (VObj m) /\ obj_of ms m.
Proof.
  intros cf s l1 ms l' Hok F M B. exists (emplace_all ms []).
  assert (O : obj_of ms (emplace_all ms [])) by (apply obj_of_iff; reflexivity).
  split; [|assumption]. eapply dialect_eof; [assumption|exact F|]. exists []. apply doc_end with (l1 := l'); [|assumption].
  apply v_obj with (l1 := l1) (ms := ms); [apply bl_none; unfold space; lia|assumption|assumption].
Qed.

(** ** Non-ASCII characters *)

Lemma high_reject : forall cf s l t k c r, enc_ok (tgt_enc cf) (tgt_ck cf) = true ->
  feeds (src_enc cf) (src_ck cf) (sis s) l t -> pos cf k l (c :: r) -> 127 < c ->
  exists m, parse_string cf s = Throw (EDeser m).
Proof.
  intros cf s l t k c r Hok F P H. eapply reject; try eassumption.
  - right. discriminate.
  - destruct k; cbn [fits]; unfold starts_val; lia.
  - intro B. inversion B; subst. lia.
  - intro B. inversion B; subst; lia.
Qed.

(** after a complete value at a value position *)
Lemma inside_after : forall cf k l r, inside cf k l r -> k = KVal \/ k = KElem -> forall v l1 r1, val cf r v l1 -> blank l1 r1 ->
  inside cf KAfterElem l r1 \/ inside cf KAfterMem l r1.
Proof.
  intros cf.
  assert (X : forall l v l1, blank l l1 -> forall r, val cf l1 v r -> val cf l v r).
  { intros l v l1 B r V.
    assert (Bb : forall x, blank l1 x -> x = l1).
    { pose proof (blank_solid _ _ B) as S. intros x H. destruct l1 as [|c l1]; [inversion H; reflexivity|].
      cbn in S. inversion H; subst; try reflexivity; destruct S; unfold space in *; lia. }
    inversion V; subst; match goal with H : blank l1 _ |- _ => apply Bb in H; subst end;
      [eapply v_lit|eapply v_num|eapply v_str|eapply v_arr|eapply v_obj]; eassumption. }
  intros k l r H.
  apply (inside_mut cf
    (fun k l r => k = KVal \/ k = KElem -> forall v l1 r1, val cf r v l1 -> blank l1 r1 -> inside cf KAfterElem l r1 \/ inside cf KAfterMem l r1)
    (fun k l r => k = KVal \/ k = KElem -> forall v l1 r1, val cf r v l1 -> blank l1 r1 -> epos cf KAfterElem l r1 \/ epos cf KAfterMem l r1)
    (fun k l r => k = KVal \/ k = KElem -> forall v l1 r1, val cf r v l1 -> blank l1 r1 -> mpos cf KAfterElem l r1 \/ mpos cf KAfterMem l r1)); try exact H; clear k l r H.
  - intros k l l1 r B _ IH K v l2 r1 V B1. destruct (IH K v l2 r1 V B1); [left|right]; eapply in_arr; eassumption.
  - intros k l l1 r B _ IH K v l2 r1 V B1. destruct (IH K v l2 r1 V B1); [left|right]; eapply in_obj; eassumption.
  - intros l r B _ v l1 r1 V B1. left. eapply ep_after; [eapply X; eassumption|assumption].
  - intros k l r _ IH K v l1 r1 V B1. destruct (IH K v l1 r1 V B1); [left|right]; apply ep_in; assumption.
  - intros l v l1 r V B [K|K]; discriminate.
  - intros k l v l1 l2 r V B _ IH K v' l3 r1 V' B1. destruct (IH K v' l3 r1 V' B1); [left|right]; eapply ep_next; eassumption.
  - intros l r B [K|K]; discriminate.
  - intros l l1 s l2 r B S B2 [K|K]; discriminate.
  - intros l l1 s l2 l3 r B S B2 B3 K v l4 r1 V B1. right. eapply mp_after; try eassumption. eapply X; eassumption.
  - intros k l l1 s l2 l3 r B S B2 _ IH K v l4 r1 V B1. destruct (IH K v l4 r1 V B1); [left|right]; eapply mp_in; eassumption.
  - intros l l1 s l2 l3 v l4 r B S B2 V B3 [K|K]; discriminate.
  - intros k l l1 s l2 l3 v l4 l5 r B S B2 V B3 _ IH K v' l6 r1 V' B1. destruct (IH K v' l6 r1 V' B1); [left|right]; eapply mp_next; eassumption.
Qed.

Lemma blank_val : forall cf l l1 v r, blank l l1 -> val cf l1 v r -> val cf l v r.
Proof.
  intros cf l l1 v r B V.
  assert (Bb : forall x, blank l1 x -> x = l1).
  { pose proof (blank_solid _ _ B) as S. intros x H. destruct l1 as [|c l1]; [inversion H; reflexivity|].
    cbn in S. inversion H; subst; try reflexivity; destruct S; unfold space in *; lia. }
  inversion V; subst; match goal with H : blank l1 _ |- _ => apply Bb in H; subst end;
    [eapply v_lit|eapply v_num|eapply v_str|eapply v_arr|eapply v_obj]; eassumption.
Qed.

Lemma high_after : forall cf s l t k r v c q, enc_ok (tgt_enc cf) (tgt_ck cf) = true ->
  feeds (src_enc cf) (src_ck cf) (sis s) l t -> pos cf k l r -> k = KVal \/ k = KElem ->
  val cf r v (c :: q) -> 127 < c -> exists m, parse_string cf s = Throw (EDeser m).
Proof.
  intros cf s l t k r v c q Hok F P K V H.
  assert (B : blank (c :: q) (c :: q)) by (apply bl_none; unfold space; lia).
  destruct P as [l r Bl|k l r In|l v' l1 r V' Bl].
  - eapply high_reject; [exact Hok|exact F| |exact H]. eapply ps_end; [|exact B]. eapply blank_val; eassumption.
  - destruct (inside_after cf k l r In K v _ _ V B) as [X|X];
      (eapply high_reject; [exact Hok|exact F| |exact H]; apply ps_in; exact X).
  - destruct K; discriminate.
Qed.

(** no token can be read at a position *)
Lemma no_tok_reject : forall cf s l t k r, enc_ok (tgt_enc cf) (tgt_ck cf) = true ->
  feeds (src_enc cf) (src_ck cf) (sis s) l t -> pos cf k l r -> r <> [] ->
  (forall x r', ~ tok_at cf r x r') -> ~ bad_sign (src_ck cf) r -> ~ overflow (src_ck cf) (ndebug cf) r ->
  exists m, parse_string cf s = Throw (EDeser m).
Proof.
  intros cf s l t k r Hok F P N Nt Nb No. rewrite (parse_string_tops cf s l t F).
  assert (O : ok t r) by (apply ok_ne; assumption).
  assert (Ol : ok t l) by (eapply ok_mono; [exact O|eapply pos_len; exact P]).
  assert (S : stuck cf t OErr k r).
  { split; [assumption|]. left. pose proof (nice_scan_tok false cf t r) as Ni.
    destruct (a_scan_tok cf t r) as [[x r']|e| | |] eqn:E.
    - exfalso. apply scan_tok_iff in E; [|assumption]. apply (Nt x r'), E.
    - destruct Ni as [m ->]. cbn. eauto.
    - exfalso. assert (X : badtok true cf t r) by (apply scan_tok_x; rewrite E; reflexivity). apply Nb, X.
    - exfalso. assert (X : badtok false cf t r) by (apply scan_tok_x; rewrite E; reflexivity). apply No, X.
    - discriminate Ni. }
  pose proof (pos_body cf t Hok k l r P OErr (need l) VNull S (le_n _)) as [m H].
  unfold tops. rewrite Ol. destruct (a_body cf t (need l) VNull l) as [v o]. cbn [snd] in H. subst o. cbn. eauto.
Qed.

Lemma low32 : forall c, c < 4294967296 -> low C32 c = c.
Proof. intros c H. unfold low. apply N.mod_small. assumption. Qed.

Lemma app_prefix : forall (a b : list N) c q l, a ++ l = b ++ c :: q -> (length b < length a)%nat -> In c a.
Proof.
  induction a as [|x a IH]; intros b c q l E L; [cbn in L; lia|]. destruct b as [|y b]; cbn [app length] in *.
  - inversion E; subst. left. reflexivity.
  - inversion E; subst. right. eapply IH; [eassumption|lia].
Qed.

(** the letters of a literal in 32-bit input *)
Lemma literal_reject : forall cf s l t k x w c q, enc_ok (tgt_enc cf) (tgt_ck cf) = true -> src_ck cf = C32 ->
  feeds (src_enc cf) (src_ck cf) (sis s) l t -> pos cf k l (x :: w ++ c :: q) ->
  (x = 116 /\ (length w < 3)%nat) \/ (x = 102 /\ (length w < 4)%nat) \/ (x = 110 /\ (length w < 3)%nat) ->
  127 < c -> c < 4294967296 -> exists m, parse_string cf s = Throw (EDeser m).
Proof.
  intros cf s l t k x w c q Hok Ck F P X H H2. eapply no_tok_reject; try eassumption; try discriminate.
  - assert (M : forall a y l2, map (low C32) a = y -> (length w < length y)%nat -> Forall (fun z => z < 128) y ->
      a ++ l2 = w ++ c :: q -> False).
    { intros a y l2 M L Fy E. assert (La : length a = length y) by (rewrite <- M, map_length; reflexivity).
      assert (I : In c a) by (eapply app_prefix; [exact E|lia]).
      apply (in_map (low C32)) in I. rewrite M, low32 in I by assumption. rewrite Forall_forall in Fy. apply Fy in I. lia. }
    intros y r' T. rewrite Ck in *.
    inversion T; subst; try lia;
      lazymatch goal with
      | L : literal _ _ _ _ |- _ => rewrite Ck in L; inversion L; subst;
          lazymatch goal with Mw : map _ _ = _ |- _ => eapply M; [exact Mw|cbn [length]; lia|repeat constructor|eassumption] end
      | Nu : number _ _ _ _ _ |- _ => inversion Nu; subst; lia
      end.
  - intro B. inversion B; subst. lia.
  - intro B. inversion B; subst; lia.
Qed.
