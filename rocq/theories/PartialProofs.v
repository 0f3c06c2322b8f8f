(** What a throwing parse leaves in the value. *)
From Coq Require Import Lia ZifyBool ZifyNat ZifyN.
From Verif Require Import Base Stream Encoding Value Token Message Parser EncodingProofs Feeds ListMachine Simulation SimParse
  SpecUnicode SpecGrammar SpecPartial GrammarLex GrammarTok ObjFacts GrammarProofs SpecPos SpecGap PosProofs PosSound Mono Context TextFacts GrammarFacts.
Open Scope N_scope.

Lemma on_ok : forall t l, on t l <-> ok t l.
Proof.
  intros t l. unfold on, ok. destruct l as [|c l].
  - destruct t; cbn; split; intro H; auto; [destruct H as [H|H]; [discriminate|contradiction]|discriminate].
  - split; intro H; [destruct t; reflexivity|right; discriminate].
Qed.

(** ** Strings *)
Section Str.
Variables (cf : pcfg) (t : term).
Hypothesis Hok : enc_ok (tgt_enc cf) (tgt_ck cf) = true.

Definition str_left (acc l : list N) (o : ostream) : Prop :=
  exists b x cps s, l = b ++ x /\ items b cps /\ out_text (tgt_enc cf) (tgt_ck cf) cps = Some s /\ os_units o = acc ++ s /\ no_more cf t x.

Lemma left_here : forall acc l o, os_units o = acc -> no_more cf t l -> str_left acc l o.
Proof.
  intros acc l o E S. exists [], l, [], []. split; [reflexivity|]. split; [constructor|]. split; [reflexivity|].
  rewrite app_nil_r. auto.
Qed.
Lemma left_step : forall acc w cp us l o, item w cp -> out_units (tgt_enc cf) (tgt_ck cf) cp = Some us ->
  str_left (acc ++ us) l o -> str_left acc (w ++ l) o.
Proof.
  intros acc w cp us l o I U (b & x & cps & s & -> & Is & T & E & S).
  exists (w ++ b), x, (cp :: cps), (us ++ s). split; [apply app_assoc|]. split; [constructor; assumption|].
  cbn [out_text]. rewrite U, T. rewrite app_assoc. auto.
Qed.

Lemma encode_step : forall acc cp m (k : ostream -> ostream * outcome (list N)) o e,
  (let o := encode (tgt_enc cf) (tgt_ck cf) (mkOs acc false) cp in
    if os_fail o then (o, fail m) else k o) = (o, Throw e) ->
   (out_units (tgt_enc cf) (tgt_ck cf) cp = None /\ os_units o = acc) \/
   exists us, out_units (tgt_enc cf) (tgt_ck cf) cp = Some us /\ k (mkOs (acc ++ us) false) = (o, Throw e).
Proof.
  intros acc cp m k o e. cbv zeta. rewrite encode_units by assumption. rewrite out_units_eq.
  destruct (enc_units (tgt_enc cf) (tgt_ck cf) cp) as [us|]; cbn [os_fail]; intro H.
  - right. eauto.
  - left. inversion H. auto.
Qed.

Lemma string_left : forall n acc x l o e,
  a_string cf t n (mkOs acc false) (x :: l) = (o, Throw e) -> str_left acc l o.
Proof.
  induction n as [|n IH]; intros acc x l o e H; [discriminate|].
  cbn [a_string tl] in H. destruct l as [|c l2].
  { inversion H; subst. apply left_here; [reflexivity|]. split.
    - intros w cp us y I _ E. apply item_hd in I. destruct I as (? & ? & -> & _). discriminate.
    - discriminate. }
  destruct (c =? c_quote) eqn:E34.
  { apply N.eqb_eq in E34. subst c. inversion H as [[Ho Hg]]. subst o. apply left_here; [reflexivity|]. split.
    - intros w cp us y I _ E. apply item_hd in I. destruct I as (c & w' & -> & N34 & _). cbn [app] in E. inversion E; subst. contradiction N34; reflexivity.
    - intros y E. inversion E; subst y. rewrite on_ok. intro O. rewrite ok_guard in Hg by assumption. discriminate. }
  apply N.eqb_neq in E34.
  assert (NQ : forall y, c :: l2 = 34 :: y -> ~ on t y) by (intros y E; inversion E; subst; congruence).
  destruct (c <=? 31) eqn:E31.
  { inversion H; subst. apply left_here; [reflexivity|]. split; [|exact NQ].
    intros w cp us y I _ E. apply item_hd in I. destruct I as (c' & w' & -> & _ & Lo & _). cbn [app] in E. inversion E; subst. lia. }
  destruct (c =? c_bslash) eqn:E92.
  - apply N.eqb_eq in E92. subst c.
    destruct l2 as [|y l3].
    { assert (Eo : os_units o = acc).
      { destruct (at_bad t []); [inversion H; reflexivity|].
        cbn [hd0 hd] in H. change (simple_escape 0) with (@None N) in H. change (0 =? c_u) with false in H. inversion H. reflexivity. }
      apply left_here; [exact Eo|]. split; [|exact NQ].
      intros w cp us y I _ E. apply item_hd in I. destruct I as (c' & w' & -> & _ & Lo & _ & I). cbn [app] in E. inversion E; subst.
      destruct (I eq_refl) as (e2 & w2 & -> & _). discriminate. }
    change (at_bad t (y :: l3)) with false in H. cbv iota in H. cbn [hd0 hd] in H.
    destruct (simple_escape y) as [z|] eqn:Es.
    + apply simple_iff in Es. rewrite (put_units (tgt_enc cf)) in H by (apply short_small in Es; lia).
      rewrite small_units in H by (apply short_small in Es; lia). apply IH in H.
      apply (left_step acc [92; y] z [z] l3); [constructor; assumption|apply small_units; apply short_small in Es; lia|assumption].
    + destruct (y =? c_u) eqn:E117.
      * apply N.eqb_eq in E117. subst y.
        destruct (a_u t (117 :: l3)) as [[cp l4]| | | |] eqn:Eu; try discriminate.
        -- apply (encode_step acc cp _ (fun o => a_string cf t n o l4)) in H.
           apply u_iff in Eu. destruct Eu as (w & y & l1 & -> & -> & I).
           destruct H as [[U Eo]|(us & U & H)].
           ++ apply left_here; [exact Eo|]. split; [|exact NQ].
              intros w' cp' us' y' I' U' E.
              assert (E2 : (92 :: 117 :: w ++ [y]) ++ l1 = w' ++ y') by (cbn [app]; rewrite <- app_assoc; exact E).
              destruct (item_det _ _ _ _ _ _ I I' E2) as (_ & -> & _). congruence.
           ++ apply IH in H. replace (92 :: 117 :: w ++ y :: l1) with ((92 :: 117 :: w ++ [y]) ++ l1) by (cbn [app]; rewrite <- app_assoc; reflexivity).
              eapply left_step; eassumption.
        -- inversion H; subst. apply left_here; [reflexivity|]. split; [|exact NQ].
           intros w cp us y I _ E. pose proof I as I0. apply item_hd in I.
           destruct I as (c' & w' & -> & _ & Lo & _ & I). cbn [app] in E. inversion E; subst.
           destruct (I eq_refl) as (e2 & w2 & -> & J). cbn [app] in H2. inversion H2; subst.
           destruct J as [[J ->]|(_ & w3 & z & ->)]; [apply short_small in J; lia|].
           assert (Eu2 : a_u t (117 :: (w3 ++ [z]) ++ y) = Ret (cp, z :: y)).
           { apply u_iff. exists w3, z, y. rewrite <- app_assoc. auto. }
           congruence.
      * inversion H; subst. apply left_here; [reflexivity|]. split; [|exact NQ].
        intros w cp us z I _ E. apply item_hd in I.
        destruct I as (c' & w' & -> & _ & Lo & _ & I). cbn [app] in E. inversion E; subst.
        destruct (I eq_refl) as (e2 & w2 & -> & J). cbn [app] in H2. inversion H2; subst.
        destruct J as [[J _]|[-> _]]; [apply simple_iff in J; congruence|discriminate].
  - apply N.eqb_neq in E92. apply (encode_step acc c _ (fun o => a_string cf t n o (c :: l2))) in H.
    assert (I0 : item [c] c) by (constructor; lia).
    destruct H as [[U Eo]|(us & U & H)].
    + apply left_here; [exact Eo|]. split; [|exact NQ]. intros w cp us y I U' E.
      destruct (item_det _ _ _ _ _ _ I0 I E) as (_ & -> & _). congruence.
    + apply IH in H. apply (left_step acc [c] c us l2); assumption.
Qed.
End Str.

(** ** Values *)
Section Left.
Variables (cf : pcfg) (t : term).
Hypothesis Hok : enc_ok (tgt_enc cf) (tgt_ck cf) = true.
Notation on := (on t).

Lemma value_run : forall l, ok t l -> has_value cf t l -> exists k l1, a_scan cf t l = Ret (k, l1) /\ a_starts k = true.
Proof.
  intros l O (v & l' & V & O'). apply on_ok in O'.
  assert (E : a_parse cf t (2 * length l + 1) VNull None l = (v, Ret l')) by (apply parse_iff; auto).
  destruct (parse_scan _ _ _ _ _ _ _ E) as (k & lk & S & St & _). eauto.
Qed.
Lemma opens_run : forall l, opens t l -> exists k l1, a_scan cf t l = Ret (k, l1) /\ a_starts k = true.
Proof.
  intros l (l1 & [B|[O [B|B]]]); [|apply on_ok in O|apply on_ok in O].
  - eexists _, _. split; [apply (scan_c cf t _ _ _ _ B (ta_str cf l1) (ok_cons _ _ _))|reflexivity].
  - eexists _, _. split; [apply (scan_c cf t _ _ _ _ B (ta_larr cf l1) O)|reflexivity].
  - eexists _, _. split; [apply (scan_c cf t _ _ _ _ B (ta_lobj cf l1) O)|reflexivity].
Qed.
Lemma not_started : forall l, ok t l -> (forall k l1, a_scan cf t l = Ret (k, l1) -> a_starts k = false) ->
  ~ opens t l /\ ~ has_value cf t l.
Proof.
  intros l O N. split; intro H.
  - destruct (opens_run l H) as (k & l1 & S & St). rewrite (N _ _ S) in St. discriminate.
  - destruct (value_run l O H) as (k & l1 & S & St). rewrite (N _ _ S) in St. discriminate.
Qed.
Lemma no_comma : forall l, (forall l1, a_scan cf t l <> Ret (AT Tval_sep, l1)) -> ~ has_comma t l.
Proof. intros l N (l' & B & O). apply on_ok in O. exact (N _ (scan_c cf t _ _ _ _ B (ta_comma cf l') O)). Qed.
Lemma parse_tok : forall n c k l l1, a_scan cf t l = Ret (k, l1) -> a_parse cf t n c (Some k) l1 = a_parse cf t n c None l.
Proof. intros [|n] c k l l1 S; [reflexivity|]. cbn [a_parse]. rewrite S. reflexivity. Qed.

Lemma member_run : forall n l k v l', member cf t l k v l' -> (2 * length l + 1 <= n)%nat ->
  exists l1 l2 l3, a_scan cf t l = Ret (AT Tstring, 34 :: l1) /\ (2 * length l1 + 3 <= n)%nat /\
    a_get_string cf t (S n) (34 :: l1) = (k, Ret l2) /\
    a_scan cf t l2 = Ret (AT Tname_sep, l3) /\ a_parse cf t n VNull None l3 = (v, Ret l').
Proof.
  intros n l k v l' (l1 & l2 & l3 & B & Sl & B2 & V & O) L. apply on_ok in O.
  assert (O2 : ok t l2) by (eapply ok_blank; [exact B2|apply ok_cons]).
  destruct (complete_val cf t Hok _ _ _ V O) as [Lv C].
  assert (O3 : ok t l3) by (eapply ok_mono; [exact O|lia]).
  assert (X : exists l5, l1 = 34 :: l5 /\ (length l2 + 2 <= length l1)%nat) by (eapply strlit_start; eassumption).
  destruct X as (l5 & -> & Ll).
  pose proof (blank_len _ _ B) as Bl. pose proof (blank_len _ _ B2) as Bl2. cbn [length] in *.
  exists l5, l2, l3. split; [apply (scan_c cf t _ _ _ _ B (ta_str cf l5) (ok_cons _ _ _))|]. split; [lia|].
  split; [apply get_string_iff; [assumption|lia|auto]|].
  split; [apply (scan_c cf t _ _ _ _ B2 (ta_colon cf l3) O3)|]. apply C. lia.
Qed.

Definition ends (A : Type) (r : outcome A) : Prop := match r with Ret _ | Throw _ => True | _ => False end.
Definition p_parse n := forall c l v e, ok t l -> (2 * length l + 1 <= n)%nat ->
  a_parse cf t n c None l = (v, Throw e) -> remains cf t c l v.
Definition p_arr n := forall vs l vs' r, ok t l -> (2 * length l + 2 <= n)%nat ->
  a_arr cf t n vs l = (vs', r) -> ends _ r -> exists ws, vs' = vs ++ ws /\ left_elems cf t l ws.
Definition p_obj n := forall m l m' r, ok t l -> (2 * length l + 2 <= n)%nat ->
  a_obj cf t n m l = (m', r) -> ends _ r -> exists ms, m' = emplace_all ms m /\ left_members cf t l ms.

Lemma left_all : forall n, p_parse n /\ p_arr n /\ p_obj n.
Proof.
  induction n as [|n (IHp & IHa & IHo)].
  { split; [|split]; repeat intro; lia. }
  split; [|split].
  - intros c l v e O L H. cbn [a_parse] in H.
    destruct (a_scan cf t l) as [[k l1]| | | |] eqn:E.
    2:{ inversion H; subst. destruct (not_started l O) as [No Nv]; [intros; congruence|]. constructor; assumption. }
    2-4: discriminate.
    pose proof E as E'. apply a_scan_len in E'. destruct E' as [L1 L2].
    pose proof E as S. apply scan_iff in E; [|assumption]. destruct E as (l2 & B & T & O1).
    destruct k as [k| |]; try discriminate. apply tok_none in T.
    destruct k; try discriminate; try contradiction;
      try (inversion H; subst; destruct (not_started l O) as [No Nv];
           [intros k0 l0 S0; rewrite S in S0; inversion S0; reflexivity|constructor; assumption]).
    + destruct T as [-> (l3 & ->)].
      destruct (a_get_string cf t (Datatypes.S n) (34 :: l3)) as [s r] eqn:Es. inversion H; subst.
      unfold a_get_string in Es. destruct (a_string cf t (Datatypes.S n) (mkOs [] false) (34 :: l3)) as [o r'] eqn:Ea.
      inversion Es; subst. destruct (string_left cf t Hok _ _ _ _ _ _ Ea) as (b & x & cps & s & -> & I & X & Eo & St).
      rewrite Eo. cbn [app]. eapply le_str; eassumption.
    + subst l2. specialize (L2 eq_refl).
      destruct (a_arr cf t n [] l1) as [vs r] eqn:Ea.
      assert (Er : ends _ r) by (destruct r as [[k l3]| | | |]; try discriminate; exact Logic.I).
      inversion H; subst. destruct (IHa _ _ _ _ O1 ltac:(lia) Ea Er) as (ws & -> & W).
      eapply le_arr; [eassumption|apply on_ok; assumption|assumption].
    + subst l2. specialize (L2 eq_refl).
      destruct (a_obj cf t n [] l1) as [m r] eqn:Ea.
      assert (Er : ends _ r) by (destruct r as [[k l3]| | | |]; try discriminate; exact Logic.I).
      inversion H; subst. destruct (IHo _ _ _ _ O1 ltac:(lia) Ea Er) as (ms & -> & W).
      eapply le_obj; [eassumption|apply on_ok; assumption|eassumption|]. apply obj_of_iff. reflexivity.
  - intros vs l vs' r O L H Er. cbn [a_arr] in H.
    destruct (a_scan cf t l) as [[k l1]| | | |] eqn:E.
    2:{ inversion H; subst. exists []. rewrite app_nil_r. split; [reflexivity|].
        destruct (not_started l O) as [No Nv]; [intros; congruence|]. constructor; assumption. }
    2-4: inversion H; subst; contradiction.
    destruct (a_starts k) eqn:Es.
    2:{ inversion H; subst. exists []. rewrite app_nil_r. split; [reflexivity|].
        destruct (not_started l O) as [No Nv]; [intros k0 l0 S0; rewrite E in S0; inversion S0; subst; assumption|]. constructor; assumption. }
    rewrite (parse_tok n VNull k l l1 E) in H.
    destruct (a_parse cf t n VNull None l) as [v rp] eqn:Ep.
    destruct rp as [l3|e| | |].
    + pose proof Ep as Ep'. apply parse_len_none in Ep'.
      apply parse_iff in Ep; [|assumption|assumption|lia]. destruct Ep as [V O3].
      destruct (a_scan cf t l3) as [[k2 l4]| | | |] eqn:E2.
      2:{ inversion H; subst. exists [v]. split; [reflexivity|]. eapply la_last; [exact V|apply on_ok; assumption|apply no_comma; congruence]. }
      2-4: inversion H; subst; contradiction.
      assert (Last : (forall l5, Ret (k2, l4) <> Ret (AT Tval_sep, l5)) -> vs' = vs ++ [v] -> exists ws, vs' = vs ++ ws /\ left_elems cf t l ws).
      { intros N ->. exists [v]. split; [reflexivity|]. eapply la_last; [exact V|apply on_ok; assumption|apply no_comma]. rewrite E2. exact N. }
      destruct k2 as [k2| |]; try (inversion H; subst; apply Last; [discriminate|reflexivity]).
      destruct k2; try (inversion H; subst; apply Last; [discriminate|reflexivity]).
      pose proof E2 as E2'. apply a_scan_len in E2'. destruct E2' as [L3 _].
      apply scan_iff in E2; [|assumption]. destruct E2 as (l5 & B2 & T2 & O4). apply tok_none in T2. subst l5.
      destruct (IHa _ _ _ _ O4 ltac:(lia) H Er) as (ws & -> & W). exists (v :: ws). rewrite <- app_assoc. split; [reflexivity|].
      eapply la_more; [exact V|exact B2|apply on_ok; assumption|exact W].
    + inversion H; subst. exists [v]. split; [reflexivity|]. apply la_part.
      * pose proof E as S. apply scan_iff in E; [|assumption]. destruct E as (l2 & B & T & O1).
        destruct n as [|n]; [lia|]. cbn [a_parse] in Ep. rewrite S in Ep.
        destruct k as [k| |]; try discriminate. apply tok_none in T. destruct k; try discriminate Es; try discriminate Ep; try contradiction.
        -- destruct T as [-> (l3 & ->)]. exists l3. left. assumption.
        -- subst l2. exists l1. right. split; [apply on_ok; assumption|]. left. assumption.
        -- subst l2. exists l1. right. split; [apply on_ok; assumption|]. right. assumption.
      * intros (v' & l' & V & O'). apply on_ok in O'.
        assert (E1 : a_parse cf t n VNull None l = (v', Ret l')) by (apply parse_iff; [assumption|assumption|lia|auto]). congruence.
      * eapply IHp; [assumption| |exact Ep]. lia.
    + inversion H; subst; contradiction.
    + inversion H; subst; contradiction.
    + inversion H; subst; contradiction.
  - intros m l m' r O L H Er. cbn [a_obj] in H.
    assert (None' : m' = m -> (forall k v l', ~ member cf t l k v l') -> exists ms, m' = emplace_all ms m /\ left_members cf t l ms).
    { intros -> N. exists []. split; [reflexivity|]. constructor. exact N. }
    destruct (a_scan cf t l) as [[k l1]| | | |] eqn:E.
    2:{ inversion H; subst. apply None'; [reflexivity|]. intros k v l' M.
        destruct (member_run n _ _ _ _ M ltac:(lia)) as (? & ? & ? & S & _). congruence. }
    2-4: inversion H; subst; contradiction.
    assert (Str : (exists l5, k = AT Tstring /\ l1 = 34 :: l5 /\ (length l1 <= length l)%nat) \/ (k <> AT Tstring /\ m' = m)).
    { pose proof E as E'. apply a_scan_len in E'. destruct E' as [L1 _].
      apply scan_iff in E; [|assumption]. destruct E as (l2 & B & T & O1).
      destruct k as [k| |]; [|right; inversion H; split; [discriminate|reflexivity]..].
      destruct k; try (right; inversion H; split; [discriminate|reflexivity]).
      left. apply tok_none in T. destruct T as [-> (l3 & ->)]. eauto. }
    destruct Str as [(l5 & -> & -> & L1)|[Nk ->]].
    2:{ apply None'; [reflexivity|]. intros k' v l' M. destruct (member_run n _ _ _ _ M ltac:(lia)) as (? & ? & ? & S & _). congruence. }
    destruct (a_get_string cf t (Datatypes.S n) (34 :: l5)) as [key rk] eqn:Es.
    destruct rk as [l4| | | |].
    2:{ inversion H; subst. apply None'; [reflexivity|]. intros k' v l' M.
        destruct (member_run n _ _ _ _ M ltac:(lia)) as (l6 & ? & ? & S & _ & G & _).
        rewrite E in S. inversion S; subst. congruence. }
    2-4: inversion H; subst; contradiction.
    pose proof Es as Es'. apply a_get_string_len in Es'.
    pose proof Es as Gs. apply get_string_iff in Gs; [|assumption|cbn [length] in *; lia]. destruct Gs as [Sl O4].
    assert (Same : forall k' v l', member cf t l k' v l' -> exists l3, a_scan cf t l4 = Ret (AT Tname_sep, l3) /\ a_parse cf t n VNull None l3 = (v, Ret l')).
    { intros k' v l' M. destruct (member_run n _ _ _ _ M ltac:(lia)) as (l6 & l7 & l3 & S & _ & G & S2 & P).
      rewrite E in S. inversion S; subst l6. rewrite Es in G. inversion G; subst. eauto. }
    destruct (a_scan cf t l4) as [[k2 l6]| | | |] eqn:E2.
    2:{ inversion H; subst. apply None'; [reflexivity|]. intros k' v l' M. destruct (Same _ _ _ M) as (? & X & _). congruence. }
    2-4: inversion H; subst; contradiction.
    assert (Col : k2 = AT Tname_sep \/ (k2 <> AT Tname_sep /\ m' = m)).
    { destruct k2 as [k2| |]; [|right; inversion H; split; [discriminate|reflexivity]..].
      destruct k2; try (right; inversion H; split; [discriminate|reflexivity]). left. reflexivity. }
    destruct Col as [->|[Nk ->]].
    2:{ apply None'; [reflexivity|]. intros k' v l' M. destruct (Same _ _ _ M) as (? & X & _). congruence. }
    pose proof E2 as E2'. apply a_scan_len in E2'. destruct E2' as [L3 _].
    apply scan_iff in E2; [|assumption]. destruct E2 as (l7 & B2 & T2 & O5). apply tok_none in T2. subst l7.
    destruct (a_parse cf t n VNull None l6) as [v rv] eqn:Ep.
    destruct rv as [l8|e| | |].
    2:{ inversion H; subst. apply None'; [reflexivity|]. intros k' v' l' M. destruct (Same _ _ _ M) as (l9 & X & Y). inversion X; subst. congruence. }
    2-4: inversion H; subst; contradiction.
    pose proof Ep as Ep'. apply parse_len_none in Ep'.
    apply parse_iff in Ep; [|assumption|assumption|lia]. destruct Ep as [V O8].
    assert (M : member cf t l key v l8).
    { apply scan_iff in E; [|assumption]. destruct E as (l2 & B & T & O1). apply tok_none in T. destruct T as [<- _].
      exists (34 :: l5), l4, l6. split; [assumption|]. split; [assumption|]. split; [assumption|]. split; [assumption|apply on_ok; assumption]. }
    destruct (a_scan cf t l8) as [[k3 l9]| | | |] eqn:E3.
    2:{ inversion H; subst. exists [(key, v)]. split; [reflexivity|]. eapply lm_last; [exact M|apply no_comma; congruence]. }
    2-4: inversion H; subst; contradiction.
    assert (Com : k3 = AT Tval_sep \/ (k3 <> AT Tval_sep /\ m' = obj_emplace key v m)).
    { destruct k3 as [k3| |]; [|right; inversion H; split; [discriminate|reflexivity]..].
      destruct k3; try (right; inversion H; split; [discriminate|reflexivity]). left. reflexivity. }
    destruct Com as [->|[Nk ->]].
    2:{ exists [(key, v)]. split; [reflexivity|]. eapply lm_last; [exact M|apply no_comma; congruence]. }
    pose proof E3 as E3'. apply a_scan_len in E3'. destruct E3' as [L4 _].
    apply scan_iff in E3; [|assumption]. destruct E3 as (l7 & B3 & T3 & O9). apply tok_none in T3. subst l7.
    destruct (IHo _ _ _ _ O9 ltac:(cbn [length] in *; lia) H Er) as (ms & -> & W). exists ((key, v) :: ms). split; [reflexivity|].
    eapply lm_more; [exact M|exact B3|apply on_ok; assumption|exact W].
Qed.
End Left.

(** ** The remaining value is determined by the text *)
Section Det.
Variables (cf : pcfg) (t : term).
Hypothesis Hok : enc_ok (tgt_enc cf) (tgt_ck cf) = true.

Lemma blank_det : forall l l1 l2, blank l l1 -> blank l l2 -> l1 = l2.
Proof.
  intros l l1 l2 B1 B2. assert (S1 : a_skip MWs TEof l = Ret l1) by (apply skip_complete; [exact B1|destruct l1; reflexivity]).
  assert (S2 : a_skip MWs TEof l = Ret l2) by (apply skip_complete; [exact B2|destruct l2; reflexivity]). congruence.
Qed.
Lemma ok_eof : forall l, ok TEof l.
Proof. intros []; reflexivity. Qed.
Lemma val_det : forall l v l' w l2, val cf l v l' -> val cf l w l2 -> v = w /\ l' = l2.
Proof.
  intros l v l' w l2 V W.
  assert (E1 : a_parse cf TEof (2 * length l + 1) VNull None l = (v, Ret l')) by (apply parse_iff; auto using ok_eof).
  assert (E2 : a_parse cf TEof (2 * length l + 1) VNull None l = (w, Ret l2)) by (apply parse_iff; auto using ok_eof).
  rewrite E1 in E2. inversion E2. auto.
Qed.
Lemma strlit_det : forall l s l' s2 l2, strlit (tgt_enc cf) (tgt_ck cf) l s l' -> strlit (tgt_enc cf) (tgt_ck cf) l s2 l2 -> s = s2 /\ l' = l2.
Proof.
  intros l s l' s2 l2 V W. inversion V; subst.
  assert (E1 : a_get_string cf TEof (S (length (b ++ 34 :: l'))) (34 :: b ++ 34 :: l') = (s, Ret l')) by (apply get_string_iff; auto using ok_eof).
  assert (E2 : a_get_string cf TEof (S (length (b ++ 34 :: l'))) (34 :: b ++ 34 :: l') = (s2, Ret l2)) by (apply get_string_iff; auto using ok_eof).
  rewrite E1 in E2. inversion E2. auto.
Qed.
Lemma member_det : forall l k v l' k2 v2 l2, member cf t l k v l' -> member cf t l k2 v2 l2 -> k = k2 /\ v = v2 /\ l' = l2.
Proof.
  intros l k v l' k2 v2 l2 (a & b & c & B & S & B2 & V & _) (a' & b' & c' & B' & S' & B2' & V' & _).
  pose proof (blank_det _ _ _ B B') as <-. destruct (strlit_det _ _ _ _ _ S S') as [<- <-].
  pose proof (blank_det _ _ _ B2 B2') as E. inversion E; subst. destruct (val_det _ _ _ _ _ V V') as [<- <-]. auto.
Qed.
Lemma comma_det : forall l l1 l2, blank l (44 :: l1) -> blank l (44 :: l2) -> l1 = l2.
Proof. intros l l1 l2 B B'. pose proof (blank_det _ _ _ B B') as E. inversion E. reflexivity. Qed.

Lemma items_det : forall b cps, items b cps -> forall b' cps' x x', items b' cps' -> b ++ x = b' ++ x' ->
  out_text (tgt_enc cf) (tgt_ck cf) cps <> None -> out_text (tgt_enc cf) (tgt_ck cf) cps' <> None ->
  no_more cf t x -> no_more cf t x' -> cps = cps'.
Proof.
  intros b cps I. induction I as [|w cp b cps I Is IH]; intros b' cps' x x' I' E T T' S S'.
  - destruct I' as [|w' cp' b' cps' I' Is']; [reflexivity|]. exfalso. cbn [app] in E. rewrite <- app_assoc in E.
    cbn [out_text] in T'. destruct (out_units (tgt_enc cf) (tgt_ck cf) cp') as [us|] eqn:U; [|congruence].
    exact (proj1 S _ _ _ _ I' U E).
  - destruct I' as [|w' cp' b' cps' I' Is'].
    + exfalso. cbn [app] in E. rewrite <- app_assoc in E. cbn [out_text] in T.
      destruct (out_units (tgt_enc cf) (tgt_ck cf) cp) as [us|] eqn:U; [|congruence]. exact (proj1 S' _ _ _ _ I U (eq_sym E)).
    + rewrite <- !app_assoc in E. destruct (item_det _ _ _ _ _ _ I I' E) as (-> & -> & E2). f_equal.
      cbn [out_text] in T, T'. destruct (out_units (tgt_enc cf) (tgt_ck cf) cp') as [us|]; [|congruence].
      apply (IH b' cps' x x'); auto; intro X; rewrite X in *; congruence.
Qed.

Scheme remains_mut := Minimality for remains Sort Prop
  with left_elems_mut := Minimality for left_elems Sort Prop
  with left_members_mut := Minimality for left_members Sort Prop.

Lemma remains_opens : forall c l v, remains cf t c l v -> (v = c /\ ~ opens t l /\ ~ has_value cf t l) \/
  (opens t l /\ ((exists b x cps s, v = VStr s /\ blank l (34 :: b ++ x) /\ items b cps /\ out_text (tgt_enc cf) (tgt_ck cf) cps = Some s /\ no_more cf t x) \/
    (exists l1 vs, v = VArr vs /\ blank l (91 :: l1) /\ left_elems cf t l1 vs) \/
    (exists l1 ms m, v = VObj m /\ blank l (123 :: l1) /\ left_members cf t l1 ms /\ obj_of ms m))).
Proof.
  intros c l v H. destruct H as [c l A B|c l b x cps s A B C D|c l l1 vs A B C|c l l1 ms m A B C D]; [left; auto|right..].
  - split; [exists (b ++ x); auto|]. left. exists b, x, cps, s. auto.
  - split; [exists l1; auto|]. right. left. eauto.
  - split; [exists l1; auto|]. right. right. exists l1, ms, m. auto.
Qed.

Lemma remains_det : forall c l v, remains cf t c l v -> forall v', remains cf t c l v' -> v = v'.
Proof.
  apply (remains_mut cf t (fun c l v => forall v', remains cf t c l v' -> v = v')
    (fun l vs => forall vs', left_elems cf t l vs' -> vs = vs') (fun l ms => forall ms', left_members cf t l ms' -> ms = ms')).
  - intros c l No Nv v' R. destruct (remains_opens _ _ _ R) as [(-> & _)|[O _]]; [reflexivity|contradiction].
  - intros c l b x cps s B I T S v' R. destruct (remains_opens _ _ _ R) as [(_ & No & _)|[O [(b' & x' & cps' & s' & -> & B' & I' & T' & S')|[(l1 & vs & -> & B' & _)|(l1 & ms & m & -> & B' & _)]]]].
    + exfalso. apply No. exists (b ++ x). auto.
    + pose proof (blank_det _ _ _ B B') as E. inversion E as [E2].
      rewrite (items_det _ _ I _ _ _ _ I' E2) in T by congruence || assumption. congruence.
    + pose proof (blank_det _ _ _ B B') as E. discriminate.
    + pose proof (blank_det _ _ _ B B') as E. discriminate.
  - intros c l l1 vs B O _ IH v' R. destruct (remains_opens _ _ _ R) as [(_ & No & _)|[_ [(b' & x' & cps' & s' & -> & B' & _)|[(l2 & vs2 & -> & B' & El)|(l2 & ms & m & -> & B' & _)]]]].
    + exfalso. apply No. exists l1. auto.
    + pose proof (blank_det _ _ _ B B') as E. discriminate.
    + pose proof (blank_det _ _ _ B B') as E. inversion E; subst. f_equal. auto.
    + pose proof (blank_det _ _ _ B B') as E. discriminate.
  - intros c l l1 ms m B O _ IH Ob v' R. destruct (remains_opens _ _ _ R) as [(_ & No & _)|[_ [(b' & x' & cps' & s' & -> & B' & _)|[(l2 & vs2 & -> & B' & _)|(l2 & ms2 & m2 & -> & B' & Me & Ob2)]]]].
    + exfalso. apply No. exists l1. auto.
    + pose proof (blank_det _ _ _ B B') as E. discriminate.
    + pose proof (blank_det _ _ _ B B') as E. discriminate.
    + pose proof (blank_det _ _ _ B B') as E. inversion E; subst. rewrite <- (IH _ Me) in Ob2.
      apply obj_of_iff in Ob. apply obj_of_iff in Ob2. congruence.
  - intros l No Nv vs' R. inversion R; subst; try reflexivity; exfalso; [contradiction|apply Nv; unfold has_value; eauto|].
    apply Nv. exists v, l1. split; [assumption|]. right. apply blank_len in H0. intros ->. cbn in H0. lia.
  - intros l v O Nv _ IH vs' R. inversion R as [|l0 v0 _ _ R'|l0 v0 l1 V On Nc|l0 v0 l1 l2 vs V B On El]; subst.
    + contradiction.
    + f_equal. auto.
    + exfalso. apply Nv. unfold has_value. eauto.
    + exfalso. apply Nv. exists v0, l1. split; [assumption|]. right. apply blank_len in B. intros ->. cbn in B. lia.
  - intros l v l1 V On Nc vs' R. inversion R as [l0 No Nv|l0 v0 _ Nv R'|l0 v0 l1' V' On' Nc'|l0 v0 l1' l2 vs V' B On' El]; subst.
    + exfalso. apply Nv. unfold has_value. eauto.
    + exfalso. apply Nv. unfold has_value. eauto.
    + destruct (val_det _ _ _ _ _ V V') as [-> _]. reflexivity.
    + destruct (val_det _ _ _ _ _ V V') as [-> ->]. exfalso. apply Nc. unfold has_comma. eauto.
  - intros l v l1 l2 vs V B On _ IH vs' R. inversion R as [l0 No Nv|l0 v0 _ Nv R'|l0 v0 l1' V' On' Nc'|l0 v0 l1' l2' vs2 V' B' On' El]; subst.
    + exfalso. apply Nv. exists v, l1. split; [assumption|]. right. apply blank_len in B. intros ->. cbn in B. lia.
    + exfalso. apply Nv. exists v, l1. split; [assumption|]. right. apply blank_len in B. intros ->. cbn in B. lia.
    + destruct (val_det _ _ _ _ _ V V') as [-> ->]. exfalso. apply Nc'. unfold has_comma. eauto.
    + destruct (val_det _ _ _ _ _ V V') as [-> <-]. rewrite (comma_det _ _ _ B B') in IH. f_equal. auto.
  - intros l N ms' R. inversion R; subst; [reflexivity| |]; exfalso; eapply N; eassumption.
  - intros l k v l1 M Nc ms' R. inversion R as [l0 N|l0 k0 v0 l1' M' Nc'|l0 k0 v0 l1' l2 ms M' B On Me]; subst.
    + exfalso. eapply N. exact M.
    + destruct (member_det _ _ _ _ _ _ _ M M') as (-> & -> & _). reflexivity.
    + destruct (member_det _ _ _ _ _ _ _ M M') as (-> & -> & <-). exfalso. apply Nc. unfold has_comma. eauto.
  - intros l k v l1 l2 ms M B On _ IH ms' R. inversion R as [l0 N|l0 k0 v0 l1' M' Nc'|l0 k0 v0 l1' l2' ms2 M' B' On' Me]; subst.
    + exfalso. eapply N. exact M.
    + destruct (member_det _ _ _ _ _ _ _ M M') as (-> & -> & <-). exfalso. apply Nc'. unfold has_comma. eauto.
    + destruct (member_det _ _ _ _ _ _ _ M M') as (-> & -> & <-). rewrite (comma_det _ _ _ B B') in IH. f_equal. auto.
Qed.
End Det.

(** ** The whole parse *)
Lemma parse_left : forall cf c s l t v e m, enc_ok (tgt_enc cf) (tgt_ck cf) = true ->
  feeds (src_enc cf) (src_ck cf) (is_open (IStr s)) l t ->
  parse_into cf HNone c s = (v, (Throw e, m)) ->
  (exists l', val cf l v l' /\ on t l') \/ (~ has_value cf t l /\ remains cf t c l v).
Proof.
  intros cf c s l t v e m Hok F H. rewrite (parse_into_top cf HNone c s l t F) in H. unfold top, a_top in H.
  destruct (at_bad t l) eqn:B.
  { right. inversion H; subst. destruct l as [|x l]; [|destruct t; discriminate].
    assert (Nb : forall x y, ~ blank [] (x :: y)) by (intros x y X; apply blank_len in X; cbn in X; lia).
    assert (Nv : ~ has_value cf t []).
    { intros (w & l' & V & _). destruct (complete_val cf TEof Hok _ _ _ V (ok_eof _)) as [L _]. cbn in L. lia. }
    split; [exact Nv|]. constructor; [|exact Nv]. intros (l1 & [X|[_ [X|X]]]); exact (Nb _ _ X). }
  unfold a_body in H. destruct (a_parse cf t (need l) c None l) as [w r] eqn:P.
  assert (L : (2 * length l + 1 <= need l)%nat) by (unfold need; lia).
  destruct r as [l'|e'| | |]; cbn in H; try (inversion H; fail).
  - left. inversion H; subst w. exists l'. rewrite on_ok. apply (parse_iff cf t Hok (need l) c); assumption.
  - right. inversion H; subst. split.
    + intros (w & l' & V & O). apply on_ok in O.
      assert (E : a_parse cf t (need l) c None l = (w, Ret l')) by (apply parse_iff; auto). congruence.
    + eapply (proj1 (left_all cf t Hok (need l))); eassumption.
Qed.

(** ** Handlers *)
Lemma parse_handled : forall cf h c s, let p := parse_into cf HNone c s in
  parse_into cf h c s = (fst p, (fst (snd p), ""%string)) /\ (exists x, feeds (src_enc cf) (src_ck cf) (is_open (IStr s)) [] (TBad x)) /\ (exists e, fst (snd p) = Throw e) \/
  parse_into cf h c s = (fst p, handle h (fst (snd p))) /\ ~ (exists x, feeds (src_enc cf) (src_ck cf) (is_open (IStr s)) [] (TBad x)).
Proof.
  intros cf h c s. cbv zeta. destruct (feeds_string (src_enc cf) (src_ck cf) s) as (l & t & F & _).
  rewrite (parse_into_top cf h c s l t F), (parse_into_top cf HNone c s l t F). unfold top, a_top.
  destruct (at_bad t l) eqn:B.
  - left. destruct l as [|x l]; [|destruct t; discriminate]. destruct t; [discriminate|]. cbn [fst snd]. unfold dec_err, fail_code, fail. eauto.
  - right. destruct (a_body cf t (need l) c l) as [v r]. cbn [fst snd]. split.
    + f_equal. destruct r; reflexivity.
    + intros [x F2]. destruct (feeds_det _ _ _ _ _ F _ _ F2) as [-> ->]. discriminate.
Qed.

Lemma parse_policies : forall cf c s,
  let p h := parse_into cf h c s in
  (forall h, fst (p h) = fst (p HNone)) /\
  p HStrict = p HNone /\
  (forall h, h = HIgnore \/ h = HRecord ->
    ((exists e, fst (snd (p h)) = Throw e) <-> (exists x, feeds (src_enc cf) (src_ck cf) (is_open (IStr s)) [] (TBad x)))) /\
  (forall h, h <> HRecord -> snd (snd (p h)) = ""%string) /\
  (forall m, fst (snd (p HNone)) = Throw (EDeser m) -> ~ (exists x, feeds (src_enc cf) (src_ck cf) (is_open (IStr s)) [] (TBad x)) ->
     snd (snd (p HRecord)) = c_str ("value deserialization error: " ++ m)) /\
  (snd (snd (p HRecord)) <> ""%string <->
   (exists e, fst (snd (p HNone)) = Throw e) /\ ~ (exists x, feeds (src_enc cf) (src_ck cf) (is_open (IStr s)) [] (TBad x))).
Proof.
  intros cf c s. cbv zeta.
  assert (H : forall h, parse_into cf h c s = (fst (parse_into cf HNone c s), (fst (snd (parse_into cf HNone c s)), ""%string)) /\
      (exists x, feeds (src_enc cf) (src_ck cf) (is_open (IStr s)) [] (TBad x)) /\ (exists e, fst (snd (parse_into cf HNone c s)) = Throw e) \/
    parse_into cf h c s = (fst (parse_into cf HNone c s), handle h (fst (snd (parse_into cf HNone c s)))) /\
      ~ (exists x, feeds (src_enc cf) (src_ck cf) (is_open (IStr s)) [] (TBad x))) by (intro h; apply parse_handled).
  pose proof (parse_total cf HNone c s) as T. cbv zeta in T.
  pose proof (H HNone) as H0. destruct (parse_into cf HNone c s) as [v [r m0]]. cbn [fst snd] in *.
  assert (E0 : m0 = ""%string) by (destruct H0 as [[E _]|[E _]]; [inversion E; reflexivity|destruct r; inversion E; reflexivity]). subst m0.
  split; [intro h; destruct (H h) as [[E _]|[E _]]; rewrite E; reflexivity|].
  split; [destruct (H HStrict) as [[E _]|[E _]]; rewrite E; [reflexivity|destruct r; reflexivity]|].
  split; [|split; [|split]].
  - intros h Hh. destruct (H h) as [(E & F & X)|[E F]]; rewrite E; cbn [fst snd].
    + split; auto.
    + split; [|contradiction]. intros [e X]. exfalso.
      destruct T as [->|[(m & ->)|[->| ->]]]; destruct Hh as [-> | ->]; discriminate.
  - intros h Hh. destruct (H h) as [(E & F & X)|[E F]]; rewrite E; cbn [fst snd]; [reflexivity|]. destruct r, h; try reflexivity; congruence.
  - intros m -> F. destruct (H HRecord) as [(E & F' & X)|[E F']]; rewrite E; [contradiction|]. reflexivity.
  - destruct (H HRecord) as [(E & F & X)|[E F]]; rewrite E; cbn [fst snd].
    + split; [congruence|]. intros [_ N]. contradiction.
    + destruct T as [->|[(m & ->)|[->| ->]]]; cbn; split; try congruence; try (intros [[e X] _]; discriminate).
      intros _. split; [eauto|assumption].
Qed.
