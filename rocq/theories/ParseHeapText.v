(** The text of strings when memory runs out; plans; documents. *)
From Coq Require Import Lia Permutation Arith.
From Verif Require Import Base Stream Encoding Value Token ValueOps ObjFacts Serializer Target TargetProofs Parser Heap Alloc SpecHeap SpecAlloc AllocRules SpecGrammar ParseHeap SpecParseHeap.
Open Scope nat_scope.

(** ** Plans *)
Definition spent (pl pl' : plan) : Prop := exists u, pl = u ++ pl'.
Lemma spent_refl : forall pl, spent pl pl.
Proof. intro pl. exists []. reflexivity. Qed.
Lemma spent_trans : forall a b c, spent a b -> spent b c -> spent a c.
Proof. intros a b c [u ->] [v ->]. exists (u ++ v). rewrite app_assoc. reflexivity. Qed.
Lemma granted_spent : forall a b, granted a b -> spent a b.
Proof. intros a b (u & E & _). exists u. exact E. Qed.
Lemma refused_spent : forall a b, refused a b -> spent a b.
Proof. intros a b (u & -> & _). exists (u ++ [true]). rewrite <- app_assoc. reflexivity. Qed.
Lemma granted_split : forall a b c, spent a b -> spent b c -> granted a c -> granted a b /\ granted b c.
Proof.
  intros a b c [u ->] [v ->] (w & E & F). rewrite app_assoc in E. apply app_inv_tail in E. subst w. apply Forall_app in F. destruct F.
  split; [exists u|exists v]; auto.
Qed.
Lemma refused_not : forall a b, refused a b -> ~ granted a b.
Proof.
  intros a b (u & -> & _) (w & E & F). change (true :: b) with ([true] ++ b) in E. rewrite app_assoc in E. apply app_inv_tail in E. subst w.
  apply Forall_app in F. destruct F as [_ F]. inversion F. discriminate.
Qed.
Lemma not_granted_r : forall a b c, spent a b -> spent b c -> ~ granted b c -> ~ granted a c.
Proof. intros a b c S1 S2 N G. apply N. apply (granted_split _ _ _ S1 S2 G). Qed.
Lemma not_granted_l : forall a b c, spent a b -> spent b c -> ~ granted a b -> ~ granted a c.
Proof. intros a b c S1 S2 N G. apply N. apply (granted_split _ _ _ S1 S2 G). Qed.

(** ** The text of a string *)
Section Text.
Variables (pl0 : plan) (ck : ckind).
Definition tlink (o : sstream) (p : ostream) : Prop :=
  spent pl0 (snd (ts_buf o)) /\
  ((granted pl0 (snd (ts_buf o)) /\ ts_fail o = os_fail p /\ fst (ts_buf o) = os_units p) \/
   (~ granted pl0 (snd (ts_buf o)) /\ ts_fail o = true /\ exists t, os_units p = fst (ts_buf o) ++ t)).

Lemma tlink_put : forall o p u, tlink o p -> tlink (ts_put (string_take ck) ck o u) (os_put ck p u).
Proof.
  intros [[w pl] fl] [q fl'] u [S H]. cbn [ts_buf ts_fail fst snd os_units os_fail] in *. unfold ts_put, os_put. cbn [ts_buf ts_fail os_fail os_units].
  destruct H as [(G & -> & ->)|(N & -> & t & ->)].
  - destruct fl' eqn:Ef.
    + split; [exact S|]. left. auto.
    + unfold string_take. cbn [fst snd]. destruct (Z.of_N u =? eof_int ck)%Z eqn:Eu.
      * split; [exact S|]. left. auto.
      * destruct pl as [|[|] pl]; cbn [negb orb fst snd].
        -- split; [exact S|]. left. auto.
        -- assert (R : refused pl0 pl) by (eapply granted_refused; [exact G|]; exists []; auto).
           split; [apply refused_spent; exact R|]. right. split; [apply refused_not; exact R|]. split; [reflexivity|]. exists [u]. reflexivity.
        -- assert (R : granted pl0 pl) by (eapply granted_trans; [exact G|]; exists [false]; auto).
           split; [apply granted_spent; exact R|]. left. auto.
  - split; [exact S|]. right. split; [exact N|]. split; [reflexivity|]. cbn [ts_buf fst].
    destruct (grows_put ck (mkOs (w ++ t) fl') u) as [x E]. unfold os_put in E. cbn [os_fail os_units] in E. rewrite E. exists (t ++ x). rewrite app_assoc. reflexivity.
Qed.
Lemma tlink_fail : forall o p, tlink o p -> tlink (ts_setfail o) (os_setfail p).
Proof.
  intros [[w pl] fl] [q fl'] [S H]. split; [exact S|]. cbn [ts_setfail os_setfail ts_buf ts_fail os_units os_fail fst snd] in *.
  destruct H as [(G & _ & E)|(N & _ & t & E)]; [left; auto|right]. split; [exact N|]. split; [reflexivity|]. exists t. exact E.
Qed.
Lemma tlink_encode : forall e o p cp, tlink o p -> tlink (t_encode (string_take ck) e ck o cp) (encode e ck p cp).
Proof.
  intros e o p cp H. pose proof tlink_put as HP. destruct e; cbn [t_encode encode].
  - apply HP. exact H.
  - unfold utf8_encode. destruct (_ <? 128)%N; [apply HP; exact H|]. destruct (_ <=? 2047)%N; [apply HP, HP; exact H|].
    destruct (_ <=? 65535)%N; [apply HP, HP, HP; exact H|]. destruct (_ <=? 1114111)%N; [apply HP, HP, HP, HP; exact H|apply tlink_fail; exact H].
  - unfold utf16_encode. destruct (_ <=? 65535)%N; [apply HP; exact H|]. destruct (_ <=? 1114111)%N; [|apply tlink_fail; exact H].
    destruct (encode_surrogates cp). apply HP, HP. exact H.
  - unfold utf32_encode. apply HP. destruct (1114111 <? _)%N; [apply tlink_fail|]; exact H.
Qed.
End Text.

Lemma grows_scan : forall cf fuel o st, grows o (fst (scan_string cf fuel o st)).
Proof.
  intros cf fuel. induction fuel as [|f IH]; intros o st; [apply grows_refl|]. cbn [scan_string].
  destruct (read_next cf st) as [st1| | | |]; try apply grows_refl. cbv zeta.
  destruct (is_eof _); [apply grows_refl|]. destruct (_ =? c_quote)%N; [apply grows_refl|]. destruct (_ <=? 31)%N; [apply grows_refl|].
  destruct (_ =? c_bslash)%N.
  - destruct (read_next cf st1) as [st2| | | |]; try apply grows_refl. destruct (simple_escape _).
    + eapply grows_trans; [apply grows_put|apply IH].
    + destruct (_ =? c_u)%N; [|apply grows_refl]. destruct (read_u cf st2) as [[cp st3]| | | |]; try apply grows_refl.
      destruct (os_fail _); [apply grows_encode|]. eapply grows_trans; [apply grows_encode|apply IH].
  - destruct (os_fail _); [apply grows_encode|]. eapply grows_trans; [apply grows_encode|apply IH].
Qed.

Lemma escape_escaped : forall c e, simple_escape c = Some e -> escaped e.
Proof.
  intros c e. unfold simple_escape, escaped.
  repeat (match goal with |- (if ?b then _ else _) = _ -> _ => destruct b end; [intro H; injection H as <-; cbv; tauto|]). discriminate.
Qed.
Lemma escape_fine : forall ck e o, escaped e -> os_fail o = false -> os_put ck o e = mkOs (os_units o ++ [e]) false.
Proof.
  intros ck e o H F. unfold os_put. rewrite F. destruct (_ =? _)%Z eqn:E; [|reflexivity]. apply Z.eqb_eq in E. exfalso.
  repeat destruct H as [<-|H]; try (destruct ck; discriminate). exact H.
Qed.

Definition returns {A} (r : outcome A) : Prop := match r with Ret _ => True | _ => False end.

(** the two scans; the second part holds when a refusal has gone unnoticed *)
Lemma mscan_ok : forall cf pl0 fuel so o st,
  spent pl0 (snd (ts_buf so)) -> os_fail o = false ->
  ((granted pl0 (snd (ts_buf so)) /\ ts_fail so = false /\ fst (ts_buf so) = os_units o) \/
   (~ granted pl0 (snd (ts_buf so)) /\ ts_fail so = true /\ clipped (fst (ts_buf so)) (os_units o))) ->
  let '(o', r) := scan_string cf fuel o st in
  let '(so', r') := mscan_string cf fuel so st in
  spent pl0 (snd (ts_buf so')) /\ ends_as r' r /\
  (granted pl0 (snd (ts_buf so')) -> r' = r /\ fst (ts_buf so') = os_units o') /\
  (exists t, os_units o' = fst (ts_buf so') ++ t) /\ (returns r' -> clipped (fst (ts_buf so')) (os_units o')).
Proof.
  intros cf pl0 fuel. induction fuel as [|f IH]; intros so o st S Fo H; cbn [scan_string mscan_string].
  - split; [exact S|]. split; [left; reflexivity|]. split; [|split; [|intros []]].
    + intro G. destruct H as [(_ & _ & E)|(N & _)]; [auto|contradiction].
    + destruct H as [(_ & _ & E)|(_ & _ & t & E & _)]; [exists []; rewrite app_nil_r; auto|exists t; exact E].
  - assert (Q : forall r : outcome pst, spent pl0 (snd (ts_buf so)) /\ ends_as r r /\
      (granted pl0 (snd (ts_buf so)) -> r = r /\ fst (ts_buf so) = os_units o) /\
      (exists t, os_units o = fst (ts_buf so) ++ t) /\ (returns r -> clipped (fst (ts_buf so)) (os_units o))).
    { intro r. split; [exact S|]. split; [left; reflexivity|]. destruct H as [(G & _ & E)|(N & _ & t & E & Ft)].
      - split; [auto|]. split; [exists []; rewrite app_nil_r; auto|]. intros _. exists []. rewrite app_nil_r. auto.
      - split; [intro G; contradiction|]. split; [exists t; exact E|]. intros _. exists t. auto. }
    assert (ENC : forall cp (st' : pst),
      let '(o', r) := (let o := encode (tgt_enc cf) (tgt_ck cf) o cp in if os_fail o then (o, fail_code "encoding failed with codepoint" cp) else scan_string cf f o st') in
      let '(so', r') := (let so := t_encode (string_take (tgt_ck cf)) (tgt_enc cf) (tgt_ck cf) so cp in if ts_fail so then (so, fail_code "encoding failed with codepoint" cp) else mscan_string cf f so st') in
      spent pl0 (snd (ts_buf so')) /\ ends_as r' r /\
      (granted pl0 (snd (ts_buf so')) -> r' = r /\ fst (ts_buf so') = os_units o') /\
      (exists t, os_units o' = fst (ts_buf so') ++ t) /\ (returns r' -> clipped (fst (ts_buf so')) (os_units o'))).
    { intros cp st'. cbv zeta. assert (L : tlink pl0 so o).
      { split; [exact S|]. destruct H as [(G & F & E)|(N & F & t & E & _)]; [left; rewrite Fo; auto|right]. split; [exact N|]. split; [exact F|]. exists t. exact E. }
      apply (tlink_encode pl0 (tgt_ck cf) (tgt_enc cf) so o cp) in L.
      set (o1 := encode (tgt_enc cf) (tgt_ck cf) o cp) in *. set (so1 := t_encode (string_take (tgt_ck cf)) (tgt_enc cf) (tgt_ck cf) so cp) in *.
      destruct L as [S1 [(G1 & F1 & E1)|(N1 & F1 & t & E1)]].
      - rewrite F1. destruct (os_fail o1) eqn:Fo1.
        + split; [exact S1|]. split; [left; reflexivity|]. split; [auto|]. split; [exists []; rewrite app_nil_r; auto|intros []].
        + apply (IH so1 o1 st' S1 Fo1). left. auto.
      - rewrite F1. destruct (os_fail o1) eqn:Fo1.
        + split; [exact S1|]. split; [left; reflexivity|]. split; [intro G; contradiction|]. split; [exists t; exact E1|intros []].
        + pose proof (grows_scan cf f o1 st') as [w W]. destruct (scan_string cf f o1 st') as [o' r]. cbn [fst] in W.
          split; [exact S1|]. split; [right; right; eexists; reflexivity|]. split; [intro G; contradiction|]. split; [|intros []].
          exists (t ++ w). rewrite W, E1, app_assoc. reflexivity. }
    destruct (read_next cf st) as [st1|e| | |]; try apply (Q _).
    cbv zeta. destruct (is_eof (p_is st1)); [apply (Q _)|]. destruct (p_cur st1 =? c_quote)%N; [apply (Q _)|].
    destruct (p_cur st1 <=? 31)%N; [apply (Q _)|]. destruct (p_cur st1 =? c_bslash)%N; [|apply ENC].
    destruct (read_next cf st1) as [st2|e| | |]; try apply (Q _).
    destruct (simple_escape (p_cur st2)) as [e|] eqn:Ee.
    + apply escape_escaped in Ee. rewrite (escape_fine (tgt_ck cf) e o Ee Fo). set (o1 := mkOs (os_units o ++ [e]) false).
      assert (L : tlink pl0 (ts_put (string_take (tgt_ck cf)) (tgt_ck cf) so e) (os_put (tgt_ck cf) o e)).
      { apply tlink_put. split; [exact S|]. destruct H as [(G & F & E)|(N & F & t & E & _)]; [left; rewrite Fo; auto|right]. split; [exact N|]. split; [exact F|]. exists t. exact E. }
      rewrite (escape_fine (tgt_ck cf) e o Ee Fo) in L. fold o1 in L.
      destruct L as [S1 [(G1 & F1 & E1)|(N1 & F1 & t1 & E1)]]; apply (IH _ o1 st2 S1 eq_refl); [left; auto|right].
      split; [exact N1|]. split; [exact F1|].
      destruct H as [(G & F & E)|(N & F & t & E & Ft)].
      * exists [e]. split; [|auto]. unfold o1. cbn [os_units]. clear E1 F1 S1. destruct so as [[w pl] fl]. cbn [ts_buf ts_fail fst snd] in F, E, G. subst fl w.
        unfold ts_put, string_take in N1 |- *. cbn [ts_buf ts_fail fst snd] in N1 |- *.
        destruct (_ =? _)%Z eqn:Eu.
        { exfalso. cbn [fst snd ts_buf ts_fail] in N1. apply N1. exact G. }
        destruct pl as [|[|] pl]; cbn [fst snd ts_buf ts_fail negb orb] in N1 |- *.
        -- exfalso. apply N1. exact G.
        -- reflexivity.
        -- exfalso. apply N1. eapply granted_trans; [exact G|]. exists [false]. auto.
      * destruct so as [[w pl] fl]. cbn [ts_buf ts_fail fst snd] in F, E. subst fl. unfold ts_put. cbn [ts_buf ts_fail fst snd]. exists (t ++ [e]). split; [|apply Forall_app; auto]. unfold o1. cbn [os_units]. rewrite E, app_assoc. reflexivity.
    + destruct (p_cur st2 =? c_u)%N; [|apply (Q _)]. destruct (read_u cf st2) as [[cp st3]|e| | |]; try apply (Q _). apply ENC.
Qed.

Lemma mget_ok : forall cf fuel st s pl, exists s' pl' t r',
  mget_string cf fuel st (s, pl) = ((s', pl'), Ret (t, r')) /\ s' = s /\ spent pl pl' /\
  let '(w, r) := get_string cf fuel st in
  ends_as r' r /\ (granted pl pl' -> r' = r /\ t = w) /\ (exists x, w = t ++ x) /\ (returns r' -> clipped t w).
Proof.
  intros cf fuel st s pl. unfold mget_string, get_string. cbn [fst snd].
  pose proof (mscan_ok cf pl fuel (mkTs ([], pl) false) (mkOs [] false) st (spent_refl _) eq_refl) as P.
  destruct (scan_string cf fuel (mkOs [] false) st) as [o r]. destruct (mscan_string cf fuel (mkTs ([], pl) false) st) as [so r'].
  destruct P as (S & E & G & X & C). { left. split; [apply granted_refl|]. auto. }
  exists s, (snd (ts_buf so)), (fst (ts_buf so)), r'. auto 10.
Qed.

(** ** Documents *)
Scheme means_i := Minimality for means Sort Prop
with means_all_i := Minimality for means_all Sort Prop
with means_members_i := Minimality for means_members Sort Prop.

Lemma means_all_app : forall ds vs ds2 vs2, means_all ds vs -> means_all ds2 vs2 -> means_all (ds ++ ds2) (vs ++ vs2).
Proof. intros ds vs ds2 vs2 H K. induction H; cbn [app]; [exact K|]. constructor; assumption. Qed.
Lemma members_app : forall ms vs ms2 vs2, means_members ms vs -> means_members ms2 vs2 -> means_members (ms ++ ms2) (vs ++ vs2).
Proof. intros ds vs ds2 vs2 H K. induction H; cbn [app]; [exact K|]. constructor; assumption. Qed.
Lemma short_all_app : forall a b c d, short_all a b -> short_all c d -> short_all (a ++ c) (b ++ d).
Proof. intros a b c d H K. induction H; cbn [app]; [exact K|]. constructor; assumption. Qed.
Lemma short_members_app : forall a b c d, short_members a b -> short_members c d -> short_members (a ++ c) (b ++ d).
Proof. intros a b c d H K. induction H; cbn [app]; [exact K|]. constructor; assumption. Qed.

(** members read in order into a map *)
Definition fills (ms : list (str * doc)) (m : list (str * value)) : Prop := exists vs, means_members ms vs /\ m = emplace_all vs [].
Lemma fills_nil : fills [] [].
Proof. exists []. split; [constructor|reflexivity]. Qed.
Lemma fills_snoc : forall ms m k d v, fills ms m -> means d v -> fills (ms ++ [(k, d)]) (obj_emplace k v m).
Proof.
  intros ms m k d v (vs & H & ->) D. exists (vs ++ [(k, v)]). split; [apply members_app; [exact H|]; constructor; [exact D|constructor]|].
  unfold emplace_all. rewrite fold_left_app. reflexivity.
Qed.
Lemma fills_means : forall ms m, fills ms m -> means (DObj ms) (VObj m).
Proof. intros ms m (vs & H & E). econstructor; [exact H|]. apply obj_of_iff. exact E. Qed.
