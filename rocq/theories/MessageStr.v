(** When the string scanner throws, and what. *)
From Coq Require Import Lia ZifyBool ZifyNat ZifyN Ascii Floats.SpecFloat.
From Verif Require Import Base Stream Encoding Value Token FloatFmt Message Parser EncodingProofs Feeds ListMachine Simulation
  SimParse SpecUnicode SpecGrammar GrammarLex GrammarTok ObjFacts GrammarProofs SpecPos SpecGap PosSound Mono Context
  SpecMessage MessageLex.

Definition hx (x : N) : Prop := exists v, hexd x v.

Lemma hx_dec : forall x, (exists v, hex_val x = Some v /\ hexd x v) \/ (hex_val x = None /\ forall v, ~ hexd x v).
Proof.
  intro x. destruct (hex_val x) as [v|] eqn:E.
  - left. exists v. split; [reflexivity|]. apply hex_val_iff. assumption.
  - right. split; [reflexivity|]. intros v H. apply hex_val_iff in H. congruence.
Qed.

Section Str.
Variables (cf : pcfg) (t : term).

Definition hex_wanted (c : N) : string := with_number "'\u' must be followed by 4 hex digits, but got" c.

Lemma T_hex : forall fs code x l m, T (a_hex t fs code (x :: l)) m <->
  (exists h l' c, l = h ++ l' /\ Forall hx h /\ (length h < length fs)%nat /\ sees t l' c /\ (forall v, ~ hexd c v) /\ m = hex_wanted c) \/
  (undecodable t m /\ Forall hx l /\ (length l < length fs)%nat).
Proof.
  induction fs as [|f fs IH]; intros code x l m; cbn [a_hex].
  { rewrite T_ret. split; [contradiction|]. cbn [length]. intros [(h & l' & c & _ & _ & L & _)|(_ & _ & L)]; lia. }
  cbn [tl length]. rewrite T_guard. destruct (hx_dec (hd0 l)) as [(v & -> & H)|(-> & H)].
  - destruct l as [|c l]; [exfalso; change (hd0 []) with 0 in H; inversion H; lia|]. cbn [hd0 hd] in H. rewrite IH. split.
    + intros [[E _]|[_ [(h & l' & c' & -> & F & L & S & D & M)|(U & F & L)]]]; [discriminate|..].
      * left. exists (c :: h), l', c'. repeat split; auto; [constructor; [exists v; assumption|assumption]|cbn; lia].
      * right. split; [assumption|]. split; [constructor; [exists v; assumption|assumption]|cbn; lia].
    + intros [(h & l' & c' & E & F & L & S & D & M)|(U & F & L)]; right; (split; [reflexivity|]).
      * left. destruct h as [|y h].
        { cbn [app] in E. subst l'. cbn [sees] in S. subst c'. exfalso. eapply D; exact H. }
        injection E as -> ->. inversion F; subst. exists h, l', c'. repeat split; auto. cbn in L. lia.
      * right. inversion F; subst. repeat split; auto. cbn in L. lia.
  - rewrite T_code. split.
    + intros [[-> U]|[O ->]]; [right; repeat split; auto; cbn; lia|].
      left. exists [], l, (hd0 l). repeat split; auto; [cbn; lia|apply ok_sees; assumption].
    + intros [(h & l' & c' & E & F & L & S & D & M)|(U & F & L)].
      * destruct h as [|y h].
        { cbn [app] in E. subst l'. apply sees_iff in S. destruct S as [O ->]. auto. }
        subst l. inversion F as [|? ? [v Hv]]; subst. exfalso. eapply H; exact Hv.
      * destruct F as [|y l [v Hv] F]; [left; auto|]. exfalso. eapply H; exact Hv.
Qed.

Lemma T_hex4 : forall x l m, T (a_hex4 t (x :: l)) m <-> bad_hex t l m \/ (undecodable t m /\ few_hex l).
Proof.
  intros x l m. unfold a_hex4. rewrite T_hex. cbn [length]. split.
  - intros [(h & l' & c & -> & F & L & S & D & ->)|(U & F & L)].
    + left. constructor; auto. split; assumption.
    + right. split; [assumption|]. split; assumption.
  - intros [H|[U [F L]]].
    + destruct H as [h l' c [F L] S D]. left. exists h, l', c. repeat split; auto.
    + right. repeat split; assumption.
Qed.

Definition lone (c : N) : string := with_number "lead surrogate must be followed by trail surrogate, but got" c.

(** what can follow "\u" *)
Inductive u_bad : list N -> string -> Prop :=
| ub_hex l m : bad_hex t l m -> u_bad l m
| ub_lone h hi l c : hex4 h hi -> lead hi -> sees t l c -> c <> 92 -> u_bad (h ++ l) (lone c)
| ub_lone2 h hi l c : hex4 h hi -> lead hi -> sees t l c -> c <> 117 -> u_bad (h ++ 92 :: l) (lone c)
| ub_hex2 h hi l m : hex4 h hi -> lead hi -> bad_hex t l m -> u_bad (h ++ 92 :: 117 :: l) m
| ub_trail h hi h2 lo l : hex4 h hi -> lead hi -> hex4 h2 lo -> ~ trail lo ->
    u_bad (h ++ 92 :: 117 :: h2 ++ l)
      (with_number "surrogate U+D800...U+DBFF must be followed by U+DC00...U+DFFF, but got" lo)
| ub_cut l m : undecodable t m -> cut_item (92 :: 117 :: l) -> u_bad l m.

Lemma hex4_cons : forall h cp, hex4 h cp -> exists a b c d, h = [a; b; c; d] /\ hx a /\ hx b /\ hx c /\ hx d.
Proof. intros h cp H. inversion H; subst. exists a, b, c, d. unfold hx. eauto 9. Qed.

Lemma hex4_run : forall h cp x l, hex4 h cp -> exists d, a_hex4 t (x :: h ++ l) = Ret (cp, d :: l).
Proof.
  intros h cp x l H. inversion H; subst. exists d. apply hex4_iff. exists a, b, c, d, l. auto.
Qed.

Lemma u_bad_T : forall x l m, u_bad l m -> T (a_u t (x :: l)) m.
Proof.
  intros x l m H. unfold a_u. rewrite T_bind.
  assert (Run : forall h hi l', hex4 h hi -> lead hi -> 
    T (let bad l := @fail_code (N * list N) "lead surrogate must be followed by trail surrogate, but got" (hd0 l) in
       guard t l' (if negb (hd0 l' =? c_bslash) then bad l' else
         guard t (tl l') (if negb (hd0 (tl l') =? c_u) then bad (tl l') else
           let* r := a_hex4 t (tl l') in let '(trail, l) := r in
           if negb (is_trail_surrogate trail)
           then fail_code "surrogate U+D800...U+DBFF must be followed by U+DC00...U+DFFF, but got" trail
           else Ret (decode_surrogates hi trail, l)))) m ->
    exists a, a_hex4 t (x :: h ++ l') = Ret a /\ T (let '(cp, l) := a in
      if is_lead_surrogate cp then
        let bad l := @fail_code (N * list N) "lead surrogate must be followed by trail surrogate, but got" (hd0 l) in
        guard t (tl l) (if negb (hd0 (tl l) =? c_bslash) then bad (tl l) else
          guard t (tl (tl l)) (if negb (hd0 (tl (tl l)) =? c_u) then bad (tl (tl l)) else
            let* r := a_hex4 t (tl (tl l)) in let '(trail, l) := r in
            if negb (is_trail_surrogate trail)
            then fail_code "surrogate U+D800...U+DBFF must be followed by U+DC00...U+DFFF, but got" trail
            else Ret (decode_surrogates cp trail, l)))
      else Ret (cp, l)) m).
  { intros h hi l' H4 Ld HT. destruct (hex4_run h hi x l' H4) as [d E]. exists (hi, d :: l'). split; [exact E|].
    cbv beta iota. apply lead_iff in Ld. rewrite Ld. exact HT. }
  destruct H as [l m H|h hi l c H4 Ld S N|h hi l c H4 Ld S N|h hi l m H4 Ld B|h hi h2 lo l H4 Ld H42 Nt|l m U C].
  - left. apply T_hex4. left. assumption.
  - right. apply (Run h hi l H4 Ld). cbv zeta. apply sees_iff in S. destruct S as [O ->]. rewrite ok_guard by assumption.
    replace (hd0 l =? c_bslash) with false by lia. apply T_code. reflexivity.
  - right. apply (Run h hi _ H4 Ld). cbv zeta. cbn [guard hd0 hd tl]. change (negb (92 =? c_bslash)) with false. cbv iota.
    apply sees_iff in S. destruct S as [O ->]. rewrite ok_guard by assumption.
    replace (hd0 l =? c_u) with false by lia. apply T_code. reflexivity.
  - right. apply (Run h hi _ H4 Ld). cbv zeta. cbn [guard hd0 hd tl]. change (negb (92 =? c_bslash)) with false.
    change (negb (117 =? c_u)) with false. cbv iota. apply T_bind. left. apply T_hex4. left. assumption.
  - right. apply (Run h hi _ H4 Ld). cbv zeta. cbn [guard hd0 hd tl]. change (negb (92 =? c_bslash)) with false.
    change (negb (117 =? c_u)) with false. cbv iota. apply T_bind. right. destruct (hex4_run h2 lo 117 l H42) as [d E].
    exists (lo, d :: l). split; [exact E|]. cbv beta iota.
    destruct (is_trail_surrogate lo) eqn:Et; [apply trail_iff in Et; contradiction|]. apply T_code. reflexivity.
  - inversion C as [| |h F E|h hi H4 Ld E|h hi H4 Ld E|h hi h2 H4 Ld F E]; subst.
    + left. apply T_hex4. right. auto.
    + right. rewrite <- (app_nil_r l). apply (Run l hi [] H4 Ld). cbv zeta. apply T_guard. left. auto.
    + right. apply (Run h hi [92] H4 Ld). cbv zeta. destruct U as (c & Et & ->). rewrite Et. apply T_code. reflexivity.
    + right. apply (Run h hi _ H4 Ld). cbv zeta. cbn [guard hd0 hd tl]. change (negb (92 =? c_bslash)) with false.
      change (negb (117 =? c_u)) with false. cbv iota. apply T_bind. left. apply T_hex4. right. auto.
Qed.

Lemma T_u_bad : forall x l m, T (a_u t (x :: l)) m -> u_bad l m.
Proof.
  intros x l m H. unfold a_u in H. apply T_bind in H. destruct H as [H|([hi r] & E & H)].
  { apply T_hex4 in H. destruct H as [H|[U F]]; [apply ub_hex; assumption|apply ub_cut; [assumption|apply ci_hex; assumption]]. }
  apply hex4_iff in E. destruct E as (a & b & c & d & l1 & -> & H4 & ->).
  change (a :: b :: c :: d :: l1) with ([a; b; c; d] ++ l1).
  destruct (is_lead_surrogate hi) eqn:Ld; [|apply T_ret in H; contradiction]. apply lead_iff in Ld. cbn [tl] in H. cbv zeta in H.
  apply T_guard in H. destruct H as [[-> U]|[O H]].
  { rewrite app_nil_r. apply ub_cut; [assumption|]. eapply ci_lead; eassumption. }
  destruct (hd0 l1 =? c_bslash) eqn:E1; cbn [negb] in H.
  2: { apply T_code in H. subst m. eapply ub_lone; [eassumption|assumption|apply ok_sees; assumption|lia]. }
  apply N.eqb_eq in E1. destruct l1 as [|y l1]; [discriminate E1|]. cbn [hd0 hd] in E1. subst y. cbn [tl] in H.
  apply T_guard in H. destruct H as [[-> U]|[O1 H]].
  { apply ub_cut; [assumption|]. eapply ci_lead_escape; eassumption. }
  destruct (hd0 l1 =? c_u) eqn:E2; cbn [negb] in H.
  2: { apply T_code in H. subst m. eapply ub_lone2; [eassumption|assumption|apply ok_sees; assumption|lia]. }
  apply N.eqb_eq in E2. destruct l1 as [|y l1]; [discriminate E2|]. cbn [hd0 hd] in E2. subst y.
  apply T_bind in H. destruct H as [H|([lo r] & E & H)].
  - apply T_hex4 in H. destruct H as [H|[U F]]; [eapply ub_hex2; eassumption|].
    apply ub_cut; [assumption|]. eapply ci_lead_hex; eassumption.
  - apply hex4_iff in E. destruct E as (a2 & b2 & c2 & d2 & l2 & -> & H42 & ->).
    destruct (is_trail_surrogate lo) eqn:Et; cbn [negb] in H; [apply T_ret in H; contradiction|]. apply T_code in H. subst m.
    change (a2 :: b2 :: c2 :: d2 :: l2) with ([a2; b2; c2; d2] ++ l2). eapply ub_trail; try eassumption.
    intro Tr. apply trail_iff in Tr. congruence.
Qed.

(** ** One character, then all *)
Hypothesis Hok : enc_ok (tgt_enc cf) (tgt_ck cf) = true.
Notation E := (tgt_enc cf).
Notation K := (tgt_ck cf).

Lemma bad_u_item : forall l m, u_bad l m -> bad_item E K t (92 :: 117 :: l) m.
Proof.
  intros l m H. destruct H as [l m H|h hi l c H4 Ld S N|h hi l c H4 Ld S N|h hi l m H4 Ld B|h hi h2 lo l H4 Ld H42 Nt|l m U C].
  - apply bi_hex. assumption.
  - eapply bi_lone; eassumption.
  - eapply bi_lone2; eassumption.
  - eapply bi_hex2; eassumption.
  - eapply bi_trail; eassumption.
  - apply bi_lost; assumption.
Qed.

Lemma enc_step : forall acc cp (k : ostream -> ostream * outcome (list N)),
  (let o := encode E K (mkOs acc false) cp in
   if os_fail o then (o, fail_code "encoding failed with codepoint" cp) else k o) =
  match out_units E K cp with
  | Some us => k (mkOs (acc ++ us) false)
  | None => (encode E K (mkOs acc false) cp, fail_code "encoding failed with codepoint" cp)
  end.
Proof.
  intros acc cp k. cbv zeta. rewrite encode_units by assumption. rewrite out_units_eq.
  destruct (enc_units E K cp); reflexivity.
Qed.

(** reading one item *)
Lemma item_step : forall w cp, item w cp -> forall n acc x l, exists y,
  a_string cf t (S n) (mkOs acc false) (x :: w ++ l) =
  match out_units E K cp with
  | Some us => a_string cf t n (mkOs (acc ++ us) false) (y :: l)
  | None => (encode E K (mkOs acc false) cp, fail_code "encoding failed with codepoint" cp)
  end.
Proof.
  intros w cp I n acc x l. pose proof I as I0. apply item_hd in I. destruct I as (c & w' & -> & N34 & Lo & J1 & J2).
  cbn [a_string tl app]. replace (c =? c_quote) with false by lia. replace (c <=? 31) with false by lia.
  destruct (N.eq_dec c 92) as [->|N92].
  - change (92 =? c_bslash) with true. cbv iota. destruct (J2 eq_refl) as (e & w2 & -> & J). cbn [app at_bad hd0 hd].
    destruct J as [[S ->]|(-> & w3 & y & ->)].
    + pose proof S as S'. apply simple_iff in S'. rewrite S'. rewrite (put_units E) by (apply short_small in S; lia).
      rewrite small_units by (apply short_small in S; lia). exists e. reflexivity.
    + change (simple_escape 117) with (@None N). change (117 =? c_u) with true. cbv iota.
      assert (Eu : a_u t (117 :: (w3 ++ [y]) ++ l) = Ret (cp, y :: l)).
      { apply u_iff. exists w3, y, l. rewrite <- app_assoc. auto. }
      rewrite Eu. exists y. apply (enc_step acc cp (fun o => a_string cf t n o (y :: l))).
  - replace (c =? c_bslash) with false by lia. destruct (J1 N92) as [-> ->]. cbn [app]. exists c.
    apply (enc_step acc c (fun o => a_string cf t n o (c :: l))).
Qed.

Lemma bad_item_T : forall l m, bad_item E K t l m -> forall n acc x, (length l < n)%nat ->
  T (snd (a_string cf t n (mkOs acc false) (x :: l))) m.
Proof.
  intros l m H n acc x L. destruct n as [|n]; [lia|].
  assert (Ub : forall l2 m, u_bad l2 m -> T (snd (a_string cf t (S n) (mkOs acc false) (x :: 92 :: 117 :: l2))) m).
  { intros l2 m2 B. cbn [a_string tl]. change (92 =? c_quote) with false. change (92 <=? 31) with false. change (92 =? c_bslash) with true.
    cbn [at_bad hd0 hd]. change (simple_escape 117) with (@None N). change (117 =? c_u) with true. cbv iota.
    pose proof (u_bad_T 117 l2 m2 B) as H'. unfold T in H'. rewrite H'. reflexivity. }
  assert (Lost : forall A m, undecodable t m -> T (@dec_err A t) m).
  { intros A m' (c & -> & ->). apply T_code. reflexivity. }
  destruct H as [Ht|l m U C|c l C|l c S N Ns|l m B|h hi l c H4 Ld S N|h hi l c H4 Ld S N|h hi l m H4 Ld B|h hi h2 lo l H4 Ld H42 Nt|w cp l I O].
  - rewrite Ht. reflexivity.
  - assert (C' := C). destruct C as [| |h F|h hi H4 Ld|h hi H4 Ld|h hi h2 H4 Ld F].
    + cbn [a_string tl snd]. apply T_guard. left. auto.
    + cbn [a_string tl]. change (92 =? c_quote) with false. change (92 <=? 31) with false. change (92 =? c_bslash) with true. cbv iota.
      destruct U as (c & -> & ->). cbn [at_bad snd]. apply T_code. reflexivity.
    + apply Ub. apply ub_cut; assumption.
    + apply Ub. apply ub_cut; assumption.
    + apply Ub. apply ub_cut; assumption.
    + apply Ub. apply ub_cut; assumption.
  - cbn [a_string tl]. replace (c =? c_quote) with false by lia. replace (c <=? 31) with true by lia. cbn [snd]. apply T_code. reflexivity.
  - cbn [a_string tl]. change (92 =? c_quote) with false. change (92 <=? 31) with false. change (92 =? c_bslash) with true. cbv iota.
    apply sees_iff in S. destruct S as [O ->]. unfold ok in O. rewrite O.
    destruct (simple_escape (hd0 l)) as [e|] eqn:Es; [exfalso; apply simple_iff in Es; eapply Ns; exact Es|].
    replace (hd0 l =? c_u) with false by lia. cbn [snd]. apply T_code. reflexivity.
  - apply Ub. apply ub_hex. assumption.
  - apply Ub. eapply ub_lone; eassumption.
  - apply Ub. eapply ub_lone2; eassumption.
  - apply Ub. eapply ub_hex2; eassumption.
  - apply Ub. eapply ub_trail; eassumption.
  - destruct (item_step w cp I n acc x l) as (y & ->). rewrite O. cbn [snd]. apply T_code. reflexivity.
Qed.

Lemma items_step : forall b cps, items b cps -> forall s n acc x l, out_text E K cps = Some s -> (length b + length l < n)%nat ->
  exists n' acc' y, (length l < n')%nat /\
    a_string cf t n (mkOs acc false) (x :: b ++ l) = a_string cf t n' (mkOs acc' false) (y :: l).
Proof.
  intros b cps H. induction H as [|w cp b cps I Is IH]; intros s n acc x l O L.
  - exists n, acc, x. cbn [length app] in *. split; [lia|reflexivity].
  - cbn [out_text] in O. destruct (out_units E K cp) as [us|] eqn:Ou; [|discriminate].
    destruct (out_text E K cps) as [s'|] eqn:Ot; [|discriminate].
    destruct n as [|n]; [lia|]. rewrite app_length in L. destruct (item_hd _ _ I) as (c & w' & Ew & _).
    destruct (item_step w cp I n acc x (b ++ l)) as (y & Ey). rewrite Ou in Ey.
    destruct (IH s' n (acc ++ us) y l eq_refl) as (n' & acc' & y' & L' & E'); [subst w; cbn [length] in L; lia|].
    exists n', acc', y'. split; [assumption|]. rewrite <- app_assoc, Ey. exact E'.
Qed.

Lemma bad_string_T : forall r m, bad_string E K t r m -> forall n, (length r <= n)%nat -> T (snd (a_get_string cf t n r)) m.
Proof.
  intros r m H n L. unfold a_get_string. destruct H as [b cps s l m I O B|b cps s m I O U].
  - cbn [length] in L. rewrite app_length in L.
    destruct (items_step b cps I s n [] 34 l O ltac:(lia)) as (n' & acc' & y & L' & E'). rewrite E'.
    pose proof (bad_item_T l m B n' acc' y L') as H. destruct (a_string cf t n' (mkOs acc' false) (y :: l)). exact H.
  - cbn [length] in L. rewrite app_length in L. cbn [length] in L.
    destruct (items_step b cps I s n [] 34 [34] O ltac:(cbn [length]; lia)) as (n' & acc' & y & L' & E'). rewrite E'.
    destruct n' as [|n']; [lia|]. cbn [a_string tl]. change (34 =? c_quote) with true. cbv iota. cbn [snd].
    apply T_guard. left. auto.
Qed.

(** *** the other direction *)
Definition str_bad (l : list N) (m : string) : Prop :=
  exists b cps s l', l = b ++ l' /\ items b cps /\ out_text E K cps = Some s /\
    (bad_item E K t l' m \/ (l' = [34] /\ undecodable t m)).

Lemma str_bad_cons : forall w cp us l m, item w cp -> out_units E K cp = Some us -> str_bad l m -> str_bad (w ++ l) m.
Proof.
  intros w cp us l m I U (b & cps & s & l' & -> & Is & O & B). exists (w ++ b), (cp :: cps), (us ++ s), l'.
  split; [rewrite app_assoc; reflexivity|]. split; [constructor; assumption|]. cbn [out_text]. rewrite U, O. auto.
Qed.
Lemma str_bad_here : forall l m, bad_item E K t l m -> str_bad l m.
Proof. intros l m B. exists [], [], [], l. repeat split; auto. constructor. Qed.

Lemma T_string : forall n acc x l m, (length l < n)%nat ->
  T (snd (a_string cf t n (mkOs acc false) (x :: l))) m -> str_bad l m.
Proof.
  induction n as [|n IH]; intros acc x l m L H; [lia|]. cbn [a_string tl] in H. destruct l as [|c l].
  { cbn [snd] in H. apply T_guard in H. apply str_bad_here. destruct H as [[_ U]|[O H]].
    - apply bi_lost; [assumption|constructor].
    - apply T_fail in H. subst m. apply bi_end. destruct t; [reflexivity|discriminate O]. }
  cbn [length] in L. destruct (c =? c_quote) eqn:E34.
  { apply N.eqb_eq in E34. subst c. cbn [snd] in H. apply T_guard in H. destruct H as [[-> U]|[_ H]]; [|apply T_ret in H; contradiction].
    exists [], [], [], [34]. repeat split; auto. constructor. }
  apply N.eqb_neq in E34. destruct (c <=? 31) eqn:E31.
  { cbn [snd] in H. apply T_code in H. subst m. apply str_bad_here, bi_control. lia. }
  destruct (c =? c_bslash) eqn:E92.
  - apply N.eqb_eq in E92. subst c. destruct (at_bad t l) eqn:Eb.
    { destruct l as [|y l]; [|discriminate Eb]. destruct t as [|b] eqn:Et; [discriminate Eb|]. cbn [snd] in H. apply T_code in H. cbn [bad_code] in H.
      apply str_bad_here. apply bi_lost; [exists b; auto|constructor]. }
    destruct (simple_escape (hd0 l)) as [e|] eqn:Es.
    + apply simple_iff in Es. destruct l as [|y l]; [apply short_small in Es; cbn in Es; lia|]. cbn [hd0 hd] in Es.
      assert (Sm : e < 128) by (apply short_small in Es; lia).
      rewrite (put_units E) in H by assumption. rewrite small_units in H by assumption.
      apply IH in H; [|cbn [length] in L; lia].
      apply (str_bad_cons [92; y] e [e] l m); [constructor; assumption|apply small_units; assumption|assumption].
    + destruct (hd0 l =? c_u) eqn:E117.
      * apply N.eqb_eq in E117. destruct l as [|y l]; [discriminate E117|]. cbn [hd0 hd] in E117. subst y.
        destruct (a_u t (117 :: l)) as [[cp l4]|e0| | |] eqn:Eu; cbn [snd stop] in H; try discriminate H.
        -- pose proof (enc_step acc cp (fun o => a_string cf t n o l4)) as Q. cbv beta zeta in Q. cbv beta zeta in H. rewrite Q in H. clear Q.
           apply u_iff in Eu. destruct Eu as (w & y & l1 & -> & -> & I).
           replace (92 :: 117 :: w ++ y :: l1) with ((92 :: 117 :: w ++ [y]) ++ l1) by (cbn [app]; rewrite <- app_assoc; reflexivity).
           destruct (out_units E K cp) as [us|] eqn:Ou.
           ++ apply IH in H; [|cbn [length] in L; rewrite app_length in L; cbn [length] in L; lia]. eapply str_bad_cons; eassumption.
           ++ cbn [snd] in H. apply T_code in H. subst m. apply str_bad_here, bi_encode; assumption.
        -- apply str_bad_here, bad_u_item. apply (T_u_bad 117). unfold T in *. rewrite Eu. injection H as ->. reflexivity.
      * cbn [snd] in H. apply T_code in H. subst m. apply str_bad_here, bi_escape; [apply ok_sees; assumption|lia|].
        intros z Sh. apply simple_iff in Sh. congruence.
  - pose proof (enc_step acc c (fun o => a_string cf t n o (c :: l))) as Q. cbv beta zeta in Q. cbv beta zeta in H. rewrite Q in H. clear Q.
    assert (I : item [c] c) by (constructor; lia). change (c :: l) with ([c] ++ l).
    destruct (out_units E K c) as [us|] eqn:Ou.
    + apply IH in H; [|lia]. eapply str_bad_cons; eassumption.
    + cbn [snd] in H. apply T_code in H. subst m. apply str_bad_here, bi_encode; assumption.
Qed.

Lemma T_get_string : forall n l m, (length l < n)%nat ->
  (T (snd (a_get_string cf t n (34 :: l))) m <-> bad_string E K t (34 :: l) m).
Proof.
  intros n l m L. split.
  - intro H. unfold a_get_string in H.
    assert (H' : T (snd (a_string cf t n (mkOs [] false) (34 :: l))) m) by (destruct (a_string cf t n (mkOs [] false) (34 :: l)); exact H).
    apply T_string in H'; [|assumption]. destruct H' as (b & cps & s & l' & -> & I & O & [B|[-> U]]).
    + eapply bst; eassumption.
    + eapply bst_lost; eassumption.
  - intro H. apply bad_string_T; [assumption|]. cbn [length]. lia.
Qed.
End Str.
