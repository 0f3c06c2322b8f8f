(** The list machine accepts exactly the phrases of SpecGrammar.v: literals,
    strings and tokens. *)
From Coq Require Import Lia ZifyBool ZifyNat ZifyN Floats.SpecFloat.
From Verif Require Import Base Stream Encoding Value Token Parser EncodingProofs Feeds ListMachine Simulation SimParse
  SpecUnicode SpecGrammar GrammarLex.
Ltac Zify.zify_post_hook ::= Z.div_mod_to_equations.

(** ** Literals *)

Lemma literal_iff : forall cf t x0 text l r, Forall (fun c => c <> 0) text -> ok t l ->
  (a_literal cf t x0 text l = Ret r <->
   exists w, l = w ++ r /\ map (low (src_ck cf)) w = text /\ ok t r).
Proof.
  intros cf t x0 text. induction text as [|c text IH]; intros l r F O; cbn [a_literal].
  - split.
    + intro H. inversion H; subst. exists []. auto.
    + intros (w & -> & E & _). destruct w; [reflexivity|discriminate].
  - inversion F as [|? ? Nc F']; subst. rewrite narrow_low.
    destruct l as [|x l].
    { cbn [hd0 hd]. replace (low (src_ck cf) 0) with 0 by (destruct (src_ck cf); reflexivity).
      replace (c =? 0) with false by lia. split; [discriminate|].
      intros (w & E & M & _). destruct w; [discriminate M|discriminate E]. }
    cbn [hd0 hd tl]. destruct (c =? low (src_ck cf) x) eqn:E.
    + apply N.eqb_eq in E. rewrite guard_iff. split.
      * intros [H O1]. apply IH in H; [|assumption|assumption].
        destruct H as (w & -> & M & Ok). exists (x :: w). cbn [map app]. rewrite M, <- E. auto.
      * intros (w & E1 & M & Ok). destruct w as [|y w]; [discriminate M|].
        inversion E1; subst. cbn [map] in M. inversion M; subst.
        assert (O1 : ok t (w ++ r)) by (apply ok_app; assumption).
        split; [|assumption]. apply IH; [assumption|assumption|]. exists w. auto.
    + split; [discriminate|]. intros (w & E1 & M & Ok). destruct w as [|y w]; [discriminate M|].
      inversion E1; subst. cbn [map] in M. inversion M; subst. rewrite N.eqb_refl in E. discriminate.
Qed.

Lemma literal_word : forall cf t x0 c text l r, c <> 0 -> c < 256 -> Forall (fun c => c <> 0) text ->
  (a_literal cf t x0 (c :: text) (c :: l) = Ret r <->
   exists w, l = w ++ r /\ map (low (src_ck cf)) w = text /\ ok t r).
Proof.
  intros cf t x0 c text l r N0 Lt F. rewrite literal_iff; [|constructor; assumption|apply ok_cons].
  split.
  - intros (w & E & M & O). destruct w as [|y w]; [discriminate M|]. inversion E; subst.
    cbn [map] in M. inversion M; subst. eauto.
  - intros (w & -> & M & O). exists (c :: w). cbn [map app]. rewrite low_small by assumption.
    rewrite M. auto.
Qed.

(** ** \u escapes *)

Lemma hex_val_iff : forall c h, hex_val c = Some h <-> hexd c h.
Proof.
  intros c h. unfold hex_val. split.
  - destruct ((48 <=? c) && (c <=? 57)) eqn:E1.
    { intro H. apply some_inj in H. subst. constructor; lia. }
    destruct ((65 <=? c) && (c <=? 70)) eqn:E2.
    { intro H. apply some_inj in H. subst. replace (c - 65 + 10) with (c - 55) by lia. constructor; lia. }
    destruct ((97 <=? c) && (c <=? 102)) eqn:E3; [|discriminate].
    intro H. apply some_inj in H. subst. replace (c - 97 + 10) with (c - 87) by lia. constructor; lia.
  - intro H. inversion H; subst.
    + replace ((48 <=? c) && (c <=? 57)) with true by lia. reflexivity.
    + replace ((48 <=? c) && (c <=? 57)) with false by lia.
      replace ((65 <=? c) && (c <=? 70)) with true by lia. f_equal. lia.
    + replace ((48 <=? c) && (c <=? 57)) with false by lia.
      replace ((65 <=? c) && (c <=? 70)) with false by lia.
      replace ((97 <=? c) && (c <=? 102)) with true by lia. f_equal. lia.
Qed.

Lemma hexd_lt : forall c h, hexd c h -> h < 16.
Proof. intros c h H. inversion H; lia. Qed.

Lemma hex_step : forall t f fs code l r, a_hex t (f :: fs) code l = Ret r ->
  exists x l1 h, tl l = x :: l1 /\ hexd x h /\ a_hex t fs (code + N.shiftl h f) (x :: l1) = Ret r.
Proof.
  intros t f fs code l r H. cbn [a_hex] in H. apply guard_ok in H. destruct H as [H O].
  destruct (tl l) as [|x l1] eqn:E.
  - discriminate H.
  - cbn [hd0 hd] in H. destruct (hex_val x) as [h|] eqn:Eh; [|discriminate].
    apply hex_val_iff in Eh. exists x, l1, h. auto.
Qed.

Lemma hex_step_c : forall t f fs code y x l1 h, hexd x h ->
  a_hex t (f :: fs) code (y :: x :: l1) = a_hex t fs (code + N.shiftl h f) (x :: l1).
Proof.
  intros t f fs code y x l1 h H. cbn [a_hex tl hd0 hd guard]. apply hex_val_iff in H. rewrite H. reflexivity.
Qed.

Lemma hex_sum : forall x y z w,
  0 + N.shiftl x 12 + N.shiftl y 8 + N.shiftl z 4 + N.shiftl w 0 = x * 4096 + y * 256 + z * 16 + w.
Proof.
  intros x y z w. rewrite !N.shiftl_mul_pow2. change (2 ^ 12) with 4096. change (2 ^ 8) with 256.
  change (2 ^ 4) with 16. change (2 ^ 0) with 1. lia.
Qed.

Lemma hex4_iff : forall t x l cp r,
  a_hex4 t (x :: l) = Ret (cp, r) <->
  exists a b c d l1, l = a :: b :: c :: d :: l1 /\ hex4 [a; b; c; d] cp /\ r = d :: l1.
Proof.
  intros t x l cp r. unfold a_hex4. split.
  - intro H. apply hex_step in H. destruct H as (a & l1 & ha & E1 & H1 & H). cbn [tl] in E1.
    apply hex_step in H. destruct H as (b & l2 & hb & E2 & H2 & H). cbn [tl] in E2.
    apply hex_step in H. destruct H as (c & l3 & hc & E3 & H3 & H). cbn [tl] in E3.
    apply hex_step in H. destruct H as (d & l4 & hd & E4 & H4 & H). cbn [tl] in E4.
    cbn [a_hex] in H. inversion H; subst. exists a, b, c, d, l4. split; [reflexivity|].
    split; [|reflexivity]. rewrite <- (N.add_0_l (N.shiftl ha 12)), hex_sum. constructor; assumption.
  - intros (a & b & c & d & l1 & -> & H & ->). inversion H; subst.
    erewrite !hex_step_c by eassumption. cbn [a_hex]. rewrite hex_sum. reflexivity.
Qed.

Lemma hex4_lt : forall h cp, hex4 h cp -> cp < 65536 /\ length h = 4%nat.
Proof.
  intros h cp H. inversion H as [a b c d x y z w A B C D]; subst.
  apply hexd_lt in A, B, C, D. split; [lia|reflexivity].
Qed.

Lemma lead_iff : forall cp, is_lead_surrogate cp = true <-> lead cp.
Proof. intro cp. unfold is_lead_surrogate, lead. lia. Qed.
Lemma trail_iff : forall cp, is_trail_surrogate cp = true <-> trail cp.
Proof. intro cp. unfold is_trail_surrogate, trail. lia. Qed.

Lemma decode_pair : forall hi lo, lead hi -> trail lo ->
  decode_surrogates hi lo = 65536 + (hi - 55296) * 1024 + (lo - 56320).
Proof.
  intros hi lo H1 H2. unfold lead, trail in *. apply decode_surrogates_eq; lia.
Qed.

Lemma u_iff : forall t x l cp r,
  a_u t (x :: l) = Ret (cp, r) <->
  exists w y l1, l = w ++ y :: l1 /\ r = y :: l1 /\ item (92 :: 117 :: w ++ [y]) cp.
Proof.
  intros t x l cp r. unfold a_u. rewrite bind_ret_iff. split.
  - intros ([c1 r1] & H1 & H). apply hex4_iff in H1. destruct H1 as (a & b & c & d & l1 & -> & H1 & ->).
    destruct (is_lead_surrogate c1) eqn:El.
    + apply lead_iff in El. cbn [tl] in H. apply guard_ok in H. destruct H as [H _].
      destruct l1 as [|x1 l2]; [discriminate H|]. cbn [hd0 hd tl] in H.
      destruct (x1 =? 92) eqn:E1; [|discriminate H]. apply N.eqb_eq in E1. subst x1. cbn [negb] in H.
      apply guard_ok in H. destruct H as [H _].
      destruct l2 as [|x2 l3]; [discriminate H|]. cbn [hd0 hd] in H.
      destruct (x2 =? 117) eqn:E2; [|discriminate H]. apply N.eqb_eq in E2. subst x2. cbn [negb] in H.
      apply bind_ret_iff in H. destruct H as ([c2 r2] & H2 & H).
      apply hex4_iff in H2. destruct H2 as (a2 & b2 & cc2 & d2 & l4 & -> & H2 & ->).
      destruct (is_trail_surrogate c2) eqn:Et; [|discriminate H]. cbn [negb] in H. apply trail_iff in Et.
      injection H as <- <-. exists [a; b; c; d; 92; 117; a2; b2; cc2], d2, l4.
      split; [reflexivity|]. split; [reflexivity|]. rewrite decode_pair by assumption.
      exact (it_pair [a; b; c; d] c1 [a2; b2; cc2; d2] c2 H1 El H2 Et).
    + injection H as <- <-. exists [a; b; c], d, l1. split; [reflexivity|]. split; [reflexivity|].
      apply (it_u [a; b; c; d]); [assumption|]. intro L. apply lead_iff in L. congruence.
  - intros (w & y & l1 & -> & -> & H).
    remember (92 :: 117 :: w ++ [y]) as q eqn:Eq. destruct H as [c|e c S|h cp H NL|h1 hi h2 lo H1 L H2 T].
    + discriminate Eq.
    + destruct w; [discriminate Eq|]. destruct w; discriminate Eq.
    + injection Eq as Eq. inversion H as [a b c d xx yy zz ww A B C D Eh Ec]. rewrite <- Eh in Eq. subst cp.
      assert (Ew : w = [a; b; c] /\ y = d).
      { change ([a; b; c; d]) with ([a; b; c] ++ [d]) in Eq. apply app_inj_tail in Eq. destruct Eq; auto. }
      destruct Ew as [-> ->]. exists (xx * 4096 + yy * 256 + zz * 16 + ww, d :: l1). split.
      * apply hex4_iff. exists a, b, c, d, l1. split; [reflexivity|]. split; [|reflexivity]. constructor; eassumption.
      * destruct (is_lead_surrogate _) eqn:El; [|reflexivity]. apply lead_iff in El. contradiction.
    + injection Eq as Eq. inversion H1 as [a b c d xx yy zz ww A B C D Eh Ec]. inversion H2 as [a2 b2 c2 d2 xx2 yy2 zz2 ww2 A2 B2 C2 D2 Eh2 Ec2].
      rewrite <- Eh, <- Eh2 in Eq. cbn [app] in Eq.
      assert (Ew : w = [a; b; c; d; 92; 117; a2; b2; c2] /\ y = d2).
      { change ([a; b; c; d; 92; 117; a2; b2; c2; d2]) with ([a; b; c; d; 92; 117; a2; b2; c2] ++ [d2]) in Eq.
        apply app_inj_tail in Eq. destruct Eq; auto. }
      destruct Ew as [-> ->]. exists (hi, d :: 92 :: 117 :: a2 :: b2 :: c2 :: d2 :: l1). split.
      * apply hex4_iff. exists a, b, c, d, (92 :: 117 :: a2 :: b2 :: c2 :: d2 :: l1). rewrite Eh. auto.
      * replace (is_lead_surrogate hi) with true by (symmetry; apply lead_iff; assumption).
        cbn [tl hd0 hd guard]. change (92 =? 92) with true. change (117 =? 117) with true. cbn [negb].
        apply bind_ret_iff. exists (lo, d2 :: l1). split.
        -- apply hex4_iff. exists a2, b2, c2, d2, l1. rewrite Eh2. auto.
        -- replace (is_trail_surrogate lo) with true by (symmetry; apply trail_iff; assumption).
           cbn [negb]. rewrite decode_pair by assumption. rewrite ?Ec, ?Ec2. reflexivity.
Qed.

(** ** Strings *)

Lemma out_units_eq : forall e ck cp, out_units e ck cp = enc_units e ck cp.
Proof.
  intros e ck cp. unfold out_units, enc_units. cbv zeta. rewrite narrow_low.
  destruct (match e with Ignore => _ | Utf8 => _ | Utf16 => _ | Utf32 => _ end) as [us|]; [|reflexivity].
  replace (existsb (fun u => Z.eqb (Z.of_N u) (eof_int ck)) us) with
    (existsb (fun u => match ck with C8 => false | C16 => u =? 65535 | C32 => u =? 4294967295 end) us); [reflexivity|].
  induction us as [|u us IH]; [reflexivity|]. cbn [existsb]. rewrite IH. f_equal.
  destruct ck; unfold eof_int; lia.
Qed.

Lemma simple_iff : forall e c, simple_escape e = Some c <-> short e c.
Proof.
  intros e c. unfold simple_escape. split.
  - repeat match goal with |- context [?a =? ?b] =>
      destruct (N.eqb_spec a b); [subst; intro H; apply some_inj in H; subst c; constructor|] end.
    discriminate.
  - intro H. destruct H; reflexivity.
Qed.

Lemma short_small : forall e c, short e c -> 8 <= c /\ c < 128 /\ e <> 117 /\ e <> 0.
Proof. intros e c H. destruct H; lia. Qed.

Lemma small_units : forall e ck c, c < 128 -> out_units e ck c = Some [c].
Proof.
  intros e ck c H. unfold out_units, units8, units16, units32.
  replace (c <? 128) with true by lia. replace (c <? 65536) with true by lia.
  replace (c <? 1114112) with true by lia. rewrite low_small by lia.
  destruct e; cbn [existsb]; destruct ck; rewrite ?orb_false_r;
    repeat match goal with |- context [?a =? ?b] => replace (a =? b) with false by lia end; reflexivity.
Qed.

Lemma put_units : forall e ck acc c, c < 128 ->
  os_put ck (mkOs acc false) c = match out_units e ck c with Some us => mkOs (acc ++ us) false | None => mkOs acc true end.
Proof.
  intros e ck acc c H. rewrite small_units by assumption. unfold os_put. cbn [os_fail os_units].
  replace (Z.of_N c =? eof_int ck)%Z with false by (destruct ck; unfold eof_int; lia). reflexivity.
Qed.

Definition str_spec (cf : pcfg) (t : term) (acc : list N) (l : list N) (o : ostream) (r : list N) : Prop :=
  exists b cps s, l = b ++ 34 :: r /\ items b cps /\ out_text (tgt_enc cf) (tgt_ck cf) cps = Some s /\
    o = mkOs (acc ++ s) false /\ ok t r.

Lemma str_spec_cons : forall cf t acc w cp us l o r, item w cp ->
  out_units (tgt_enc cf) (tgt_ck cf) cp = Some us ->
  str_spec cf t (acc ++ us) l o r -> str_spec cf t acc (w ++ l) o r.
Proof.
  intros cf t acc w cp us l o r I U (b & cps & s & -> & Is & T & -> & O).
  exists (w ++ b), (cp :: cps), (us ++ s). split; [apply app_assoc|]. split; [constructor; assumption|].
  cbn [out_text]. rewrite U, T. rewrite app_assoc. auto.
Qed.

Lemma item_hd : forall w cp, item w cp -> exists c w', w = c :: w' /\ c <> 34 /\ 32 <= c /\
  (c <> 92 -> w' = [] /\ cp = c) /\
  (c = 92 -> exists e w2, w' = e :: w2 /\ ((short e cp /\ w2 = []) \/ (e = 117 /\ exists w3 y, w2 = w3 ++ [y]))).
Proof.
  intros w cp H. destruct H as [c A B C|e c S|h cp H NL|h1 hi h2 lo H1 L H2 T].
  - exists c, []. repeat split; auto. intro X. contradiction.
  - exists 92, [e]. repeat split; try lia. intros _. exists e, []. auto.
  - exists 92, (117 :: h). repeat split; try lia. intros _. exists 117, h. split; [reflexivity|]. right.
    split; [reflexivity|]. inversion H; subst. exists [a; b; c], d. reflexivity.
  - exists 92, (117 :: h1 ++ 92 :: 117 :: h2). repeat split; try lia. intros _. eexists 117, _.
    split; [reflexivity|]. right. split; [reflexivity|]. inversion H2; subst.
    exists (h1 ++ [92; 117; a; b; c]), d. rewrite <- app_assoc. reflexivity.
Qed.

(** Decomposition of a string body by its first character *)
Lemma str_spec_quote : forall cf t acc l o r,
  str_spec cf t acc (34 :: l) o r <-> o = mkOs acc false /\ r = l /\ ok t l.
Proof.
  intros cf t acc l o r. split.
  - intros (b & cps & s & E & I & T & -> & O). destruct I as [|w cp b cps I Is].
    + cbn [app] in E. inversion E; subst. cbn [out_text] in T. inversion T; subst. rewrite app_nil_r. auto.
    + apply item_hd in I. destruct I as (c & w' & -> & N34 & _). cbn [app] in E. inversion E; subst. contradiction N34; reflexivity.
  - intros (-> & -> & O). exists [], [], []. rewrite app_nil_r. repeat split; auto. constructor.
Qed.

Lemma str_spec_item : forall cf t acc c l o r, c <> 34 ->
  (str_spec cf t acc (c :: l) o r <->
   exists w cp us l1, item w cp /\ c :: l = w ++ l1 /\ out_units (tgt_enc cf) (tgt_ck cf) cp = Some us /\
     str_spec cf t (acc ++ us) l1 o r).
Proof.
  intros cf t acc c l o r N34. split.
  - intros (b & cps & s & E & I & T & -> & O). destruct I as [|w cp b cps I Is].
    + cbn [app] in E. inversion E; subst. contradiction N34; reflexivity.
    + cbn [out_text] in T. destruct (out_units (tgt_enc cf) (tgt_ck cf) cp) as [us|] eqn:U; [|discriminate].
      destruct (out_text (tgt_enc cf) (tgt_ck cf) cps) as [s'|] eqn:T'; [|discriminate].
      apply some_inj in T. subst s. exists w, cp, us, (b ++ 34 :: r).
      split; [assumption|]. split; [rewrite E, app_assoc; reflexivity|]. split; [assumption|].
      exists b, cps, s'. rewrite app_assoc. auto.
  - intros (w & cp & us & l1 & I & -> & U & S). eapply str_spec_cons; eassumption.
Qed.

Lemma fail_not : forall A m (r : A), @fail A m <> Ret r.
Proof. discriminate. Qed.

Lemma str_step : forall cf acc cp m (k : ostream -> ostream * outcome (list N)) o r,
  enc_ok (tgt_enc cf) (tgt_ck cf) = true ->
  ((let o := encode (tgt_enc cf) (tgt_ck cf) (mkOs acc false) cp in
    if os_fail o then (o, fail m) else k o) = (o, Ret r) <->
   exists us, out_units (tgt_enc cf) (tgt_ck cf) cp = Some us /\ k (mkOs (acc ++ us) false) = (o, Ret r)).
Proof.
  intros cf acc cp m k o r Hok. cbv zeta. rewrite encode_units by assumption. rewrite out_units_eq.
  destruct (enc_units (tgt_enc cf) (tgt_ck cf) cp) as [us|]; cbn [os_fail].
  - split; [intro H; eauto|]. intros (us' & E & H). apply some_inj in E. subst. assumption.
  - split; [discriminate|]. intros (us' & E & _). discriminate.
Qed.

Lemma string_iff : forall cf t n acc x l o r, enc_ok (tgt_enc cf) (tgt_ck cf) = true ->
  (length l < n)%nat ->
  (a_string cf t n (mkOs acc false) (x :: l) = (o, Ret r) <-> str_spec cf t acc l o r).
Proof.
  intros cf t n acc x l o r Hok. revert acc x l. induction n as [|n IH]; intros acc x l L; [lia|].
  cbn [a_string tl]. destruct l as [|c l2].
  { split.
    - destruct t; discriminate.
    - intros (b & cps & s & E & _). destruct b; discriminate. }
  cbn [length] in L.
  destruct (c =? 34) eqn:E34.
  { apply N.eqb_eq in E34. subst c. rewrite str_spec_quote. split.
    - intro H. injection H as <- H. apply guard_ok in H. destruct H as [H O]. inversion H; subst. auto.
    - intros (-> & -> & O). rewrite ok_guard by assumption. reflexivity. }
  apply N.eqb_neq in E34. rewrite str_spec_item by assumption.
  destruct (c <=? 31) eqn:E31.
  { split; [discriminate|]. intros (w & cp & us & l1 & I & E & _).
    apply item_hd in I. destruct I as (c' & w' & -> & _ & Lo & _). cbn [app] in E. inversion E; subst. lia. }
  destruct (c =? 92) eqn:E92.
  - apply N.eqb_eq in E92. subst c.
    destruct (at_bad t l2) eqn:Eb.
    { destruct l2 as [|y l3]; [|discriminate Eb]. split; [discriminate|].
      intros (w & cp & us & l1 & I & E & _). apply item_hd in I.
      destruct I as (c' & w' & -> & _ & Lo & _ & I). cbn [app] in E. inversion E; subst.
      destruct (I eq_refl) as (e & w2 & -> & _). discriminate. }
    destruct l2 as [|y l3].
    { cbn [hd0 hd]. change (simple_escape 0) with (@None N). change (0 =? 117) with false. cbv iota.
      split; [discriminate|].
      intros (w & cp & us & l1 & I & E & _). apply item_hd in I.
      destruct I as (c' & w' & -> & _ & Lo & _ & I). cbn [app] in E. inversion E; subst.
      destruct (I eq_refl) as (e & w2 & -> & _). discriminate. }
    cbn [hd0 hd]. cbn [length] in L.
    destruct (simple_escape y) as [e|] eqn:Es.
    + apply simple_iff in Es. rewrite (put_units (tgt_enc cf)) by (apply short_small in Es; lia).
      rewrite small_units by (apply short_small in Es; lia). rewrite IH by lia. split.
      * intro S. exists [92; y], e, [e], l3. split; [constructor; assumption|]. split; [reflexivity|].
        split; [apply small_units; apply short_small in Es; lia|assumption].
      * intros (w & cp & us & l1 & I & E & U & S). pose proof I as I0. apply item_hd in I.
        destruct I as (c' & w' & -> & _ & Lo & _ & I). cbn [app] in E. inversion E; subst.
        destruct (I eq_refl) as (e2 & w2 & -> & J). cbn [app] in H1. inversion H1; subst.
        destruct J as [[J ->]|[-> _]].
        -- apply simple_iff in J. apply simple_iff in Es. rewrite J in Es. apply some_inj in Es. subst e.
           rewrite small_units in U by (apply simple_iff in J; apply short_small in J; lia).
           apply some_inj in U. subst us. assumption.
        -- apply short_small in Es. lia.
    + destruct (y =? 117) eqn:E117.
      * apply N.eqb_eq in E117. subst y. split.
        -- destruct (a_u t (117 :: l3)) as [[cp l4]| | | |] eqn:Eu; try discriminate.
           intro H. apply (str_step cf acc cp _ (fun o => a_string cf t n o l4)) in H; [|assumption]. destruct H as (us & U & H).
           apply u_iff in Eu. destruct Eu as (w & y & l1 & -> & -> & I).
           rewrite app_length in L. cbn [length] in L.
           apply IH in H; [|lia]. exists (92 :: 117 :: w ++ [y]), cp, us, l1.
           split; [assumption|]. split; [cbn [app]; rewrite <- app_assoc; reflexivity|]. auto.
        -- intros (w & cp & us & l1 & I & E & U & S). pose proof I as I0. apply item_hd in I.
           destruct I as (c' & w' & -> & _ & Lo & _ & I). cbn [app] in E. inversion E; subst.
           destruct (I eq_refl) as (e2 & w2 & -> & J). cbn [app] in H1. inversion H1; subst.
           destruct J as [[J ->]|(_ & w3 & y & ->)]; [apply short_small in J; lia|].
           assert (Eu : a_u t (117 :: (w3 ++ [y]) ++ l1) = Ret (cp, y :: l1)).
           { apply u_iff. exists w3, y, l1. rewrite <- app_assoc. auto. }
           rewrite Eu. apply (str_step cf acc cp _ (fun o => a_string cf t n o (y :: l1))); [assumption|].
           exists us. split; [assumption|]. apply IH; [|assumption]. rewrite !app_length in L. cbn [length] in L. lia.
      * split; [discriminate|]. intros (w & cp & us & l1 & I & E & U & S). apply item_hd in I.
        destruct I as (c' & w' & -> & _ & Lo & _ & I). cbn [app] in E. inversion E; subst.
        destruct (I eq_refl) as (e2 & w2 & -> & J). cbn [app] in H1. inversion H1; subst.
        destruct J as [[J _]|[-> _]]; [apply simple_iff in J; congruence|discriminate].
  - apply N.eqb_neq in E92. etransitivity; [apply (str_step cf acc c _ (fun o => a_string cf t n o (c :: l2))); assumption|]. split.
    + intros (us & U & H). apply IH in H; [|lia]. exists [c], c, us, l2.
      split; [constructor; lia|]. split; [reflexivity|]. auto.
    + intros (w & cp & us & l1 & I & E & U & S). apply item_hd in I.
      destruct I as (c' & w' & -> & _ & Lo & I & _). cbn [app] in E. inversion E; subst.
      destruct (I E92) as [-> ->]. exists us.
      split; [assumption|]. apply IH; [lia|]. assumption.
Qed.

Lemma get_string_iff : forall cf t n l s r, enc_ok (tgt_enc cf) (tgt_ck cf) = true ->
  (length l < n)%nat ->
  (a_get_string cf t n (34 :: l) = (s, Ret r) <-> strlit (tgt_enc cf) (tgt_ck cf) (34 :: l) s r /\ ok t r).
Proof.
  intros cf t n l s r Hok L. unfold a_get_string. split.
  - destruct (a_string cf t n (mkOs [] false) (34 :: l)) as [o r'] eqn:E. intro H. inversion H; subst.
    apply string_iff in E; [|assumption|assumption]. destruct E as (b & cps & s & -> & I & T & -> & O).
    cbn [os_units app]. split; [econstructor; eassumption|assumption].
  - intros [H O]. inversion H; subst.
    assert (E : a_string cf t n (mkOs [] false) (34 :: b ++ 34 :: r) = (mkOs s false, Ret r)).
    { apply string_iff; [assumption|assumption|]. exists b, cps, s. auto. }
    rewrite E. reflexivity.
Qed.

(** ** Tokens *)

Inductive tok_at (cf : pcfg) : list N -> atok -> list N -> Prop :=
| ta_end : tok_at cf [] (AT Teoi) []
| ta_nul l : tok_at cf (0 :: l) (AT Teoi) (0 :: l)
| ta_larr l : tok_at cf (91 :: l) (AT Tbegin_arr) l
| ta_rarr l : tok_at cf (93 :: l) (AT Tend_arr) l
| ta_lobj l : tok_at cf (123 :: l) (AT Tbegin_obj) l
| ta_robj l : tok_at cf (125 :: l) (AT Tend_obj) l
| ta_colon l : tok_at cf (58 :: l) (AT Tname_sep) l
| ta_comma l : tok_at cf (44 :: l) (AT Tval_sep) l
| ta_str l : tok_at cf (34 :: l) (AT Tstring) (34 :: l)
| ta_true l l' : literal (src_ck cf) l (VBool true) l' -> tok_at cf l (AT Ttrue) l'
| ta_false l l' : literal (src_ck cf) l (VBool false) l' -> tok_at cf l (AT Tfalse) l'
| ta_null l l' : literal (src_ck cf) l VNull l' -> tok_at cf l (AT Tnull) l'
| ta_num l v k l' : number (src_ck cf) (ndebug cf) l v l' -> tokv k = Some v -> tok_at cf l k l'.

Lemma literal_start : forall ck l v l', literal ck l v l' ->
  exists c l1, l = c :: l1 /\ ((c = 116 /\ v = VBool true) \/ (c = 102 /\ v = VBool false) \/ (c = 110 /\ v = VNull)).
Proof. intros ck l v l' H. destruct H; eauto 8. Qed.

Lemma number_start : forall ck nd l v l', number ck nd l v l' ->
  exists c l1, l = c :: l1 /\ num_start c = true.
Proof.
  intros ck nd l v l' H. destruct H; eexists _, _; (split; [reflexivity|]); unfold num_start; try reflexivity. lia.
Qed.

Lemma literal_true_iff : forall cf t l r,
  a_literal cf t lit_true lit_true (116 :: l) = Ret r <-> literal (src_ck cf) (116 :: l) (VBool true) r /\ ok t r.
Proof.
  intros cf t l r. unfold lit_true. rewrite literal_word; [|lia|lia|repeat constructor; lia]. split.
  - intros (w & -> & M & O). split; [constructor; assumption|assumption].
  - intros [H O]. inversion H; subst. eauto.
Qed.

Lemma literal_false_iff : forall cf t l r,
  a_literal cf t lit_false lit_false (102 :: l) = Ret r <-> literal (src_ck cf) (102 :: l) (VBool false) r /\ ok t r.
Proof.
  intros cf t l r. unfold lit_false. rewrite literal_word; [|lia|lia|repeat constructor; lia]. split.
  - intros (w & -> & M & O). split; [constructor; assumption|assumption].
  - intros [H O]. inversion H; subst. eauto.
Qed.

Lemma literal_null_iff : forall cf t l r,
  a_literal cf t lit_null lit_null (110 :: l) = Ret r <-> literal (src_ck cf) (110 :: l) VNull r /\ ok t r.
Proof.
  intros cf t l r. unfold lit_null. rewrite literal_word; [|lia|lia|repeat constructor; lia]. split.
  - intros (w & -> & M & O). split; [constructor; assumption|assumption].
  - intros [H O]. inversion H; subst. eauto.
Qed.

Ltac no_lit := match goal with
  | H : literal _ (_ :: _) _ _ |- _ =>
      let c := fresh "c" in let l1 := fresh "l" in let E := fresh "E" in let K := fresh "K" in
      apply literal_start in H; destruct H as (c & l1 & E & K); inversion E; subst;
      destruct K as [[? ?]|[[? ?]|[? ?]]]; try discriminate; subst; discriminate || lia
  | H : number _ _ (_ :: _) _ _ |- _ =>
      let c := fresh "c" in let l1 := fresh "l" in let E := fresh "E" in let K := fresh "K" in
      apply number_start in H; destruct H as (c & l1 & E & K); inversion E; subst; discriminate K || congruence
  end.

Lemma scan_tok_iff : forall cf t l k l', ok t l ->
  (a_scan_tok cf t l = Ret (k, l') <-> tok_at cf l k l' /\ ok t l').
Proof.
  intros cf t l k l' O. unfold a_scan_tok. destruct l as [|c l1].
  { split.
    - intro H. inversion H; subst. split; [constructor|assumption].
    - intros [H _]. inversion H as [| | | | | | | | |? ? L|? ? L|? ? L|? ? ? ? L]; subst; try reflexivity.
      + apply literal_start in L. destruct L as (? & ? & E & _). discriminate.
      + apply literal_start in L. destruct L as (? & ? & E & _). discriminate.
      + apply literal_start in L. destruct L as (? & ? & E & _). discriminate.
      + apply number_start in L. destruct L as (? & ? & E & _). discriminate. }
  unfold punct.
  destruct (N.eqb_spec c 91) as [->|N91].
  { rewrite guard_iff. split.
    - intros [H O1]. inversion H; subst. split; [constructor|assumption].
    - intros [H O1]. inversion H; subst; try no_lit. auto. }
  destruct (N.eqb_spec c 93) as [->|N93].
  { rewrite guard_iff. split.
    - intros [H O1]. inversion H; subst. split; [constructor|assumption].
    - intros [H O1]. inversion H; subst; try no_lit. auto. }
  destruct (N.eqb_spec c 123) as [->|N123].
  { rewrite guard_iff. split.
    - intros [H O1]. inversion H; subst. split; [constructor|assumption].
    - intros [H O1]. inversion H; subst; try no_lit. auto. }
  destruct (N.eqb_spec c 125) as [->|N125].
  { rewrite guard_iff. split.
    - intros [H O1]. inversion H; subst. split; [constructor|assumption].
    - intros [H O1]. inversion H; subst; try no_lit. auto. }
  destruct (N.eqb_spec c 58) as [->|N58].
  { rewrite guard_iff. split.
    - intros [H O1]. inversion H; subst. split; [constructor|assumption].
    - intros [H O1]. inversion H; subst; try no_lit. auto. }
  destruct (N.eqb_spec c 44) as [->|N44].
  { rewrite guard_iff. split.
    - intros [H O1]. inversion H; subst. split; [constructor|assumption].
    - intros [H O1]. inversion H; subst; try no_lit. auto. }
  destruct (N.eqb_spec c 116) as [->|N116].
  { rewrite bind_ret_iff. split.
    - intros (r & H & E). inversion E; subst. apply literal_true_iff in H. destruct H. split; [constructor|]; assumption.
    - intros [H O1]. inversion H; subst; try no_lit. exists l'. split; [|reflexivity]. apply literal_true_iff. auto. }
  destruct (N.eqb_spec c 102) as [->|N102].
  { rewrite bind_ret_iff. split.
    - intros (r & H & E). inversion E; subst. apply literal_false_iff in H. destruct H. split; [constructor|]; assumption.
    - intros [H O1]. inversion H; subst; try no_lit. exists l'. split; [|reflexivity]. apply literal_false_iff. auto. }
  destruct (N.eqb_spec c 110) as [->|N110].
  { rewrite bind_ret_iff. split.
    - intros (r & H & E). inversion E; subst. apply literal_null_iff in H. destruct H. split; [constructor|]; assumption.
    - intros [H O1]. inversion H; subst; try no_lit. exists l'. split; [|reflexivity]. apply literal_null_iff. auto. }
  destruct (N.eqb_spec c 34) as [->|N34].
  { split.
    - intro H. inversion H; subst. split; [constructor|assumption].
    - intros [H O1]. inversion H; subst; try no_lit. auto. }
  change ((c =? 45) || (c =? 43) || ((48 <=? c) && (c <=? 57))) with (num_start c).
  destruct (num_start c) eqn:Ns.
  { rewrite number_iff by assumption. split.
    - intros (v & E & H & O1). split; [econstructor; eassumption|assumption].
    - intros [H O1]. inversion H; subst; try contradiction; try no_lit; try discriminate Ns.
      eauto. }
  destruct (N.eqb_spec c 0) as [->|N0].
  { split.
    - intro H. inversion H; subst. split; [constructor|assumption].
    - intros [H O1]. inversion H; subst; try no_lit. auto. }
  split; [discriminate|]. intros [H O1]. exfalso. inversion H; subst; try contradiction; no_lit.
Qed.

Lemma scan_iff : forall cf t l k l', ok t l ->
  (a_scan cf t l = Ret (k, l') <-> exists l1, blank l l1 /\ tok_at cf l1 k l' /\ ok t l').
Proof.
  intros cf t l k l' O. unfold a_scan. rewrite bind_ret_iff. split.
  - intros (l1 & H1 & H). apply skip_iff in H1; [|assumption]. destruct H1 as [B O1].
    apply scan_tok_iff in H; [|assumption]. destruct H as [T O2]. eauto.
  - intros (l1 & B & T & O2).
    assert (O1 : ok t l1).
    { clear B. destruct l1; [|apply ok_cons]. inversion T as [| | | | | | | | |? ? L|? ? L|? ? L|? ? ? ? L]; subst.
      - assumption.
      - apply literal_start in L. destruct L as (? & ? & E & _). discriminate.
      - apply literal_start in L. destruct L as (? & ? & E & _). discriminate.
      - apply literal_start in L. destruct L as (? & ? & E & _). discriminate.
      - apply number_start in L. destruct L as (? & ? & E & _). discriminate. }
    exists l1. split; [apply skip_iff; auto|]. apply scan_tok_iff; auto.
Qed.
