(** When the number scanners throw, and what. *)
From Coq Require Import Lia ZifyBool ZifyNat ZifyN Ascii Floats.SpecFloat.
From Verif Require Import Base Stream Encoding Value Token FloatFmt Message Parser EncodingProofs Feeds ListMachine Simulation
  SimParse SpecUnicode SpecGrammar GrammarLex GrammarTok ObjFacts GrammarProofs SpecPos SpecGap PosSound Mono Context
  SpecMessage MessageLex.

(** numbers that can still be continued at the end of the text *)
Definition sign_char (s : N) : Prop := s = 43 \/ s = 45.
Definition exp_cut (ck : ckind) (l : list N) : Prop :=
  l = [] \/ (exists s, l = [s] /\ sign_char s) \/
  (exists s x ds, l = s :: x :: ds /\ sign_char s /\ Forall (digit ck) ds) \/
  (exists c ds, l = c :: ds /\ digit ck c /\ c <> 48 /\ Forall (digit ck) ds).
Definition frac_cut (ck : ckind) (l : list N) : Prop :=
  l = [] \/ (exists d ds, l = d :: ds /\ Forall (digit ck) (d :: ds)) \/
  exists d ds e l1, l = d :: ds ++ e :: l1 /\ Forall (digit ck) (d :: ds) /\ is_e e /\ exp_cut ck l1.
Definition uns_cut (ck : ckind) (nd : bool) (r : list N) : Prop :=
  r = [] \/ exists l, whole ck nd r l /\
    (l = [] \/ (exists l1, l = 46 :: l1 /\ frac_cut ck l1) \/
     exists e l1, l = e :: l1 /\ is_e e /\ r <> 48 :: e :: l1 /\ exp_cut ck l1).

Section Num.
Variables (cf : pcfg) (t : term).
Notation ck := (src_ck cf).

Lemma T_expd : forall l x ex m, T (a_expd cf t ex (x :: l)) m <-> undecodable t m /\ Forall (digit ck) l.
Proof.
  induction l as [|c l IH]; intros x ex m;
    (change (a_expd cf t ex (x :: ?l)) with
       (guard t l (if is_digit cf (hd0 l)
          then a_expd cf t (u32 (u32 (ex * 10) + u32_sub (hd0 l) 48)) l
          else Ret (ex, l)))); rewrite T_guard; cbn [hd0 hd].
  - rewrite is_digit0. rewrite T_ret. split; [intros [[_ H]|[_ []]]; auto|intros [H _]; auto].
  - destruct (is_digit cf c) eqn:D.
    + apply is_digit_iff in D. rewrite IH. split.
      * intros [[H _]|[_ [U F]]]; [discriminate|]. auto.
      * intros [U F]. inversion F; subst. auto.
    + apply is_digit_false in D. rewrite T_ret. split.
      * intros [[H _]|[_ []]]; discriminate.
      * intros [U F]. inversion F; subst. contradiction.
Qed.

Definition exp_bad (l : list N) (m : string) : Prop := bad_exponent ck t l m \/ (undecodable t m /\ exp_cut ck l).

Lemma T_exponent : forall f e l m, T (a_exponent cf t f (e :: l)) m <-> exp_bad l m.
Proof.
  intros f e l m. unfold a_exponent, exp_bad. cbn [tl]. rewrite T_guard. cbv zeta.
  change c_0 with 48. change c_minus with 45. change c_plus with 43.
  assert (Tail : forall l2 b, T (guard t l2 (let* r := a_expd cf t (u32_sub (hd0 l2) 48) l2 in
      Ret (fmul f (power_of b (fst r)), snd r))) m <->
      undecodable t m /\ (l2 = [] \/ exists x ds, l2 = x :: ds /\ Forall (digit ck) ds)).
  { intros l2 b. rewrite T_guard. destruct l2 as [|x ds].
    - cbn [a_expd bind]. rewrite T_ret. split; [intros [[_ H]|[_ []]]; auto|intros [H _]; auto].
    - assert (Eb : T (let* r := a_expd cf t (u32_sub (hd0 (x :: ds)) 48) (x :: ds) in
        Ret (fmul f (power_of b (fst r)), snd r)) m <-> undecodable t m /\ Forall (digit ck) ds).
      { rewrite T_bind, T_expd. split; [|auto]. intros [H|(a & _ & H)]; [exact H|]. apply T_ret in H. contradiction. }
      rewrite Eb. split.
      + intros [[H _]|[_ [U F]]]; [discriminate|]. split; [assumption|]. right. eauto.
      + intros [U [H|(x' & ds' & H & F)]]; [discriminate|]. injection H as <- <-. right. auto. }
  destruct (negb _) eqn:Eg.
  - apply negb_true_iff in Eg. apply orb_false_iff in Eg. destruct Eg as [Eg E3]. apply orb_false_iff in Eg. destruct Eg as [E1 E2].
    assert (B1 : ~ (digit ck (hd0 l) /\ hd0 l <> 48)).
    { intros [D Z]. apply is_digit_iff in D. rewrite D in E1. cbn [andb] in E1. lia. }
    rewrite T_code. split.
    + intros [[-> U]|[O ->]]; [right; split; [assumption|left; reflexivity]|].
      left. apply bex; [apply ok_sees; assumption|assumption|lia|lia].
    + intros [H|[U C]].
      * destruct H as [l c S D P M]. apply sees_iff in S. destruct S as [O ->]. auto.
      * destruct l as [|c l]; [left; auto|]. exfalso. cbn [hd0 hd] in *.
        destruct C as [C|[(s & C & Sg)|[(s & x & ds & C & Sg & F)|(c' & ds & C & D & Z & F)]]]; try discriminate;
          injection C as -> ->; try (unfold sign_char in Sg; lia). auto.
  - apply negb_false_iff in Eg. rewrite Tail. clear Tail.
    assert (Nb : ok t l -> forall m, ~ bad_exponent ck t l m).
    { intros O m' H. destruct H as [l c S D P M]. apply sees_iff in S. destruct S as [_ ->].
      apply orb_true_iff in Eg. destruct Eg as [Eg|Eg]; [|lia]. apply orb_true_iff in Eg. destruct Eg as [Eg|Eg]; [|lia].
      apply andb_true_iff in Eg. destruct Eg as [E1 E2]. apply is_digit_iff in E1. apply D. split; [assumption|lia]. }
    destruct l as [|c l].
    { cbn [hd0 hd] in Eg. rewrite is_digit0 in Eg. discriminate Eg. }
    cbn [hd0 hd tl] in *. split.
    + intros [[H _]|[_ [U H]]]; [discriminate|]. right. split; [assumption|].
      destruct ((c =? 43) || (c =? 45)) eqn:Es.
      * assert (Sg : sign_char c) by (unfold sign_char; lia). right.
        destruct H as [->|(x & ds & -> & F)]; [left; eauto|right; left; eauto 6].
      * right. right. right. destruct H as [H|(x & ds & H & F)]; [discriminate|]. injection H as <- <-.
        apply orb_false_iff in Es. destruct Es as [Es1 Es2]. rewrite Es1, Es2, !orb_false_r in Eg.
        apply andb_true_iff in Eg. destruct Eg as [E1 E2]. apply is_digit_iff in E1. exists c, l. repeat split; auto; try apply E1. lia.
    + intros [H|[U C]]; [exfalso; eapply Nb; [apply ok_cons|exact H]|]. right. split; [reflexivity|]. split; [assumption|].
      destruct C as [C|[(s & C & Sg)|[(s & x & ds & C & Sg & F)|(c' & ds & C & D & Z & F)]]]; try discriminate; injection C as -> ->.
      * replace ((s =? 43) || (s =? 45)) with true by (unfold sign_char in Sg; lia). auto.
      * replace ((s =? 43) || (s =? 45)) with true by (unfold sign_char in Sg; lia). eauto.
      * destruct ((c' =? 43) || (c' =? 45)) eqn:Es; [|eauto].
        exfalso. destruct D as [D1 D2]. rewrite low_small in * by lia. lia.
Qed.

Lemma T_frac : forall l x p f m, T (a_frac cf t p f (x :: l)) m <->
  exists ds l1, l = ds ++ l1 /\ Forall (digit ck) ds /\
    ((l1 = [] /\ undecodable t m) \/ exists e l2, l1 = e :: l2 /\ is_e e /\ exp_bad l2 m).
Proof.
  induction l as [|c l IH]; intros x p f m;
    (change (a_frac cf t p f (x :: ?l)) with
       (guard t l (if (hd0 l =? 101) || (hd0 l =? 69) then a_exponent cf t f l
         else if is_digit cf (hd0 l) then
           a_frac cf t (fmul p f64_tenth)
             (fadd f (fmul (f64_of_Z (Z.of_N (u32_sub (hd0 l) 48))) (fmul p f64_tenth))) l
         else Ret (f, l)))); rewrite T_guard; cbn [hd0 hd].
  - change ((0 =? 101) || (0 =? 69)) with false. cbv iota. rewrite is_digit0, T_ret. split.
    + intros [[_ U]|[_ []]]. exists [], []. auto.
    + intros (ds & l1 & E & _ & H). symmetry in E. apply app_eq_nil in E. destruct E as [-> ->].
      destruct H as [[_ U]|(e & l2 & H & _)]; [auto|discriminate].
  - destruct ((c =? 101) || (c =? 69)) eqn:Ee.
    + apply is_e_iff in Ee. rewrite T_exponent. split.
      * intros [[H _]|[_ H]]; [discriminate|]. exists [], (c :: l). repeat split; auto. right. eauto.
      * intros (ds & l1 & E & F & H). right. split; [reflexivity|]. destruct ds as [|d ds].
        -- cbn [app] in E. subst l1. destruct H as [[H _]|(e & l2 & H & He & X)]; [discriminate|]. injection H as -> ->. exact X.
        -- injection E as -> ->. inversion F; subst. exfalso. eapply e_not_digit; eassumption.
    + destruct (is_digit cf c) eqn:D.
      * apply is_digit_iff in D. rewrite IH. split.
        -- intros [[H _]|[_ (ds & l1 & -> & F & H)]]; [discriminate|]. exists (c :: ds), l1. repeat split; auto.
        -- intros (ds & l1 & E & F & H). right. split; [reflexivity|]. destruct ds as [|d ds].
           ++ cbn [app] in E. subst l1. exfalso. destruct H as [[H _]|(e & l2 & H & He & X)]; [discriminate|]. injection H as -> ->.
              eapply e_not_digit; eassumption.
           ++ injection E as -> ->. inversion F; subst. eauto.
      * apply is_digit_false in D. rewrite T_ret. split; [intros [[H _]|[_ []]]; discriminate|].
        intros (ds & l1 & E & F & H). destruct ds as [|d ds].
        -- cbn [app] in E. subst l1. destruct H as [[H _]|(e & l2 & H & He & X)]; [discriminate|]. injection H as -> ->.
           apply is_e_iff in He. congruence.
        -- injection E as -> ->. inversion F; subst. contradiction.
Qed.

(** what can follow the '.' *)
Definition frac_bad (l : list N) (m : string) : Prop :=
  (exists c, sees t l c /\ ~ digit ck c /\ m = with_number "invalid float number, got" c) \/
  (exists d ds e l2, l = d :: ds ++ e :: l2 /\ Forall (digit ck) (d :: ds) /\ is_e e /\ bad_exponent ck t l2 m) \/
  (undecodable t m /\ frac_cut ck l).

Lemma T_float_dot : forall z l m, T (a_float cf t z (46 :: l)) m <-> frac_bad l m.
Proof.
  intros z l m. unfold a_float. cbn [hd0 hd tl]. change ((46 =? c_e) || (46 =? c_E)) with false. cbv iota zeta. rewrite T_guard.
  destruct (is_digit cf (hd0 l)) eqn:D; cbn [negb].
  - apply is_digit_iff in D. destruct l as [|c l]; [exfalso; eapply digit_not0; exact D|]. cbn [hd0 hd] in *. rewrite T_frac. split.
    + intros [[H _]|[_ (ds & l1 & -> & F & [[-> U]|(e & l2 & -> & He & [B|[U C]])])]]; [discriminate|..].
      * right. right. split; [assumption|]. right. left. exists c, ds. rewrite app_nil_r. auto.
      * right. left. exists c, ds, e, l2. auto.
      * right. right. split; [assumption|]. right. right. exists c, ds, e, l2. auto.
    + intros H. right. split; [reflexivity|].
      destruct H as [(x & S & N & _)|[(d & ds & e & l2 & E & F & He & B)|[U [E|[(d & ds & E & F)|(d & ds & e & l1 & E & F & He & C)]]]]].
      * cbn [sees] in S. subst x. contradiction.
      * injection E as -> ->. inversion F; subst. exists ds, (e :: l2). repeat split; auto. right. exists e, l2. unfold exp_bad. auto.
      * discriminate.
      * injection E as -> ->. inversion F; subst. exists ds, []. rewrite app_nil_r. auto.
      * injection E as -> ->. inversion F; subst. exists ds, (e :: l1). repeat split; auto. right. exists e, l1. unfold exp_bad. auto.
  - apply is_digit_false in D. rewrite T_code. split.
    + intros [[-> U]|[O ->]].
      * right. right. split; [assumption|]. left. reflexivity.
      * left. exists (hd0 l). split; [apply ok_sees; assumption|auto].
    + intros [(x & S & N & M)|[(d & ds & e & l2 & E & F & He & B)|[U C]]].
      * apply sees_iff in S. destruct S as [O ->]. auto.
      * subst l. inversion F; subst. contradiction.
      * destruct C as [->|[(d & ds & -> & F)|(d & ds & e & l1 & -> & F & He & C)]]; [left; auto|..]; inversion F; subst; contradiction.
Qed.

Lemma T_float_e : forall z e l m, is_e e -> (T (a_float cf t z (e :: l)) m <-> exp_bad l m).
Proof.
  intros z e l m He. unfold a_float. cbn [hd0 hd]. apply is_e_iff in He. change c_e with 101. change c_E with 69. rewrite He. apply T_exponent.
Qed.

(** what can follow the integer part *)
Definition int_bad (l : list N) (m : string) : Prop :=
  (l = [] /\ undecodable t m) \/ (exists l1, l = 46 :: l1 /\ frac_bad l1 m) \/ (exists e l1, l = e :: l1 /\ is_e e /\ exp_bad l1 m).

Lemma T_float_num : forall z l m, T (a_float_num cf t z l) m <-> T (a_float cf t z l) m.
Proof. intros. unfold a_float_num. apply T_bind_ret. Qed.

Lemma T_intd : forall l x z m, (0 <= z <= max_int)%Z ->
  (T (a_intd cf t z (x :: l)) m <->
   exists ds l1, l = ds ++ l1 /\ Forall (digit ck) ds /\ (dec z ds <= max_int)%Z /\ int_bad l1 m).
Proof.
  induction l as [|c l IH]; intros x z m Hz;
    (change (a_intd cf t z (x :: ?l)) with
       (guard t l (if (hd0 l =? 46) || (hd0 l =? 101) || (hd0 l =? 69) then a_float_num cf t z l
         else if is_digit cf (hd0 l) then
           let* z := chk64 (z * 10)%Z in
           let* z := chk64 (z + Z.of_N (u32_sub (hd0 l) 48))%Z in
           a_intd cf t z l
         else Ret (NI z, l)))); rewrite T_guard.
  - cbn [hd0 hd]. change ((0 =? 46) || (0 =? 101) || (0 =? 69)) with false. cbv iota. rewrite is_digit0, T_ret. split.
    + intros [[_ U]|[_ []]]. exists [], []. cbn [dec]. repeat split; auto; [lia|]. left. auto.
    + intros (ds & l1 & E & _ & _ & H). symmetry in E. apply app_eq_nil in E. destruct E as [-> ->].
      destruct H as [[_ U]|[(l2 & H & _)|(e & l2 & H & _)]]; [auto|discriminate..].
  - cbn [hd0 hd]. destruct ((c =? 46) || (c =? 101) || (c =? 69)) eqn:Ee.
    + rewrite T_float_num. split.
      * intros [[H _]|[_ H]]; [discriminate|]. exists [], (c :: l). cbn [dec]. repeat split; auto; [lia|].
        destruct (N.eq_dec c 46) as [->|Nc].
        -- apply T_float_dot in H. right. left. eauto.
        -- assert (He : is_e c) by (unfold is_e; lia). apply T_float_e in H; [|assumption]. right. right. eauto.
      * intros (ds & l1 & E & F & _ & H). right. split; [reflexivity|]. destruct ds as [|d ds].
        -- cbn [app] in E. subst l1. destruct H as [[H _]|[(l2 & H & X)|(e & l2 & H & He & X)]]; [discriminate|..]; injection H as -> ->.
           ++ apply T_float_dot. assumption.
           ++ apply T_float_e; assumption.
        -- injection E as -> ->. inversion F as [|? ? D]; subst. exfalso. destruct D as [D1 D2]. rewrite low_small in * by lia. lia.
    + destruct (is_digit cf c) eqn:D.
      * apply is_digit_iff in D. split.
        -- intros [[H _]|[_ H]]; [discriminate|]. apply T_bind in H. destruct H as [H|(z1 & H1 & H)].
           { exfalso. unfold chk64, T in H. destruct (in_int64 _); discriminate. }
           apply T_bind in H. destruct H as [H|(z2 & H2 & H)].
           { exfalso. unfold chk64, T in H. destruct (in_int64 _); discriminate. }
           apply chk64_pos in H1; [|lia]. destruct H1 as [-> B1].
           apply chk64_pos in H2; [|lia]. destruct H2 as [-> B2].
           apply IH in H; [|rewrite dval_eq in *; lia].
           destruct H as (ds & l1 & -> & F & M & X). exists (c :: ds), l1. repeat split; auto.
        -- intros (ds & l1 & E & F & M & X). right. split; [reflexivity|]. destruct ds as [|d ds].
           { cbn in E. subst l1. exfalso. destruct D as [D1 D2].
             destruct X as [[H _]|[(l2 & H & _)|(e & l2 & H & He & _)]]; [discriminate|..]; injection H as -> ->;
             [rewrite low_small in * by lia; lia|]. destruct He as [-> | ->]; rewrite low_small in * by lia; lia. }
           injection E as -> ->. inversion F; subst. cbn [dec] in M.
           pose proof (dec_ge ds (z * 10 + Z.of_N (dval d))%Z ltac:(lia)) as G.
           apply T_bind. right. exists (z * 10)%Z. split; [apply chk64_pos; lia|].
           apply T_bind. right. exists (z * 10 + Z.of_N (dval d))%Z. split; [apply chk64_pos; rewrite dval_eq; lia|].
           apply IH; [lia|]. exists ds, l1. repeat split; auto.
      * apply is_digit_false in D. rewrite T_ret. split; [intros [[H _]|[_ []]]; discriminate|].
        intros (ds & l1 & E & F & M & X). destruct ds as [|d ds].
        -- cbn in E. subst l1. exfalso.
           destruct X as [[H _]|[(l2 & H & _)|(e & l2 & H & He & _)]]; [discriminate|..]; injection H as -> ->; [discriminate Ee|].
           unfold is_e in He. lia.
        -- injection E as -> ->. inversion F; subst. contradiction.
Qed.

Notation nd := (ndebug cf).

Definition uns_bad (l : list N) (m : string) : Prop :=
  bad_unsigned ck nd t l m \/ (undecodable t m /\ l <> [] /\ uns_cut ck nd l).

(** [bad_unsigned] and the cut, regrouped *)
Lemma uns_bad_iff : forall l m, ok t l ->
  (uns_bad l m <->
   (exists l1, l = 48 :: l1 /\ ((l1 = [] /\ undecodable t m) \/ (exists l2, l1 = 46 :: l2 /\ frac_bad l2 m) \/
      (exists e l2, l1 = e :: l2 /\ is_e e /\ m = "invalid exponent"%string))) \/
   (exists c ds l1, l = c :: ds ++ l1 /\ c <> 48 /\ (nd = true \/ digit ck c) /\ Forall (digit ck) ds /\
      (dec (Z.of_N (dval c)) ds <= max_int)%Z /\ int_bad l1 m)).
Proof.
  intros l m O. unfold uns_bad. split.
  - intros [H|(U & N & [C|(l1 & W & C)])]; [|congruence|].
    + destruct H as [e l He|r l c W S D|r e l m W N He B|r d ds e l m W F He B].
      * left. exists (e :: l). split; [reflexivity|]. right. right. eauto.
      * inversion W; subst.
        -- left. eexists. split; [reflexivity|]. right. left. eexists. split; [reflexivity|]. left. eauto.
        -- right. eexists _, _, _. split; [reflexivity|]. repeat split; auto. right. left. eexists. split; [reflexivity|]. left. eauto.
      * inversion W; subst; [contradiction N; reflexivity|].
        right. eexists _, _, _. split; [reflexivity|]. repeat split; auto. right. right. eexists _, _. split; [reflexivity|]. split; [assumption|]. left. assumption.
      * inversion W; subst.
        -- left. eexists. split; [reflexivity|]. right. left. eexists. split; [reflexivity|]. right. left. exists d, ds, e, l. auto.
        -- right. eexists _, _, _. split; [reflexivity|]. repeat split; auto. right. left. eexists. split; [reflexivity|]. right. left. exists d, ds, e, l. auto.
    + destruct C as [->|[(l2 & -> & C)|(e & l2 & -> & He & N' & C)]]; inversion W; subst.
      * left. eexists. split; [reflexivity|]. left. auto.
      * right. eexists _, _, _. split; [reflexivity|]. repeat split; auto. left. auto.
      * left. eexists. split; [reflexivity|]. right. left. eexists. split; [reflexivity|]. right. right. auto.
      * right. eexists _, _, _. split; [reflexivity|]. repeat split; auto. right. left. eexists. split; [reflexivity|]. right. right. auto.
      * congruence.
      * right. eexists _, _, _. split; [reflexivity|]. repeat split; auto. right. right. eexists _, _. split; [reflexivity|]. split; [assumption|]. right. auto.
  - assert (Fr : forall r l2, whole ck nd r (46 :: l2) -> r <> [] -> frac_bad l2 m ->
      bad_unsigned ck nd t r m \/ (undecodable t m /\ r <> [] /\ uns_cut ck nd r)).
    { intros r l2 W N [(c & S & D & ->)|[(d & ds & e & l3 & -> & F & He & B)|[U C]]].
      - left. eapply bu_dot; eassumption.
      - left. eapply bu_frac_exp; eassumption.
      - right. split; [assumption|]. split; [assumption|]. right. exists (46 :: l2). split; [assumption|]. right. left. eauto. }
    intros [(l1 & -> & [[-> U]|[(l2 & -> & B)|(e & l2 & -> & He & ->)]])|(c & ds & l1 & -> & N & Dg & F & M & [[-> U]|[(l2 & -> & B)|(e & l2 & -> & He & B)]])].
    + right. split; [assumption|]. split; [discriminate|]. right. exists []. split; [constructor|auto].
    + eapply Fr; [constructor|discriminate|assumption].
    + left. constructor. assumption.
    + right. split; [assumption|]. split; [discriminate|]. right. exists []. split; [constructor; assumption|auto].
    + eapply Fr; [constructor; eassumption|discriminate|assumption].
    + assert (W : whole ck nd (c :: ds ++ e :: l2) (e :: l2)) by (constructor; assumption).
      assert (Ne : c :: ds ++ e :: l2 <> 48 :: e :: l2) by congruence.
      destruct B as [B|[U C]]; [left; eapply bu_exp; eassumption|]. right. split; [assumption|]. split; [discriminate|]. right.
      exists (e :: l2). split; [assumption|]. right. right. exists e, l2. auto.
Qed.

Lemma T_unsigned : forall l m, ok t l -> (T (a_unsigned cf t l) m <-> uns_bad l m).
Proof.
  intros l m O. rewrite uns_bad_iff by assumption. unfold a_unsigned.
  destruct (hd0 l =? c_0) eqn:E0.
  - apply N.eqb_eq in E0. destruct l as [|c l1]; [discriminate|]. cbn [hd0 hd tl] in *. subst c. cbv zeta. rewrite T_guard. split.
    + intro H. left. exists l1. split; [reflexivity|]. destruct H as [[-> U]|[O1 H]]; [left; auto|]. right.
      destruct (hd0 l1 =? c_dot) eqn:E1.
      * apply N.eqb_eq in E1. destruct l1 as [|c l2]; [discriminate|]. cbn [hd0 hd] in E1. subst c. left.
        exists l2. split; [reflexivity|]. apply T_float_num, T_float_dot in H. assumption.
      * destruct ((hd0 l1 =? c_e) || (hd0 l1 =? c_E)) eqn:E2; [|apply T_ret in H; contradiction]. apply T_fail in H. subst m.
        destruct l1 as [|c l2]; [discriminate|]. right. exists c, l2. repeat split; auto. apply is_e_iff. exact E2.
    + intros [(l2 & E & H)|(c & ds & l2 & E & N & _)]; [|injection E as <- _; congruence]. injection E as <-.
      destruct H as [H|[(l2 & -> & H)|(e & l2 & -> & He & ->)]]; [auto|..]; right; split; try reflexivity; cbn [hd0 hd].
      * change (46 =? c_dot) with true. cbv iota. apply T_float_num, T_float_dot. assumption.
      * replace (e =? c_dot) with false by (unfold is_e in He; lia). apply is_e_iff in He. change c_e with 101. change c_E with 69. rewrite He. reflexivity.
  - apply N.eqb_neq in E0. change c_0 with 48 in E0. unfold a_integer.
    assert (G : negb nd && negb (is_digit cf (hd0 l)) = false <-> (nd = true \/ digit ck (hd0 l))).
    { rewrite <- is_digit_iff. destruct nd, (is_digit cf (hd0 l)); cbn; split; intros; auto; try congruence.
      destruct H; discriminate. }
    pose proof (dval_max (hd0 l)) as DM. rewrite <- (dval_eq (hd0 l)) in DM.
    destruct l as [|c l].
    { cbn [a_intd hd0 hd]. split.
      - intro H. exfalso. destruct (negb _ && negb _); [discriminate H|]. apply T_ret in H. contradiction.
      - intros [(l1 & H & _)|(c & ds & l1 & H & _)]; discriminate. }
    cbn [hd0 hd] in *. destruct (negb nd && negb (is_digit cf c)) eqn:Eg.
    + split; [discriminate|]. intros [(l2 & E & _)|(c' & ds & l1 & E & N & Dg & _)]; [congruence|].
      injection E as <- _. apply G in Dg. discriminate.
    + rewrite (T_intd l c _ m DM). rewrite !dval_eq. split.
      * intros (ds & l1 & -> & F & M & X). right. exists c, ds, l1. repeat split; auto. apply G. reflexivity.
      * intros [(l2 & E & _)|(c' & ds & l1 & E & N & Dg & F & M & X)]; [congruence|]. injection E as <- ->. eauto 8.
Qed.

(** ** Cut numbers are the beginnings of numbers *)

Lemma ext_digits : forall a b ds, a ++ b = ds -> Forall (digit ck) ds -> Forall (digit ck) a /\ Forall (digit ck) b.
Proof. intros a b ds <- F. apply Forall_app. assumption. Qed.

Lemma exp_cut_ex : forall l f, exp_cut ck l -> exists w f', exponent ck f (l ++ w) f' [].
Proof.
  intros l f [->|[(s & -> & Sg)|[(s & x & ds & -> & Sg & F)|(c & ds & -> & D & Z & F)]]].
  - exists [49]. eexists. apply (ex_plain ck f 49 [] []); [|lia|constructor|exact I].
    unfold digit. rewrite low_small by lia. lia.
  - exists [49]. destruct Sg as [-> | ->]; eexists.
    + apply (ex_plus ck f [49] 49 [] []); [constructor|constructor|exact I].
    + apply (ex_minus ck f [49] 49 [] []); [constructor|constructor|exact I].
  - exists []. destruct Sg as [-> | ->]; eexists; rewrite app_nil_r.
    + apply (ex_plus ck f (x :: ds) x ds []); [rewrite app_nil_r; constructor|assumption|exact I].
    + apply (ex_minus ck f (x :: ds) x ds []); [rewrite app_nil_r; constructor|assumption|exact I].
  - exists []. eexists. apply (ex_plain ck f c ds []); [assumption|assumption|assumption|exact I].
Qed.

Lemma frac_cut_ex : forall l z, frac_cut ck l -> exists w f', fraction ck z (l ++ w) f' [].
Proof.
  assert (D49 : digit ck 49) by (unfold digit; rewrite low_small by lia; lia).
  intros l z [->|[(d & ds & -> & F)|(d & ds & e & l1 & -> & F & He & C)]].
  - exists [49]. eexists. apply (fr ck z 49 [] []); [auto|exact I|apply eo_none; exact I].
  - exists []. eexists. apply (fr ck z d ds []); [assumption|exact I|apply eo_none; exact I].
  - destruct (exp_cut_ex l1 (frac_value (d_of_Z z) dtenth (d :: ds)) C) as (w & f' & X). exists w, f'.
    cbn [app]. rewrite <- app_assoc. cbn [app]. apply fr; [assumption|apply e_not_digit; assumption|]. apply eo_some; assumption.
Qed.

Lemma uns_cut_ex : forall l, uns_cut ck nd l -> exists w v, unsigned ck nd (l ++ w) v [].
Proof.
  intros l [->|(l1 & W & C)].
  - exists [48], (VInt 0). apply un_zero. exact I.
  - destruct W as [l1|c ds l1 N Dg F M].
    + destruct C as [->|[(l2 & -> & C)|(e & l2 & -> & He & N & C)]].
      * exists [], (VInt 0). apply un_zero. exact I.
      * destruct (frac_cut_ex l2 0%Z C) as (w & f & X). exists w, (VFloat f). apply un_zero_frac. assumption.
      * congruence.
    + destruct C as [->|[(l2 & -> & C)|(e & l2 & -> & He & N' & C)]].
      * exists []. rewrite !app_nil_r. eexists. apply (un_int ck nd (c :: ds) c ds []); auto; [rewrite app_nil_r; constructor|exact I|exact I].
      * destruct (frac_cut_ex l2 (dec (Z.of_N (dval c)) ds) C) as (w & f & X). exists w, (VFloat f).
        cbn [app]. rewrite <- app_assoc. cbn [app].
        apply (un_frac ck nd _ c ds (l2 ++ w) f []); auto. constructor.
      * destruct (exp_cut_ex l2 (d_of_Z (dec (Z.of_N (dval c)) ds)) C) as (w & f & X). exists w, (VFloat f).
        cbn [app]. rewrite <- app_assoc. cbn [app].
        apply (un_exp ck nd _ c ds e (l2 ++ w) f []); auto. constructor.
Qed.

Lemma pre_app : forall (a b c d : list N), a ++ b = c ++ d ->
  (exists e, c = a ++ e /\ b = e ++ d) \/ (exists x e, a = c ++ x :: e /\ d = x :: e ++ b).
Proof.
  induction a as [|x a IH]; intros b c d E; cbn [app] in *.
  - left. exists c. auto.
  - destruct c as [|y c]; cbn [app] in *.
    + right. exists x, a. auto.
    + injection E as -> E. destruct (IH _ _ _ E) as [(e & -> & ->)|(z & e & -> & ->)]; [left|right]; eauto.
Qed.

Lemma ex_exp_cut : forall l w f f', exponent ck f (l ++ w) f' [] -> exp_cut ck l.
Proof.
  intros l w f f' H. destruct l as [|c l]; [left; reflexivity|]. right. cbn [app] in H.
  inversion H as [c' ds l' D Z F Nd E|l0 c' ds l' Nx F Nd E|l0 c' ds l' Nx F Nd E]; subst.
  - right. right. exists c, l. rewrite app_nil_r in *. subst. apply Forall_app in F. repeat split; auto; apply F || apply D.
  - rewrite app_nil_r in Nx. destruct l as [|x l]; [left; exists 43; split; [reflexivity|left; reflexivity]|].
    right. left. cbn [app] in Nx. inversion Nx; subst. apply Forall_app in F. exists 43, c', l. repeat split; [left; reflexivity|apply F].
  - rewrite app_nil_r in Nx. destruct l as [|x l]; [left; exists 45; split; [reflexivity|right; reflexivity]|].
    right. left. cbn [app] in Nx. inversion Nx; subst. apply Forall_app in F. exists 45, c', l. repeat split; [right; reflexivity|apply F].
Qed.

Lemma ex_frac_cut : forall l w z f', fraction ck z (l ++ w) f' [] -> frac_cut ck l.
Proof.
  intros l w z f' H. destruct l as [|c l]; [left; reflexivity|]. right. cbn [app] in H.
  inversion H as [d ds l1 f l0 F Nd X E1]; subst.
  match goal with E : _ ++ _ = l ++ w |- _ => symmetry in E; apply pre_app in E; destruct E as [(e & -> & ->)|(x & e & -> & ->)] end.
  - left. exists c, l. split; [reflexivity|]. inversion F as [|? ? Dc F']; subst. constructor; [assumption|]. apply Forall_app in F'. apply F'.
  - right. inversion X as [? Ne|e0 l2 f2 l3 He Ex]; subst.
    exists c, ds, x, e. split; [reflexivity|]. split; [assumption|]. split; [assumption|]. eapply ex_exp_cut. eassumption.
Qed.

Lemma ex_uns_cut : forall l w v, unsigned ck nd (l ++ w) v [] -> uns_cut ck nd l.
Proof.
  intros l w v H. destruct l as [|c l]; [left; reflexivity|]. right. cbn [app] in H.
  apply unsigned_int_iff in H. destruct H as [(l1 & E & H)|(N0 & Dg & ds & l1 & E & F & M & X)].
  - injection E as -> <-. destruct H as [(_ & _ & E)|(l2 & f & E & _ & Fr)].
    + symmetry in E. apply app_eq_nil in E. destruct E as [-> ->]. exists []. split; [constructor|auto].
    + destruct l as [|x l]; [exists []; split; [constructor|auto]|]. cbn [app] in E. injection E as -> <-.
      exists (46 :: l). split; [constructor|]. right. left. exists l. split; [reflexivity|]. eapply ex_frac_cut. eassumption.
  - cbn [hd0 hd tl] in *. apply pre_app in E. destruct E as [(e & -> & ->)|(x & e & -> & ->)].
    + exists []. split; [|auto]. replace (c :: l) with (c :: l ++ []) by (rewrite app_nil_r; reflexivity).
      apply Forall_app in F. constructor; auto; [apply F|].
      assert (Da : forall a b z, dec z (a ++ b) = dec (dec z a) b) by (induction a; intros; cbn [app dec]; auto).
      rewrite Da in M.
      assert (Hp : (0 <= dec (Z.of_N (dval c)) l)%Z) by (pose proof (dec_ge l (Z.of_N (dval c)) ltac:(lia)); lia).
      pose proof (dec_ge e _ Hp). lia.
    + exists (x :: e). split; [constructor; assumption|]. right.
      inversion X as [? Nd Nf|l2 f l3 Fr|e0 l2 f l3 He Ex]; subst.
      * left. exists e. split; [reflexivity|]. eapply ex_frac_cut. eassumption.
      * right. exists x, e. repeat split; auto; [congruence|]. eapply ex_exp_cut. eassumption.
Qed.

(** ** Numbers *)

Lemma T_number : forall c l m, num_start c = true ->
  (T (a_number cf t (c :: l)) m <->
   bad_number ck nd t (c :: l) m \/ (undecodable t m /\ exists w v, number ck nd (c :: l ++ w) v [])).
Proof.
  intros c l m Hs. unfold a_number. cbn [hd0 hd tl]. cbv zeta. rewrite T_guard, T_bind_ret.
  change c_minus with 45. change c_plus with 43.
  destruct ((c =? 45) || (c =? 43)) eqn:Es.
  - assert (Sg : c = 43 \/ c = 45) by lia.
    assert (Num : (exists w v, number ck nd (c :: l ++ w) v []) <-> uns_cut ck nd l).
    { split.
      - intros (w & v & H). inversion H as [c1 l1 v1 l2 A B U|l1 v1 l2 U|l1 v1 l2 U]; subst; [lia|..]; eapply ex_uns_cut; eassumption.
      - intro H. destruct (uns_cut_ex l H) as (w & v & U). exists w. destruct Sg as [-> | ->]; eexists; [apply nu_plus|apply nu_minus]; eassumption. }
    rewrite Num. split.
    + intros [[-> U]|[O H]]; [right; split; [assumption|left; reflexivity]|]. apply T_unsigned in H; [|assumption].
      destruct H as [H|(U & _ & H)]; [left; apply bn_sign; assumption|right; auto].
    + intros [H|[U H]].
      * inversion H as [? ? ? A B X|? ? ? _ X]; subst; [lia|]. right.
        assert (O : ok t l).
        { destruct X as [? ? ?|r l c' W S D|r e l m W N He B|r d ds e l m W F He B]; [reflexivity|..]; inversion W; reflexivity. }
        split; [assumption|]. apply T_unsigned; [assumption|]. left. assumption.
      * destruct l as [|x l]; [left; auto|]. right. split; [reflexivity|]. apply T_unsigned; [reflexivity|]. right.
        split; [assumption|]. split; [discriminate|assumption].
  - assert (Dg : 48 <= c /\ c <= 57) by (unfold num_start in Hs; lia).
    assert (Num : (exists w v, number ck nd (c :: l ++ w) v []) <-> uns_cut ck nd (c :: l)).
    { split.
      - intros (w & v & H). inversion H as [c1 l1 v1 l2 A B U|l1 v1 l2 U|l1 v1 l2 U]; subst; [|lia..]. eapply ex_uns_cut; exact U.
      - intro H. destruct (uns_cut_ex (c :: l) H) as (w & v & U). exists w, v. apply nu_plain; [lia|lia|exact U]. }
    rewrite Num. split.
    + intros [[H _]|[O H]]; [discriminate|]. apply T_unsigned in H; [|assumption].
      destruct H as [H|(U & _ & H)]; [left; apply bn_plain; [lia|lia|assumption]|right; auto].
    + intros H. right. split; [reflexivity|]. apply T_unsigned; [reflexivity|]. destruct H as [H|[U H]].
      * inversion H as [? ? ? A B X|? ? ? Sg X]; subst; [left; assumption|lia].
      * right. split; [assumption|]. split; [discriminate|assumption].
Qed.
End Num.
