(** Number literals, for any number type: the scanner against the grammar of
    SpecNumType.v, in both directions. *)
From Coq Require Import Lia ZifyBool ZifyNat ZifyN.
From Verif Require Import Base Stream Encoding Value Token Message Parser Feeds ListMachine SpecGrammar Simulation GrammarLex NumType SpecNumType.
Open Scope N_scope.

Lemma at_ok : forall cf st l t, at_ cf st l t -> ok t l.
Proof. intros cf st l t H. unfold ok. inversion H; reflexivity. Qed.

Section Lex.
Variables (T : numty) (cf : pcfg) (t : term).
Notation ck := (src_ck cf).
Notation at_n s l := (at_ cf (n_p s) l t).

Definition kept (s s' : nst T) : Prop := n_neg s' = n_neg s /\ n_int s' = n_int s /\ n_flt s' = n_flt s.

Lemma next_snd : forall s l s', at_n s l -> n_next T cf s = Ret s' -> at_n s' (tl l) /\ kept s s'.
Proof.
  intros s l s' A H. unfold n_next in H. pose proof (read_sim cf (n_p s) l t A) as R.
  destruct (read_next cf (n_p s)) as [p| | | |]; try discriminate. cbn [bind] in H. injection H as <-.
  destruct (guard t (tl l) (Ret tt)); cbn in R; try contradiction. destruct R as [R _]. split; [exact R|repeat split].
Qed.
Lemma next_cpl : forall s l, at_n s l -> ok t (tl l) -> exists s', n_next T cf s = Ret s' /\ at_n s' (tl l) /\ kept s s'.
Proof.
  intros s l A O. unfold n_next. pose proof (read_sim cf (n_p s) l t A) as R. rewrite ok_guard in R by assumption.
  destruct (read_next cf (n_p s)) as [p| | | |]; cbn in R; try contradiction. destruct R as [R _].
  eexists. split; [reflexivity|]. split; [exact R|repeat split].
Qed.
Lemma cur_hd : forall s l, at_n s l -> n_cur T s = hd0 l.
Proof. intros s l A. unfold n_cur. eapply at_cur. eassumption. Qed.

Lemma pow_run : forall b e, n_power T b e = match e with N0 => f_one T | Npos p => run_pow T b (f_one T) p end.
Proof.
  intros b [|p]; [reflexivity|]. unfold n_power. generalize (f_one T). revert b. induction p; intros b x; cbn [n_pow_loop run_pow]; auto.
Qed.

(** ** Exponents *)
Lemma expd_snd : forall p l ex fuel n p', at_ cf p l t -> (length l < fuel)%nat -> exp_digits cf fuel ex p = Ret (n, p') ->
  exists ds l', tl l = ds ++ l' /\ Forall (digit ck) ds /\ no_digit ck l' /\ n = dec32 ex ds /\ at_ cf p' l' t.
Proof.
  intros p l ex fuel n p' A L H. pose proof (expd_sim cf t l ex p fuel A L) as S. rewrite H in S.
  destruct (a_expd cf t ex l) as [[n' l']| | | |] eqn:E; cbn in S; try contradiction. destruct S as [[A' _] ->].
  apply expd_hd_iff in E; [|eapply at_ok; eassumption]. destruct E as (ds & E & F & Nd & -> & O). exists ds, l'. auto.
Qed.
Lemma expd_cpl : forall p l ex fuel ds l', at_ cf p l t -> (length l < fuel)%nat -> tl l = ds ++ l' -> Forall (digit ck) ds -> no_digit ck l' -> ok t l' ->
  exists p', exp_digits cf fuel ex p = Ret (dec32 ex ds, p') /\ at_ cf p' l' t.
Proof.
  intros p l ex fuel ds l' A L E F Nd O. pose proof (expd_sim cf t l ex p fuel A L) as S.
  assert (X : a_expd cf t ex l = Ret (dec32 ex ds, l')).
  { apply expd_hd_iff; [eapply at_ok; eassumption|]. exists ds. auto. }
  rewrite X in S. destruct (exp_digits cf fuel ex p) as [[n p']| | | |]; cbn in S; try contradiction. destruct S as [[A' _] ->]. eauto.
Qed.

Definition floats (s : nst T) (r : token * nst T) (f : nF T) (l' : list N) : Prop :=
  fst r = Tfloat /\ at_n (snd r) l' /\ n_flt (snd r) = f /\ n_neg (snd r) = n_neg s.

Lemma exponent_snd : forall s l fuel r, at_n s l -> (length l < fuel)%nat -> n_exponent T cf fuel s = Ret r ->
  exists x l', exponent_lit ck (tl l) x l' /\ floats s r (run_exp T (n_flt s) (Some x)) l'.
Proof.
  intros s l fuel r A L H. unfold n_exponent in H. destruct (n_next T cf s) as [s1| | | |] eqn:E1; try discriminate. cbn [bind] in H.
  destruct (next_snd _ _ _ A E1) as [A1 (K1 & K2 & K3)]. rewrite (cur_hd _ _ A1) in H.
  assert (L1 : (length (tl l) < fuel)%nat) by (destruct l; cbn in *; lia).
  destruct (negb _) eqn:En; [discriminate|]. rewrite Bool.negb_false_iff in En.
  destruct ((hd0 (tl l) =? c_plus) || (hd0 (tl l) =? c_minus)) eqn:Es.
  - destruct (n_next T cf s1) as [s2| | | |] eqn:E2; try discriminate. cbn [bind] in H.
    destruct (next_snd _ _ _ A1 E2) as [A2 (J1 & J2 & J3)]. rewrite (cur_hd _ _ A2) in H.
    assert (L2 : (length (tl (tl l)) < fuel)%nat) by (destruct (tl l); cbn in *; lia).
    destruct (exp_digits cf fuel _ (n_p s2)) as [[n p]| | | |] eqn:E3; try discriminate. cbn [bind] in H. injection H as <-.
    destruct (expd_snd _ _ _ _ _ _ A2 L2 E3) as (ds & l' & E & F & Nd & -> & A3).
    assert (Hn : next (tl (tl l)) (hd0 (tl (tl l))) (ds ++ l')) by (apply next_hd; auto).
    destruct (tl l) as [|c l1] eqn:El; [discriminate|]. cbn [hd0 hd tl] in *.
    exists (mkExp (c =? c_minus) (hd0 l1) ds), l'. split.
    + destruct (N.eqb_spec c c_minus) as [->|Nm]; [constructor; assumption|]. assert (c = 43) as -> by lia. constructor; assumption.
    + unfold floats. cbn [fst snd with_flt with_p n_p n_flt n_neg run_exp e_neg e_first e_more]. rewrite pow_run, dval_eq, J3, K3, J1, K1.
      repeat split; assumption.
  - cbn [bind] in H. rewrite (cur_hd _ _ A1) in H.
    destruct (exp_digits cf fuel _ (n_p s1)) as [[n p]| | | |] eqn:E3; try discriminate. cbn [bind] in H. injection H as <-.
    destruct (expd_snd _ _ _ _ _ _ A1 L1 E3) as (ds & l' & E & F & Nd & -> & A3).
    destruct (tl l) as [|c l1] eqn:El; [rewrite is_digit0 in En; discriminate|]. cbn [hd0 hd tl] in *. subst l1.
    apply Bool.orb_false_iff in Es. destruct Es as [Ep Em]. rewrite Em, Ep, !Bool.orb_false_r in En. apply andb_prop in En. destruct En as [D Nz].
    apply is_digit_iff in D. exists (mkExp false c ds), l'. split; [constructor; auto; lia|].
    unfold floats. cbn [fst snd with_flt with_p n_p n_flt n_neg run_exp e_neg e_first e_more]. rewrite pow_run, dval_eq, K3, K1, Em.
    repeat split; assumption.
Qed.

Lemma exponent_cpl : forall s l fuel x l', at_n s l -> (length l < fuel)%nat -> exponent_lit ck (tl l) x l' -> ok t l' ->
  exists r, n_exponent T cf fuel s = Ret r /\ floats s r (run_exp T (n_flt s) (Some x)) l'.
Proof.
  intros s l fuel x l' A L X O. unfold n_exponent.
  assert (L1 : (length (tl l) < fuel)%nat) by (destruct l; cbn in *; lia).
  inversion X as [c ds l2 D Nz F Nd E|l2 c ds l3 Hn F Nd E|l2 c ds l3 Hn F Nd E]; subst.
  - destruct (next_cpl s l A ltac:(rewrite <- E; apply ok_cons)) as (s1 & E1 & A1 & K1 & K2 & K3). rewrite E1. cbn [bind].
    rewrite (cur_hd _ _ A1). rewrite <- E in *. cbn [hd0 hd].
    apply is_digit_iff in D. rewrite D. assert (Ez : (c =? c_0) = false) by lia. rewrite Ez. cbn [negb andb orb].
    assert (Em : (c =? c_minus) = false).
    { apply N.eqb_neq. intros ->. apply is_digit_iff in D. destruct D as [D _]. rewrite low_small in D; lia. }
    assert (Ep : (c =? c_plus) = false).
    { apply N.eqb_neq. intros ->. apply is_digit_iff in D. destruct D as [D _]. rewrite low_small in D; lia. }
    rewrite Em, Ep. cbn [orb bind].
    destruct (expd_cpl (n_p s1) (c :: ds ++ l') (u32_sub (n_cur T s1) 48) fuel ds l' A1 L1 eq_refl F Nd O) as (p' & Ed & A').
    rewrite Ed. cbn [bind]. eexists. split; [reflexivity|]. unfold floats. rewrite (cur_hd _ _ A1). cbn [hd0 hd].
    cbn [fst snd with_flt with_p n_p n_flt n_neg run_exp e_neg e_first e_more]. rewrite pow_run, dval_eq, K3, K1. repeat split; assumption.
  - apply next_hd in Hn. destruct Hn as [-> Hn].
    destruct (next_cpl s l A ltac:(rewrite <- E; apply ok_cons)) as (s1 & E1 & A1 & K1 & K2 & K3). rewrite E1. cbn [bind].
    rewrite (cur_hd _ _ A1). rewrite <- E in *. cbn [hd0 hd tl]. change (43 =? c_minus) with false. change (43 =? c_plus) with true.
    rewrite !Bool.orb_true_r. cbn [negb orb].
    assert (O2 : ok t l2) by (eapply ok_split; [symmetry; exact Hn|assumption]).
    destruct (next_cpl s1 _ A1 O2) as (s2 & E2 & A2 & J1 & J2 & J3). rewrite E2. cbn [bind tl] in *.
    destruct (expd_cpl (n_p s2) l2 (u32_sub (n_cur T s2) 48) fuel ds l' A2 ltac:(cbn in *; lia) (eq_sym Hn) F Nd O) as (p' & Ed & A').
    rewrite Ed. cbn [bind]. eexists. split; [reflexivity|]. unfold floats. rewrite (cur_hd _ _ A2).
    cbn [fst snd with_flt with_p n_p n_flt n_neg run_exp e_neg e_first e_more]. rewrite pow_run, dval_eq, J3, K3, J1, K1. repeat split; assumption.
  - apply next_hd in Hn. destruct Hn as [-> Hn].
    destruct (next_cpl s l A ltac:(rewrite <- E; apply ok_cons)) as (s1 & E1 & A1 & K1 & K2 & K3). rewrite E1. cbn [bind].
    rewrite (cur_hd _ _ A1). rewrite <- E in *. cbn [hd0 hd tl]. change (45 =? c_minus) with true. change (45 =? c_plus) with false.
    rewrite !Bool.orb_true_r. cbn [negb orb].
    assert (O2 : ok t l2) by (eapply ok_split; [symmetry; exact Hn|assumption]).
    destruct (next_cpl s1 _ A1 O2) as (s2 & E2 & A2 & J1 & J2 & J3). rewrite E2. cbn [bind tl] in *.
    destruct (expd_cpl (n_p s2) l2 (u32_sub (n_cur T s2) 48) fuel ds l' A2 ltac:(cbn in *; lia) (eq_sym Hn) F Nd O) as (p' & Ed & A').
    rewrite Ed. cbn [bind]. eexists. split; [reflexivity|]. unfold floats. rewrite (cur_hd _ _ A2).
    cbn [fst snd with_flt with_p n_p n_flt n_neg run_exp e_neg e_first e_more]. rewrite pow_run, dval_eq, J3, K3, J1, K1. repeat split; assumption.
Qed.

(** ** Fractions *)
Lemma frac_snd : forall n l p s r, at_n s l -> (length l < n)%nat -> n_frac T cf n p s = Ret r ->
  exists ds l1 x l', tl l = ds ++ l1 /\ Forall (digit ck) ds /\ no_digit ck l1 /\ exp_lit ck l1 x l' /\
    floats s r (run_exp T (run_frac T (n_flt s) (f_mul T p (f_tenth T)) ds) x) l'.
Proof.
  induction n as [|n IH]; intros l p s r A L H; [lia|]. cbn [n_frac] in H.
  destruct (n_next T cf s) as [s1| | | |] eqn:E1; try discriminate. cbn [bind] in H.
  destruct (next_snd _ _ _ A E1) as [A1 (K1 & K2 & K3)]. rewrite (cur_hd _ _ A1) in H.
  assert (L1 : (length (tl l) < S n)%nat) by (destruct l; cbn in *; lia).
  destruct ((hd0 (tl l) =? c_e) || (hd0 (tl l) =? c_E)) eqn:Ee.
  - destruct (exponent_snd _ _ _ _ A1 L1 H) as (x & l' & X & F1 & F2 & F3 & F4).
    destruct (tl l) as [|e l1] eqn:El; [discriminate|]. cbn [hd0 hd tl] in *. apply is_e_iff in Ee.
    exists [], (e :: l1), (Some x), l'. repeat split; auto; [|constructor; assumption| |congruence].
    + cbn. apply e_not_digit. assumption.
    + cbn [run_frac]. rewrite F3, K3. reflexivity.
  - destruct (is_digit cf (hd0 (tl l))) eqn:D.
    + destruct (tl l) as [|d l1] eqn:El; [rewrite is_digit0 in D; discriminate|]. cbn [hd0 hd] in *.
      destruct l as [|c l]; [discriminate|]. cbn [tl] in El. subst l.
      apply IH with (l := d :: l1) in H; [|exact A1|cbn in *; lia].
      destruct H as (ds & l2 & x & l' & E & F & Nd & X & F1 & F2 & F3 & F4). cbn [tl] in E. apply is_digit_iff in D.
      exists (d :: ds), l2, x, l'. cbn [app run_frac]. rewrite E. repeat split; auto.
      * rewrite F3. cbn [with_flt n_flt]. rewrite K3, dval_eq. reflexivity.
      * rewrite F4. assumption.
    + injection H as <-. exists [], (tl l), None, (tl l). apply is_digit_false in D.
      assert (Nd : no_digit ck (tl l)) by (destruct (tl l); [exact I|exact D]).
      repeat split; auto. constructor. apply no_exp_hd. assumption.
Qed.

Lemma frac_cpl : forall n l p s ds l1 x l', at_n s l -> (length l < n)%nat -> tl l = ds ++ l1 -> Forall (digit ck) ds -> no_digit ck l1 ->
  exp_lit ck l1 x l' -> ok t l' ->
  exists r, n_frac T cf n p s = Ret r /\ floats s r (run_exp T (run_frac T (n_flt s) (f_mul T p (f_tenth T)) ds) x) l'.
Proof.
  induction n as [|n IH]; intros l p s ds l1 x l' A L E F Nd X O; [lia|]. cbn [n_frac].
  assert (O1 : ok t l1).
  { inversion X; subst; [assumption|apply ok_cons]. }
  assert (Ot : ok t (tl l)) by (rewrite E; apply ok_app; assumption).
  destruct (next_cpl s l A Ot) as (s1 & E1 & A1 & K1 & K2 & K3). rewrite E1. cbn [bind]. rewrite (cur_hd _ _ A1).
  assert (L1 : (length (tl l) < S n)%nat) by (destruct l; cbn in *; lia).
  destruct ds as [|d ds].
  - cbn [app] in E. rewrite E in *. clear E. inversion X as [l2 Ne|e l2 y l3 Ie Y]; subst.
    + apply no_exp_hd in Ne. rewrite Ne. apply no_digit_hd in Nd. rewrite Nd. eexists. split; [reflexivity|]. repeat split; auto.
    + cbn [hd0 hd]. destruct (is_e_iff e) as [_ Eb]. rewrite (Eb Ie).
      destruct (exponent_cpl s1 (e :: l2) (S n) y l' A1 L1 Y O) as (r & Er & F1 & F2 & F3 & F4). exists r. split; [assumption|].
      repeat split; auto; [|congruence]. cbn [run_frac]. rewrite F3, K3. reflexivity.
  - rewrite E in *. cbn [app hd0 hd]. inversion F; subst.
    assert (Ee : (d =? c_e) || (d =? c_E) = false).
    { destruct ((d =? c_e) || (d =? c_E)) eqn:Ee; [|reflexivity]. exfalso. apply is_e_iff in Ee. eapply e_not_digit; eassumption. }
    rewrite Ee. match goal with D : digit ck d |- _ => apply is_digit_iff in D; rewrite D end.
    destruct (IH (d :: ds ++ l1) (f_mul T p (f_tenth T)) (with_flt T s1 (f_add T (n_flt s1) (f_mul T (f_dig T (u32_sub d 48)) (f_mul T p (f_tenth T)))))
      ds l1 x l' A1 ltac:(destruct l; cbn in *; [discriminate|subst; cbn in *; lia]) eq_refl ltac:(assumption) Nd X O) as (r & Er & F1 & F2 & F3 & F4).
    exists r. split; [assumption|]. repeat split; auto.
    + rewrite F3. cbn [with_flt n_flt run_frac]. rewrite K3, dval_eq. reflexivity.
    + rewrite F4. exact K1.
Qed.

(** what follows the digits of a number that is not an integer *)
Inductive tail_lit : list N -> list N -> option lexp -> list N -> Prop :=
| ta_frac l fr x l' : fraction_lit ck l (fr, x) l' -> tail_lit (46 :: l) fr x l'
| ta_exp e l x l' : is_e e -> exponent_lit ck l x l' -> tail_lit (e :: l) [] (Some x) l'.

Lemma tail_not_int : forall l fr x l', tail_lit l fr x l' -> ~ (fr = [] /\ x = None).
Proof. intros l fr x l' H [A B]. inversion H as [? ? ? ? F|]; subst; [inversion F|discriminate]. Qed.

Lemma float_snd : forall s l fuel r, at_n s l -> (length l < fuel)%nat -> hd0 l = 46 \/ is_e (hd0 l) -> n_float T cf fuel s = Ret r ->
  exists fr x l', tail_lit l fr x l' /\ floats s r (run_exp T (run_frac T (f_of T (n_int s)) (f_tenth T) fr) x) l'.
Proof.
  intros s l fuel r A L Hh H. unfold n_float in H. set (s0 := with_flt T s (f_of T (n_int s))) in *.
  assert (A0 : at_n s0 l) by exact A. rewrite (cur_hd _ _ A0) in H.
  destruct ((hd0 l =? c_e) || (hd0 l =? c_E)) eqn:Ee.
  - apply is_e_iff in Ee. destruct (exponent_snd _ _ _ _ A0 L H) as (x & l' & X & F). destruct l as [|e l]; [destruct Ee; discriminate|].
    exists [], (Some x), l'. split; [constructor; assumption|exact F].
  - assert (Hd : hd0 l = 46) by (destruct Hh as [|Hh]; [assumption|apply is_e_iff in Hh; congruence]).
    destruct l as [|c l]; [discriminate|]. cbn [hd0 hd] in Hd. subst c.
    destruct (n_next T cf s0) as [s1| | | |] eqn:E1; try discriminate. cbn [bind] in H.
    destruct (next_snd _ _ _ A0 E1) as [A1 (K1 & K2 & K3)]. rewrite (cur_hd _ _ A1) in H. cbn [tl] in *.
    destruct (is_digit cf (hd0 l)) eqn:D; [|discriminate]. cbn [negb] in H.
    destruct l as [|d l]; [rewrite is_digit0 in D; discriminate|]. cbn [hd0 hd] in *.
    match type of H with n_frac _ _ _ _ ?s2 = _ => assert (A2 : at_n s2 (d :: l)) by exact A1 end.
    destruct (frac_snd fuel (d :: l) _ _ _ A2 ltac:(cbn in *; lia) H) as (ds & l1 & x & l' & E & F & Nd & X & F1 & F2 & F3 & F4).
    cbn [tl] in E. subst l. apply is_digit_iff in D.
    exists (d :: ds), x, l'. split; [constructor; constructor; auto|]. repeat split; auto.
    + rewrite F3. cbn [with_flt n_flt run_frac]. rewrite K3, dval_eq. reflexivity.
    + rewrite F4. exact K1.
Qed.

Lemma float_cpl : forall s l fuel fr x l', at_n s l -> (length l < fuel)%nat -> tail_lit l fr x l' -> ok t l' ->
  exists r, n_float T cf fuel s = Ret r /\ floats s r (run_exp T (run_frac T (f_of T (n_int s)) (f_tenth T) fr) x) l'.
Proof.
  intros s l fuel fr x l' A L H O. unfold n_float. set (s0 := with_flt T s (f_of T (n_int s))) in *.
  assert (A0 : at_n s0 l) by exact A. rewrite (cur_hd _ _ A0). destruct H as [l fr x l' H|e l x l' Ie H].
  - cbn [hd0 hd]. change ((46 =? c_e) || (46 =? c_E)) with false. cbv iota.
    inversion H as [d ds l1 x' l2 F Nd X]; subst. inversion F as [|? ? Fd Fds]; subst.
    destruct (next_cpl s0 _ A0 (ok_cons _ _ _)) as (s1 & E1 & A1 & K1 & K2 & K3). rewrite E1. cbn [bind]. rewrite (cur_hd _ _ A1). cbn [tl hd0 hd] in *.
    apply is_digit_iff in Fd. rewrite Fd. cbn [negb].
    destruct (frac_cpl fuel (d :: ds ++ l1) (f_tenth T) (with_flt T s1 (f_add T (n_flt s1) (f_mul T (f_dig T (u32_sub d 48)) (f_tenth T))))
      ds l1 x l' A1 ltac:(cbn in *; lia) eq_refl Fds Nd X O) as (r & Er & F1 & F2 & F3 & F4).
    exists r. split; [assumption|]. repeat split; auto.
    + rewrite F3. cbn [with_flt n_flt run_frac]. rewrite K3, dval_eq. reflexivity.
    + rewrite F4. exact K1.
  - cbn [hd0 hd]. destruct (is_e_iff e) as [_ Eb]. rewrite (Eb Ie).
    destruct (exponent_cpl s0 (e :: l) fuel x l' A0 L H O) as (r & Er & F). exists r. split; [assumption|exact F].
Qed.

(** ** Integers *)
Definition ints (s : nst T) (r : token * nst T) (i : nI T) (l' : list N) : Prop :=
  fst r = Tint /\ at_n (snd r) l' /\ n_int (snd r) = i /\ n_neg (snd r) = n_neg s.

(** what is read after digits of value [i] *)
Definition rest_of (s : nst T) (r : token * nst T) (i : nI T) (l1 : list N) (fr : list N) (x : option lexp) (l' : list N) : Prop :=
  (fr = [] /\ x = None /\ l' = l1 /\ no_digit ck l1 /\ no_frac l1 /\ ints s r i l1) \/
  (tail_lit l1 fr x l' /\ floats s r (run_exp T (run_frac T (f_of T i) (f_tenth T) fr) x) l').

Lemma digits_snd : forall n l s r, at_n s l -> (length l < n)%nat -> n_digits T cf n s = Ret r ->
  exists ds l1 i fr x l', tl l = ds ++ l1 /\ Forall (digit ck) ds /\ run_digits T (n_int s) ds = Some i /\ rest_of s r i l1 fr x l'.
Proof.
  induction n as [|n IH]; intros l s r A L H; [lia|]. cbn [n_digits] in H.
  destruct (n_next T cf s) as [s1| | | |] eqn:E1; try discriminate. cbn [bind] in H.
  destruct (next_snd _ _ _ A E1) as [A1 (K1 & K2 & K3)]. rewrite (cur_hd _ _ A1) in H.
  assert (L1 : (length (tl l) < S n)%nat) by (destruct l; cbn in *; lia).
  destruct ((hd0 (tl l) =? c_dot) || (hd0 (tl l) =? c_e) || (hd0 (tl l) =? c_E)) eqn:Ee.
  - destruct (float_snd s1 (tl l) (S n) r A1 L1 ltac:(unfold is_e; lia) H) as (fr & x & l' & X & F1 & F2 & F3 & F4).
    exists [], (tl l), (n_int s), fr, x, l'. repeat split; auto. right. split; [assumption|]. rewrite <- K2. repeat split; auto. congruence.
  - destruct (is_digit cf (hd0 (tl l))) eqn:D.
    + destruct (tl l) as [|d l1] eqn:El; [rewrite is_digit0 in D; discriminate|]. cbn [hd0 hd] in *.
      destruct l as [|c l]; [discriminate|]. cbn [tl] in El. subst l.
      destruct (i_step T (n_int s1) (u32_sub d 48)) as [i| | | |] eqn:Ei; try discriminate. cbn [bind] in H.
      apply IH with (l := d :: l1) in H; [|exact A1|cbn in *; lia].
      destruct H as (ds & l2 & j & fr & x & l' & E & F & R & Q). cbn [tl] in E. apply is_digit_iff in D.
      exists (d :: ds), l2, j, fr, x, l'. cbn [app run_digits]. rewrite E, <- dval_eq, <- K2, Ei. repeat split; auto.
      destruct Q as [(-> & -> & -> & Nd & Nf & I1 & I2 & I3 & I4)|(X & F1 & F2 & F3 & F4)].
      * left. repeat split; auto. rewrite I4. exact K1.
      * right. split; [assumption|]. repeat split; auto. rewrite F4. exact K1.
    + injection H as <-. exists [], (tl l), (n_int s), [], None, (tl l). apply no_digit_hd in D. apply no_frac_hd in Ee.
      repeat split; auto. left. repeat split; auto.
Qed.

Lemma digits_cpl : forall n l s ds l1 i fr x l', at_n s l -> (length l < n)%nat -> tl l = ds ++ l1 -> Forall (digit ck) ds ->
  run_digits T (n_int s) ds = Some i -> ok t l' ->
  (fr = [] /\ x = None /\ l' = l1 /\ no_digit ck l1 /\ no_frac l1) \/ tail_lit l1 fr x l' ->
  exists r, n_digits T cf n s = Ret r /\ rest_of s r i l1 fr x l'.
Proof.
  induction n as [|n IH]; intros l s ds l1 i fr x l' A L E F R O Q; [lia|]. cbn [n_digits].
  assert (O1 : ok t l1) by (destruct Q as [(_ & _ & -> & _)|Q]; [assumption|destruct Q; apply ok_cons]).
  assert (Ot : ok t (tl l)) by (rewrite E; apply ok_app; assumption).
  destruct (next_cpl s l A Ot) as (s1 & E1 & A1 & K1 & K2 & K3). rewrite E1. cbn [bind]. rewrite (cur_hd _ _ A1).
  assert (L1 : (length (tl l) < S n)%nat) by (destruct l; cbn in *; lia).
  destruct ds as [|d ds].
  - cbn [app] in E. rewrite E in *. clear E. cbn [run_digits] in R. injection R as <-. destruct Q as [(-> & -> & -> & Nd & Nf)|Q].
    + destruct (no_frac_hd l1) as [_ Ef]. rewrite (Ef Nf). destruct (no_digit_hd cf l1) as [_ Ed]. rewrite (Ed Nd).
      eexists. split; [reflexivity|]. left. repeat split; auto.
    + assert (Ee : (hd0 l1 =? c_dot) || (hd0 l1 =? c_e) || (hd0 l1 =? c_E) = true).
      { destruct Q as [|e l2 y l3 Ie Y]; [reflexivity|]. cbn [hd0 hd]. destruct Ie; lia. }
      rewrite Ee. destruct (float_cpl s1 l1 (S n) fr x l' A1 L1 Q O) as (r & Er & F1 & F2 & F3 & F4). exists r. split; [assumption|].
      right. split; [assumption|]. rewrite <- K2. repeat split; auto. congruence.
  - rewrite E in *. cbn [app hd0 hd]. inversion F as [|? ? Fd Fds]; subst.
    assert (Ee : (d =? c_dot) || (d =? c_e) || (d =? c_E) = false).
    { destruct (_ || _) eqn:Ee; [|reflexivity]. exfalso. destruct Fd as [Fd Fd']. rewrite low_small in Fd, Fd'; lia. }
    rewrite Ee. apply is_digit_iff in Fd. rewrite Fd. cbn [run_digits] in R.
    destruct (i_step T (n_int s) (dval d)) as [j| | | |] eqn:Ei; try discriminate. rewrite K2, dval_eq, Ei. cbn [bind].
    destruct (IH (d :: ds ++ l1) (with_int T s1 j) ds l1 i fr x l' A1 ltac:(destruct l; cbn in *; [discriminate|subst; cbn in *; lia]) eq_refl Fds R O Q)
      as (r & Er & Z). exists r. split; [assumption|].
    destruct Z as [(-> & -> & -> & Nd & Nf & I1 & I2 & I3 & I4)|(X & F1 & F2 & F3 & F4)].
    + left. repeat split; auto. rewrite I4. exact K1.
    + right. split; [assumption|]. repeat split; auto. rewrite F4. exact K1.
Qed.

(** ** Numbers *)
(** token and numbers after a literal *)
Definition reads_lit (x : lit) (r : token * nst T) : Prop := exists i, whole T x = Some i /\ n_neg (snd r) = l_neg x /\
  ((l_int x /\ fst r = Tint /\ n_int (snd r) = i) \/
   (~ l_int x /\ fst r = Tfloat /\ n_flt (snd r) = run_exp T (run_frac T (f_of T i) (f_tenth T) (l_frac x)) (l_exp x))).

(** after the sign *)
Definition n_unsigned (fuel : nat) (s : nst T) : outcome (token * nst T) :=
  if n_cur T s =? c_0 then
    let* s := n_next T cf s in
    if n_cur T s =? c_dot then n_float T cf fuel s
    else if (n_cur T s =? c_e) || (n_cur T s =? c_E) then fail "invalid exponent"
    else Ret (Tint, s)
  else n_integer T cf fuel s.

Lemma unsigned_snd : forall s l fuel r, at_n s l -> (length l < fuel)%nat -> n_int s = i_of T 0 -> n_unsigned fuel s = Ret r ->
  exists x l', unsigned_lit ck (ndebug cf) (n_neg s) l x l' /\ at_n (snd r) l' /\ reads_lit x r.
Proof.
  intros s l fuel r A L I0 H. unfold n_unsigned in H. rewrite (cur_hd _ _ A) in H. destruct (N.eqb_spec (hd0 l) c_0) as [Ez|Nz].
  - destruct l as [|c l]; [discriminate|]. cbn [hd0 hd] in Ez. subst c.
    destruct (n_next T cf s) as [s1| | | |] eqn:E1; try discriminate. cbn [bind] in H.
    destruct (next_snd _ _ _ A E1) as [A1 (K1 & K2 & K3)]. rewrite (cur_hd _ _ A1) in H. cbn [tl] in *.
    assert (W : forall fr x, whole T (mkLit (n_neg s) 48 [] fr x) = Some (i_of T 0)) by reflexivity.
    destruct (N.eqb_spec (hd0 l) c_dot) as [Ed|Nd].
    + destruct (float_snd s1 l fuel r A1 ltac:(cbn in *; lia) ltac:(auto) H) as (fr & x & l' & X & F1 & F2 & F3 & F4).
      assert (El : exists l2, l = 46 :: l2 /\ fraction_lit ck l2 (fr, x) l').
      { inversion X as [? ? ? ? X'|? ? ? ? Ie]; subst; [eauto|]. cbn [hd0 hd] in Ed. subst. destruct Ie; discriminate. }
      destruct El as (l2 & -> & X').
      exists (mkLit (n_neg s) 48 [] fr x), l'. split; [constructor; assumption|]. split; [assumption|]. exists (i_of T 0).
      split; [reflexivity|]. split; [cbn; congruence|]. right. split; [exact (tail_not_int _ _ _ _ X)|]. split; [assumption|].
      cbn [l_frac l_exp]. rewrite F3, K2, I0. reflexivity.
    + destruct ((hd0 l =? c_e) || (hd0 l =? c_E)) eqn:Ee; [discriminate|]. injection H as <-.
      exists (mkLit (n_neg s) 48 [] [] None), l. split; [constructor; apply no_frac_hd; lia|]. split; [assumption|]. exists (i_of T 0).
      split; [reflexivity|]. split; [cbn; congruence|]. left. split; [split; reflexivity|]. cbn [fst snd]. split; [reflexivity|congruence].
  - unfold n_integer in H. rewrite (cur_hd _ _ A) in H. destruct (negb (ndebug cf) && negb (is_digit cf (hd0 l))) eqn:Ea; [discriminate|].
    assert (Dc : ndebug cf = true \/ digit ck (hd0 l)).
    { destruct (ndebug cf); [left; reflexivity|right]. apply is_digit_iff. destruct (is_digit cf (hd0 l)); [reflexivity|discriminate]. }
    match type of H with n_digits _ _ _ ?s2 = _ => assert (A2 : at_n s2 l) by exact A end.
    destruct (digits_snd _ _ _ _ A2 L H) as (ds & l1 & i & fr & x & l' & E & F & R & Q). cbn [with_int n_int] in R. rewrite dval_eq in R.
    assert (Hn : next l (hd0 l) (ds ++ l1)) by (apply next_hd; auto).
    exists (mkLit (n_neg s) (hd0 l) ds fr x), l'.
    destruct Q as [(-> & -> & -> & Nd & Nf & I1 & I2 & I3 & I4)|(X & F1 & F2 & F3 & F4)].
    + split; [constructor; assumption|]. split; [assumption|]. exists i. split; [assumption|]. split; [exact I4|]. left. repeat split; assumption.
    + split; [destruct X; [eapply ul_frac|eapply ul_exp]; eassumption|]. split; [assumption|]. exists i. split; [assumption|]. split; [exact F4|].
      right. split; [exact (tail_not_int _ _ _ _ X)|]. split; [assumption|]. exact F3.
Qed.

Lemma unsigned_cpl : forall s l fuel x l' i, at_n s l -> (length l < fuel)%nat -> n_int s = i_of T 0 ->
  unsigned_lit ck (ndebug cf) (n_neg s) l x l' -> whole T x = Some i -> ok t l' ->
  exists r, n_unsigned fuel s = Ret r /\ at_n (snd r) l' /\ reads_lit x r.
Proof.
  intros s l fuel x l' i A L I0 H W O. unfold n_unsigned. rewrite (cur_hd _ _ A).
  assert (Int : forall c ds l1 fr y, next l c (ds ++ l1) -> c <> 48 -> ndebug cf = true \/ digit ck c -> Forall (digit ck) ds ->
    x = mkLit (n_neg s) c ds fr y -> (fr = [] /\ y = None /\ l' = l1 /\ no_digit ck l1 /\ no_frac l1) \/ tail_lit l1 fr y l' ->
    exists r, (if hd0 l =? c_0 then
      let* s := n_next T cf s in
      if n_cur T s =? c_dot then n_float T cf fuel s
      else if (n_cur T s =? c_e) || (n_cur T s =? c_E) then fail "invalid exponent" else Ret (Tint, s)
      else n_integer T cf fuel s) = Ret r /\ at_n (snd r) l' /\ reads_lit x r).
  { intros c ds l1 fr y Hn Nz Dc F -> Q. apply next_hd in Hn. destruct Hn as [-> Hn]. destruct (N.eqb_spec (hd0 l) c_0); [contradiction|].
    unfold n_integer. rewrite (cur_hd _ _ A). assert (Ea : negb (ndebug cf) && negb (is_digit cf (hd0 l)) = false).
    { destruct Dc as [->|D]; [reflexivity|]. apply is_digit_iff in D. rewrite D. destruct (ndebug cf); reflexivity. }
    rewrite Ea. unfold whole in W. cbn [l_first l_more] in W.
    destruct (digits_cpl fuel l (with_int T s (i_of T (u32_sub (hd0 l) 48))) ds l1 i fr y l' A L (eq_sym Hn) F ltac:(cbn [with_int n_int]; rewrite dval_eq; assumption) O Q)
      as (r & Er & Z). exists r. split; [assumption|].
    destruct Z as [(-> & -> & -> & Nd & Nf & I1 & I2 & I3 & I4)|(X & F1 & F2 & F3 & F4)].
    - split; [assumption|]. exists i. split; [assumption|]. split; [exact I4|]. left. repeat split; assumption.
    - split; [assumption|]. exists i. split; [assumption|]. split; [exact F4|]. right. split; [exact (tail_not_int _ _ _ _ X)|]. split; assumption. }
  destruct H as [l Nf|l fr x l' X|l c ds l' Hn Nz Dc F Nd Nf|l c ds l1 fr x l' Hn Nz Dc F X|l c ds e l1 x l' Hn Nz Dc Ie F X].
  - clear Int. cbn [hd0 hd]. change (48 =? c_0) with true. cbv iota.
    destruct (next_cpl s _ A O) as (s1 & E1 & A1 & K1 & K2 & K3). rewrite E1. cbn [bind]. rewrite (cur_hd _ _ A1). cbn [tl] in *.
    apply no_frac_hd in Nf. apply Bool.orb_false_iff in Nf. destruct Nf as [Nf N3]. apply Bool.orb_false_iff in Nf. destruct Nf as [N1 N2].
    rewrite N1, N2, N3. cbn [orb]. eexists. split; [reflexivity|]. split; [assumption|]. exists (i_of T 0). split; [reflexivity|].
    split; [exact K1|]. left. split; [split; reflexivity|]. cbn [fst snd]. split; [reflexivity|congruence].
  - clear Int. cbn [hd0 hd]. change (48 =? c_0) with true. cbv iota.
    destruct (next_cpl s _ A (ok_cons _ _ _)) as (s1 & E1 & A1 & K1 & K2 & K3). rewrite E1. cbn [bind]. rewrite (cur_hd _ _ A1). cbn [tl hd0 hd] in *.
    change (46 =? c_dot) with true. cbv iota. assert (Ta : tail_lit (46 :: l) fr x l') by (constructor; assumption).
    destruct (float_cpl s1 (46 :: l) fuel fr x l' A1 ltac:(cbn in *; lia) Ta O) as (r & Er & F1 & F2 & F3 & F4).
    exists r. split; [assumption|]. split; [assumption|]. exists (i_of T 0). split; [reflexivity|]. split; [cbn; congruence|].
    right. split; [exact (tail_not_int _ _ _ _ Ta)|]. split; [assumption|]. cbn [l_frac l_exp]. rewrite F3, K2, I0. reflexivity.
  - eapply Int; try eassumption; [reflexivity|]. left. auto.
  - eapply Int; try eassumption; [reflexivity|]. right. constructor. assumption.
  - eapply Int; try eassumption; [reflexivity|]. right. constructor; assumption.
Qed.

Lemma number_unsigned : forall fuel s, n_number T cf fuel s =
  (let s := with_int T (with_neg T s false) (i_of T 0) in
   let* s := if (n_cur T s =? c_minus) || (n_cur T s =? c_plus) then n_next T cf (with_neg T s (n_cur T s =? c_minus)) else Ret s in
   n_unsigned fuel s).
Proof. reflexivity. Qed.

Lemma number_snd : forall s c l fuel r, at_n s (c :: l) -> num_start c = true -> (length (c :: l) < fuel)%nat -> n_number T cf fuel s = Ret r ->
  exists x l', number_lit ck (ndebug cf) (c :: l) x l' /\ at_n (snd r) l' /\ reads_lit x r.
Proof.
  intros s c l fuel r A C L H. rewrite number_unsigned in H. set (s0 := with_int T (with_neg T s false) (i_of T 0)) in *.
  assert (A0 : at_n s0 (c :: l)) by exact A. cbv zeta in H. rewrite (cur_hd _ _ A0) in H. cbn [hd0 hd] in H.
  destruct ((c =? c_minus) || (c =? c_plus)) eqn:Es.
  - destruct (n_next T cf (with_neg T s0 (c =? c_minus))) as [s1| | | |] eqn:E1; try discriminate. cbn [bind] in H.
    assert (A0' : at_n (with_neg T s0 (c =? c_minus)) (c :: l)) by exact A.
    destruct (next_snd _ _ _ A0' E1) as [A1 (K1 & K2 & K3)]. cbn [tl] in *.
    destruct (unsigned_snd s1 l fuel r A1 ltac:(cbn in *; lia) K2 H) as (x & l' & U & A2 & R). exists x, l'. split; [|split; assumption].
    rewrite K1 in U. cbn [with_neg n_neg] in U. destruct (N.eqb_spec c c_minus) as [->|Nm]; [constructor; assumption|].
    assert (c = 43) as -> by lia. constructor; assumption.
  - cbn [bind] in H. destruct (unsigned_snd s0 (c :: l) fuel r A0 L eq_refl H) as (x & l' & U & A2 & R). exists x, l'. split; [|split; assumption].
    unfold num_start in C. constructor; [lia|lia|exact U].
Qed.

Lemma number_cpl : forall s l fuel x l' i, at_n s l -> (length l < fuel)%nat -> number_lit ck (ndebug cf) l x l' -> whole T x = Some i -> ok t l' ->
  exists r, n_number T cf fuel s = Ret r /\ at_n (snd r) l' /\ reads_lit x r.
Proof.
  intros s l fuel x l' i A L H W O. rewrite number_unsigned. set (s0 := with_int T (with_neg T s false) (i_of T 0)) in *. cbv zeta.
  assert (A0 : at_n s0 l) by exact A. rewrite (cur_hd _ _ A0).
  assert (Ok1 : forall b l1, unsigned_lit ck (ndebug cf) b l1 x l' -> ok t l1).
  { intros b l1 U. destruct U as [| |l1 c ds l' Hn|l1 c ds l2 fr y l' Hn|l1 c ds e l2 y l' Hn]; try apply ok_cons;
      apply next_hd in Hn; destruct Hn as [_ Hn]; symmetry in Hn; eapply ok_split; try exact Hn; try assumption; apply ok_cons. }
  destruct H as [c l x l' Lo Hi U|l x l' U|l x l' U].
  - cbn [hd0 hd]. assert (Es : (c =? c_minus) || (c =? c_plus) = false) by lia. rewrite Es. cbn [bind].
    eapply unsigned_cpl; try eassumption; reflexivity.
  - cbn [hd0 hd]. change ((43 =? c_minus) || (43 =? c_plus)) with true. cbv iota. change (43 =? c_minus) with false.
    assert (A0' : at_n (with_neg T s0 false) (43 :: l)) by exact A.
    destruct (next_cpl _ _ A0' (Ok1 _ _ U)) as (s1 & E1 & A1 & K1 & K2 & K3). rewrite E1. cbn [bind tl] in *.
    eapply unsigned_cpl; try eassumption; [cbn in *; lia|rewrite K1; exact U].
  - cbn [hd0 hd]. change ((45 =? c_minus) || (45 =? c_plus)) with true. cbv iota. change (45 =? c_minus) with true.
    assert (A0' : at_n (with_neg T s0 true) (45 :: l)) by exact A.
    destruct (next_cpl _ _ A0' (Ok1 _ _ U)) as (s1 & E1 & A1 & K1 & K2 & K3). rewrite E1. cbn [bind tl] in *.
    eapply unsigned_cpl; try eassumption; [cbn in *; lia|rewrite K1; exact U].
Qed.
End Lex.
