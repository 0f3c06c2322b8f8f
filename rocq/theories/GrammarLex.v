(** The list machine's scanners accept exactly the phrases of SpecGrammar.v:
    blanks and numbers. *)
From Coq Require Import Lia ZifyBool ZifyNat ZifyN Floats.SpecFloat.
From Verif Require Import Base Stream Encoding Value Token Parser Feeds ListMachine Simulation SimParse
  SpecUnicode SpecGrammar.
Ltac Zify.zify_post_hook ::= Z.div_mod_to_equations.

(** reading up to [l] met no decoding error *)
Definition ok (t : term) (l : list N) : Prop := at_bad t l = false.

Lemma ok_mono : forall t l l', ok t l' -> (length l' <= length l)%nat -> ok t l.
Proof. unfold ok. intros t l l' H L. destruct l, l', t; cbn in *; try reflexivity; try discriminate; lia. Qed.

Lemma ok_cons : forall t c l, ok t (c :: l).
Proof. reflexivity. Qed.
#[global] Hint Resolve ok_cons : core.

Lemma ok_guard : forall A t l (k : outcome A), ok t l -> guard t l k = k.
Proof. intros A t l k H. destruct l, t; cbn in *; try reflexivity; discriminate. Qed.

Lemma guard_ok : forall A t l (k : outcome A) r, guard t l k = Ret r -> k = Ret r /\ ok t l.
Proof. exact guard_ret. Qed.

(** ** Blanks *)

Lemma is_space_iff : forall c, is_space c = true <-> space c.
Proof. intro c. unfold is_space, space. lia. Qed.
Lemma is_nl_iff : forall c, is_nl c = true <-> newline c.
Proof. intro c. unfold is_nl, newline. lia. Qed.
Lemma newline_space : forall c, newline c -> space c.
Proof. unfold newline, space. lia. Qed.

Lemma blank_nl_inv : forall n l r, newline n -> blank (n :: l) r -> blank l r.
Proof.
  intros n l r Hn H. pose proof (newline_space _ Hn) as Hs.
  inversion H as [l0 H0|c l0 l' S B|b n0 l0 l' F N B|b F|b l0 l' C B]; subst.
  - destruct H0 as [H0 _]. contradiction.
  - assumption.
  - unfold newline in Hn. lia.
  - unfold newline in Hn. lia.
  - unfold newline in Hn. lia.
Qed.

Lemma skip_sound : forall n t l, (length l <= n)%nat ->
  (forall r, a_skip MWs t l = Ret r -> ok t l -> blank l r /\ ok t r) /\
  (forall r c, a_skip MLine t (c :: l) = Ret r ->
     ok t r /\
     ((exists b x l2, l = b ++ x :: l2 /\ Forall (fun c => ~ newline c) b /\ newline x /\ blank l2 r) \/
      (Forall (fun c => ~ newline c) l /\ r = []))) /\
  (forall r c, a_skip MBlock t (c :: l) = Ret r ->
     ok t r /\ exists b l2, l = b ++ 42 :: 47 :: l2 /\ comment_body b /\ blank l2 r).
Proof.
  intros n t. induction n as [n IH] using lt_wf_ind. intros l Hn.
  assert (IHs : forall l', (length l' < length l)%nat -> _) by (intros l' Hl; exact (IH (length l') ltac:(lia) l' (le_n _))).
  clear IH.
  assert (Ws : forall r, a_skip MWs t l = Ret r -> ok t l -> blank l r /\ ok t r).
  { intros r H O. destruct l as [|c l1]; cbn [a_skip] in H.
    { inversion H; subst. split; [constructor; exact I|assumption]. }
    destruct (is_space c) eqn:Es.
    { apply guard_ok in H. destruct H as [H O1]. destruct (IHs l1 ltac:(cbn; lia)) as (IHw & _ & _).
      destruct (IHw r H O1) as [B Or]. split; [|assumption]. apply bl_space; [apply is_space_iff; assumption|assumption]. }
    destruct (c =? 47) eqn:Ec.
    - apply N.eqb_eq in Ec. subst c. apply guard_ok in H. destruct H as [H O1].
      destruct l1 as [|c1 l2]; [discriminate|].
      destruct (IHs l2 ltac:(cbn; lia)) as (_ & IHl & IHb).
      destruct (c1 =? 47) eqn:E1.
      { apply N.eqb_eq in E1. subst c1. apply IHl in H.
        destruct H as (Or & [(b & x & l3 & -> & F & X & B)|[F ->]]); (split; [|assumption]).
        - apply bl_line; assumption.
        - apply bl_line_end; assumption. }
      destruct (c1 =? 42) eqn:E2; [|discriminate].
      apply N.eqb_eq in E2. subst c1. apply IHb in H.
      destruct H as (Or & b & l3 & -> & C & B). split; [|assumption]. apply bl_block; assumption.
    - inversion H; subst. split; [|assumption]. constructor. split; [|lia].
      intro Hs. apply is_space_iff in Hs. congruence. }
  split; [exact Ws|]. split.
  - intros r c H. cbn [a_skip] in H. apply guard_ok in H. destruct H as [H O].
    destruct l as [|c1 l2].
    { inversion H; subst. split; [assumption|]. right. split; [constructor|reflexivity]. }
    destruct (is_nl c1) eqn:En.
    + apply is_nl_iff in En. destruct (Ws r H (ok_cons _ _ _)) as [B Or]. split; [assumption|].
      left. exists [], c1, l2. repeat split; auto. eapply blank_nl_inv; eassumption.
    + destruct (IHs l2 ltac:(cbn; lia)) as (_ & IHl & _). apply IHl in H.
      assert (Nn : ~ newline c1) by (intro X; apply is_nl_iff in X; congruence).
      destruct H as (Or & [(b & x & l3 & -> & F & X & B)|[F ->]]); (split; [assumption|]).
      * left. exists (c1 :: b), x, l3. repeat split; auto.
      * right. split; [constructor; assumption|reflexivity].
  - intros r c H. cbn [a_skip] in H. apply guard_ok in H. destruct H as [H O].
    destruct l as [|c1 l2]; [discriminate|].
    destruct (c1 =? 42) eqn:Es.
    + apply N.eqb_eq in Es. subst c1. apply guard_ok in H. destruct H as [H O2].
      destruct l2 as [|c2 l3]; [discriminate|].
      destruct (c2 =? 47) eqn:E2.
      * apply N.eqb_eq in E2. subst c2. apply guard_ok in H. destruct H as [H O3].
        destruct (IHs l3 ltac:(cbn; lia)) as (IHw & _ & _).
        destruct (IHw r H O3) as [B Or]. split; [assumption|].
        exists [], l3. repeat split; auto. constructor.
      * destruct (IHs l3 ltac:(cbn; lia)) as (_ & _ & IHb). apply IHb in H.
        destruct H as (Or & b & l4 & -> & C & B). split; [assumption|].
        exists (42 :: c2 :: b), l4. repeat split; auto. apply cb_star; [lia|assumption].
    + destruct (IHs l2 ltac:(cbn; lia)) as (_ & _ & IHb). apply IHb in H.
      destruct H as (Or & b & l4 & -> & C & B). split; [assumption|].
      exists (c1 :: b), l4. repeat split; auto. apply cb_char; [lia|assumption].
Qed.

Lemma blank_len : forall l r, blank l r -> (length r <= length l)%nat.
Proof.
  intros l r H. induction H; cbn [length] in *; try rewrite app_length; cbn [length]; lia.
Qed.

Lemma skip_line_eq : forall t x l1, a_skip MLine t (x :: l1) =
  guard t l1 (match l1 with
              | [] => Ret []
              | c1 :: _ => if is_nl c1 then a_skip MWs t l1 else a_skip MLine t l1
              end).
Proof. reflexivity. Qed.
Lemma skip_block_eq : forall t x l1, a_skip MBlock t (x :: l1) =
  guard t l1
    (match l1 with
     | [] => fail "unexpected eof while reading comment"
     | c1 :: l2 =>
         if c1 =? c_star then
           guard t l2
             (match l2 with
              | [] => fail "unexpected eof while reading comment"
              | c2 :: l3 =>
                  if c2 =? c_slash then guard t l3 (a_skip MWs t l3)
                  else a_skip MBlock t l2
              end)
         else a_skip MBlock t l1
     end).
Proof. reflexivity. Qed.
Lemma skip_ws_eq : forall t c l1, a_skip MWs t (c :: l1) =
  if is_space c then guard t l1 (a_skip MWs t l1)
  else if c =? c_slash then
    guard t l1
      (match l1 with
       | [] => fail "unexpected character '/'"
       | c1 :: _ =>
           if c1 =? c_slash then a_skip MLine t l1
           else if c1 =? c_star then a_skip MBlock t l1
           else fail "unexpected character '/'"
       end)
  else Ret (c :: l1).
Proof. reflexivity. Qed.

Lemma line_complete : forall t b x n l r, Forall (fun c => ~ newline c) b -> newline n ->
  a_skip MWs t (n :: l) = r -> a_skip MLine t (x :: b ++ n :: l) = r.
Proof.
  intros t b. induction b as [|c b IH]; intros x n l r F Hn H; cbn [app]; rewrite skip_line_eq; cbn [guard].
  - destruct (is_nl n) eqn:E; [exact H|]. apply is_nl_iff in Hn. congruence.
  - inversion F; subst. destruct (is_nl c) eqn:E; [apply is_nl_iff in E; contradiction|].
    apply IH; auto.
Qed.

Lemma line_end_complete : forall b x, Forall (fun c => ~ newline c) b ->
  a_skip MLine TEof (x :: b) = Ret [].
Proof.
  intros b. induction b as [|c b IH]; intros x F; rewrite skip_line_eq; cbn [guard]; [reflexivity|].
  inversion F; subst. destruct (is_nl c) eqn:E; [apply is_nl_iff in E; contradiction|].
  apply IH; auto.
Qed.

Lemma block_complete : forall t b, comment_body b -> forall x l r, ok t l -> a_skip MWs t l = r ->
  a_skip MBlock t (x :: b ++ 42 :: 47 :: l) = r.
Proof.
  intros t b H. induction H as [|c b Hc H IH|c b Hc H IH]; intros x l r O R; cbn [app]; rewrite skip_block_eq; cbn [guard].
  - change (42 =? 42) with true. change (47 =? 47) with true. cbv iota. rewrite ok_guard by assumption. exact R.
  - replace (c =? 42) with false by lia. apply IH; assumption.
  - change (42 =? 42) with true. cbv iota. replace (c =? 47) with false by lia. apply IH; assumption.
Qed.

Lemma skip_complete : forall t l r, blank l r -> ok t r -> a_skip MWs t l = Ret r.
Proof.
  intros t l r H. induction H as [l H|c l l' S B IH|b n l l' F N B IH|b F|b l l' C B IH]; intro O.
  - destruct l as [|c l]; [reflexivity|]. destruct H as [H1 H2]. rewrite skip_ws_eq.
    destruct (is_space c) eqn:E; [apply is_space_iff in E; contradiction|].
    replace (c =? 47) with false by lia. reflexivity.
  - rewrite skip_ws_eq. apply is_space_iff in S. rewrite S.
    rewrite ok_guard by (eapply ok_mono; [exact O|apply blank_len; assumption]). apply IH. assumption.
  - rewrite skip_ws_eq; cbn [guard]. change (is_space 47) with false. change (47 =? 47) with true. cbv iota.
    apply line_complete; [assumption|assumption|].
    rewrite skip_ws_eq. replace (is_space n) with true by (symmetry; apply is_space_iff, newline_space; assumption).
    rewrite ok_guard by (eapply ok_mono; [exact O|apply blank_len; assumption]). apply IH. assumption.
  - destruct t; [|discriminate O]. rewrite skip_ws_eq; cbn [guard].
    change (is_space 47) with false. change (47 =? 47) with true. cbv iota.
    apply line_end_complete. assumption.
  - rewrite skip_ws_eq; cbn [guard]. change (is_space 47) with false. change (47 =? 47) with true.
    change (42 =? 47) with false. change (42 =? 42) with true. cbv iota.
    apply block_complete; [assumption| |apply IH; assumption].
    eapply ok_mono; [exact O|apply blank_len; assumption].
Qed.

Lemma skip_iff : forall t l r, ok t l -> (a_skip MWs t l = Ret r <-> blank l r /\ ok t r).
Proof.
  intros t l r O. split.
  - intro H. destruct (skip_sound (length l) t l (le_n _)) as (W & _). apply W; assumption.
  - intros [B Or]. apply skip_complete; assumption.
Qed.

(** ** Arithmetic of digits *)

Lemma narrow_low : forall ck c, narrow ck c = low ck c.
Proof. destruct ck; reflexivity. Qed.

Lemma is_digit_iff : forall cf c, is_digit cf c = true <-> digit (src_ck cf) c.
Proof. intros cf c. unfold is_digit, digit. rewrite narrow_low. lia. Qed.
Lemma is_digit_false : forall cf c, is_digit cf c = false <-> ~ digit (src_ck cf) c.
Proof. intros cf c. rewrite <- is_digit_iff. destruct (is_digit cf c); split; intros; congruence. Qed.

Lemma digit_not0 : forall ck, ~ digit ck 0.
Proof. intros [] [H _]; cbv in H; congruence. Qed.

Lemma low_small : forall ck c, c < 256 -> low ck c = c.
Proof. intros [] c H; unfold low; lia. Qed.

Lemma no_digit_hd : forall cf l, is_digit cf (hd0 l) = false <-> no_digit (src_ck cf) l.
Proof.
  intros cf l. destruct l as [|c l]; cbn [hd0 hd no_digit].
  - split; [trivial|]. intros _. apply is_digit_false. apply digit_not0.
  - apply is_digit_false.
Qed.

Lemma dval_eq : forall c, u32_sub c 48 = dval c.
Proof. reflexivity. Qed.

Lemma tenth_eq : dtenth = f64_tenth.
Proof. vm_compute. reflexivity. Qed.

Lemma dpow_eq : forall b e, power_of b e = dpow b e.
Proof.
  intros b e. destruct e as [|p]; [reflexivity|]. cbn [power_of dpow].
  change (f64_of_Z 1) with (d_of_Z 1). generalize (d_of_Z 1). revert b.
  induction p as [p IH|p IH|]; intros b acc; cbn [pow_loop pow_acc].
  - apply IH.
  - apply IH.
  - reflexivity.
Qed.

Lemma next_hd : forall l c r, next l c r <-> c = hd0 l /\ r = tl l.
Proof.
  intros l c r. split.
  - intro H. inversion H; subst; auto.
  - intros [-> ->]. destruct l; constructor.
Qed.

(** ** Exponents *)

Lemma guard_iff : forall A t l (k : outcome A) r, guard t l k = Ret r <-> k = Ret r /\ ok t l.
Proof.
  intros A t l k r. split; [apply guard_ok|]. intros [H O]. rewrite ok_guard by assumption. assumption.
Qed.

Lemma ok_app : forall t a b, ok t b -> ok t (a ++ b).
Proof. intros t a b H. eapply ok_mono; [exact H|]. rewrite app_length. lia. Qed.

Lemma is_digit0 : forall cf, is_digit cf 0 = false.
Proof. intro cf. apply is_digit_false, digit_not0. Qed.

Lemma expd_iff : forall cf t l x ex n l',
  (a_expd cf t ex (x :: l) = Ret (n, l') <->
   exists ds, l = ds ++ l' /\ Forall (digit (src_ck cf)) ds /\ no_digit (src_ck cf) l' /\
              n = dec32 ex ds /\ ok t l').
Proof.
  intros cf t l. induction l as [|c l IH]; intros x ex n l';
    (change (a_expd cf t ex (x :: ?l)) with
       (guard t l (if is_digit cf (hd0 l)
          then a_expd cf t (u32 (u32 (ex * 10) + u32_sub (hd0 l) 48)) l
          else Ret (ex, l)))); rewrite guard_iff; cbn [hd0 hd].
  - rewrite is_digit0. split.
    + intros [H O]. inversion H; subst. exists []. repeat split; auto.
    + intros (ds & E & F & Nd & -> & Ok). symmetry in E. apply app_eq_nil in E. destruct E as [-> ->].
      split; [reflexivity|assumption].
  - assert (E0 : u32 (u32 (ex * 10) + u32_sub c 48) = (ex * 10 + dval c) mod 4294967296).
    { unfold u32. rewrite N.add_mod_idemp_l by discriminate. reflexivity. }
    destruct (is_digit cf c) eqn:D.
    + apply is_digit_iff in D. rewrite E0. rewrite IH. split.
      * intros [(ds & E & F & Nd & -> & Ok) _]. exists (c :: ds). cbn [app dec32]. rewrite <- E. repeat split; auto.
      * intros (ds & E & F & Nd & -> & Ok). split; [|apply ok_cons]. destruct ds as [|d ds].
        { cbn in E. subst l'. cbn in Nd. contradiction. }
        inversion E; subst. inversion F; subst. exists ds. repeat split; auto.
    + split.
      * intros [H _]. inversion H; subst. exists []. apply is_digit_false in D. repeat split; auto.
      * intros (ds & E & F & Nd & -> & Ok). split; [|apply ok_cons]. destruct ds as [|d ds].
        { cbn in E. subst l'. reflexivity. }
        inversion E; subst. inversion F; subst. apply is_digit_false in D. contradiction.
Qed.

Lemma expd_hd_iff : forall cf t l ex n l', ok t l ->
  (a_expd cf t ex l = Ret (n, l') <->
   exists ds, tl l = ds ++ l' /\ Forall (digit (src_ck cf)) ds /\ no_digit (src_ck cf) l' /\
              n = dec32 ex ds /\ ok t l').
Proof.
  intros cf t l ex n l' O. destruct l as [|x l]; [|apply expd_iff].
  cbn [a_expd tl]. split.
  - intro H. inversion H; subst. exists []. repeat split; auto.
  - intros (ds & E & F & Nd & -> & Ok). symmetry in E. apply app_eq_nil in E. destruct E as [-> ->]. reflexivity.
Qed.

Lemma bind_ret_iff : forall A B (m : outcome A) (k : A -> outcome B) b,
  bind m k = Ret b <-> exists a, m = Ret a /\ k a = Ret b.
Proof.
  intros A B m k b. split.
  - intro H. destruct m; try discriminate. eauto.
  - intros (a & -> & H). exact H.
Qed.

Lemma ok_tl : forall t l, ok t (tl l) -> ok t l.
Proof. intros t l H. eapply ok_mono; [exact H|apply tl_len]. Qed.

Lemma ok_split : forall t l a b, tl l = a ++ b -> ok t b -> ok t l.
Proof. intros t l a b E H. apply ok_tl. rewrite E. apply ok_app. assumption. Qed.

Lemma exp_tail_iff : forall cf t f base l f' l',
  guard t l (let* r := a_expd cf t (u32_sub (hd0 l) 48) l in
             Ret (fmul f (power_of base (fst r)), snd r)) = Ret (f', l') <->
  exists ds, tl l = ds ++ l' /\ Forall (digit (src_ck cf)) ds /\ no_digit (src_ck cf) l' /\
             f' = dmul f (dpow base (dec32 (dval (hd0 l)) ds)) /\ ok t l'.
Proof.
  intros cf t f base l f' l'. rewrite guard_iff, bind_ret_iff. split.
  - intros [([n y] & Hx & Hy) O]. cbn [fst snd] in Hy. apply expd_hd_iff in Hx; [|assumption].
    destruct Hx as (ds & E & F & Nd & -> & Ok). inversion Hy; subst.
    exists ds. rewrite dpow_eq. repeat split; auto.
  - intros (ds & E & F & Nd & -> & Ok). assert (O : ok t l) by (eapply ok_split; eassumption).
    split; [|assumption]. exists (dec32 (dval (hd0 l)) ds, l'). split.
    + apply expd_hd_iff; [assumption|]. exists ds. repeat split; auto.
    + cbn [fst snd]. rewrite dpow_eq. reflexivity.
Qed.

Lemma exponent_iff : forall cf t f e l f' l',
  a_exponent cf t f (e :: l) = Ret (f', l') <->
  exponent (src_ck cf) f l f' l' /\ ok t l'.
Proof.
  intros cf t f e l f' l'. unfold a_exponent. cbn [tl]. rewrite guard_iff. cbv zeta.
  split.
  - intros [H O]. destruct (negb _) eqn:Eg; [discriminate|]. apply negb_false_iff in Eg.
    apply exp_tail_iff in H. destruct H as (ds & E & F & Nd & -> & Ok). split; [|assumption].
    destruct (hd0 l =? 45) eqn:Em; [|destruct (hd0 l =? 43) eqn:Ep].
    + apply N.eqb_eq in Em. destruct l as [|c0 l]; [discriminate Em|]. cbn [hd0 hd] in Em. subst c0.
      cbn [hd0 hd tl] in *. rewrite orb_true_r in *. rewrite <- tenth_eq.
      apply ex_minus; auto. apply next_hd. split; [reflexivity|symmetry; assumption].
    + apply N.eqb_eq in Ep. destruct l as [|c0 l]; [discriminate Ep|]. cbn [hd0 hd] in Ep. subst c0.
      cbn [hd0 hd tl orb] in *. change (f64_of_Z 10) with (d_of_Z 10).
      apply ex_plus; auto. apply next_hd. split; [reflexivity|symmetry; assumption].
    + change (false || false) with false in *. cbv iota in *. rewrite !orb_false_r in Eg. apply andb_true_iff in Eg.
      destruct Eg as [Hd Hz]. apply negb_true_iff, N.eqb_neq in Hz. apply is_digit_iff in Hd.
      destruct l as [|c0 l]; [exfalso; eapply digit_not0; exact Hd|]. cbn [hd0 hd tl] in *. subst l.
      change (f64_of_Z 10) with (d_of_Z 10). apply ex_plain; auto.
  - intros [H O].
    inversion H as [c ds l1 D N0 F Nd|l1 c ds l2 Nx F Nd|l1 c ds l2 Nx F Nd]; subst; cbn [hd0 hd tl].
    + pose proof D as D'. apply is_digit_iff in D. rewrite D.
      assert (C43 : c <> 43) by (intros ->; destruct D' as [D' _]; rewrite low_small in D' by lia; lia).
      assert (C45 : c <> 45) by (intros ->; destruct D' as [D' _]; rewrite low_small in D' by lia; lia).
      replace (c =? 48) with false by lia. replace (c =? 43) with false by lia.
      replace (c =? 45) with false by lia. cbn [negb andb orb].
      split; [|apply ok_cons]. apply exp_tail_iff. exists ds. repeat split; auto.
    + change (43 =? 43) with true. change (43 =? 45) with false. rewrite orb_true_r. cbn [negb orb].
      split; [|apply ok_cons]. apply exp_tail_iff. apply next_hd in Nx. destruct Nx as [-> E].
      exists ds. repeat split; auto.
    + change (45 =? 43) with false. change (45 =? 45) with true. rewrite orb_true_r. cbn [negb orb].
      split; [|apply ok_cons]. apply exp_tail_iff. apply next_hd in Nx. destruct Nx as [-> E].
      exists ds. rewrite tenth_eq. repeat split; auto.
Qed.

(** ** Fractions *)

Lemma is_e_iff : forall c, (c =? 101) || (c =? 69) = true <-> is_e c.
Proof. intro c. unfold is_e. lia. Qed.

Lemma e_not_digit : forall ck c, is_e c -> ~ digit ck c.
Proof. intros ck c [-> | ->] [H1 H2]; rewrite low_small in * by lia; lia. Qed.

Lemma no_exp_hd : forall l, (hd0 l =? 101) || (hd0 l =? 69) = false <-> no_exp l.
Proof. intros [|c l]; cbn [hd0 hd no_exp]; [split; [trivial|reflexivity]|lia]. Qed.

Lemma frac_iff : forall cf t l x p f f' l',
  a_frac cf t p f (x :: l) = Ret (f', l') <->
  exists ds l1, l = ds ++ l1 /\ Forall (digit (src_ck cf)) ds /\ no_digit (src_ck cf) l1 /\
    exp_opt (src_ck cf) (frac_value f (dmul p dtenth) ds) l1 f' l' /\ ok t l'.
Proof.
  intros cf t l. induction l as [|c l IH]; intros x p f f' l';
    (change (a_frac cf t p f (x :: ?l)) with
       (guard t l (if (hd0 l =? 101) || (hd0 l =? 69) then a_exponent cf t f l
         else if is_digit cf (hd0 l) then
           a_frac cf t (fmul p f64_tenth)
             (fadd f (fmul (f64_of_Z (Z.of_N (u32_sub (hd0 l) 48))) (fmul p f64_tenth))) l
         else Ret (f, l)))); rewrite guard_iff; cbn [hd0 hd].
  - change ((0 =? 101) || (0 =? 69)) with false. cbv iota. rewrite is_digit0. split.
    + intros [H O]. inversion H; subst. exists [], []. repeat split; auto. constructor. exact I.
    + intros (ds & l1 & E & F & Nd & X & Ok). symmetry in E. apply app_eq_nil in E. destruct E as [-> ->].
      inversion X; subst. auto.
  - destruct ((c =? 101) || (c =? 69)) eqn:Ee.
    + apply is_e_iff in Ee. rewrite exponent_iff. split.
      * intros [[H O] _]. exists [], (c :: l). repeat split; auto.
        { cbn. apply e_not_digit. assumption. }
        apply eo_some; assumption.
      * intros (ds & l1 & E & F & Nd & X & Ok). split; [|apply ok_cons]. split; [|assumption].
        destruct ds as [|d ds].
        { cbn in E. subst l1. inversion X as [l0 Ne|e l0 f0 l2 He Hx]; subst.
          - cbn in Ne. unfold is_e in Ee. lia.
          - assumption. }
        inversion E; subst. inversion F; subst. exfalso. eapply e_not_digit; eassumption.
    + destruct (is_digit cf c) eqn:D.
      * rewrite IH. apply is_digit_iff in D. split.
        -- intros [(ds & l1 & E & F & Nd & X & Ok) _]. exists (c :: ds), l1. subst l. repeat split; auto.
        -- intros (ds & l1 & E & F & Nd & X & Ok). split; [|apply ok_cons].
           destruct ds as [|d ds]; [cbn in E; subst l1; cbn in Nd; contradiction|].
           inversion E; subst. inversion F; subst. exists ds, l1. repeat split; auto.
      * apply is_digit_false in D. split.
        -- intros [H _]. inversion H; subst. exists [], (c :: l). repeat split; auto.
           apply eo_none. cbn. lia.
        -- intros (ds & l1 & E & F & Nd & X & Ok). split; [|apply ok_cons].
           destruct ds as [|d ds].
           ++ cbn in E. subst l1. inversion X as [l0 Ne|e l0 f0 l2 He Hx]; subst; [reflexivity|].
              apply is_e_iff in He. congruence.
           ++ inversion E; subst. inversion F; subst. contradiction.
Qed.

Lemma exponent_len : forall ck f l f' l', exponent ck f l f' l' -> (length l' <= length l)%nat.
Proof.
  intros ck f l f' l' H. inversion H as [c ds l1 D N0 F Nd|l1 c ds l2 Nx F Nd|l1 c ds l2 Nx F Nd]; subst.
  - cbn. rewrite app_length. lia.
  - apply next_hd in Nx. destruct Nx as [_ E]. pose proof (tl_len l1). rewrite <- E in H0. rewrite app_length in H0. cbn. lia.
  - apply next_hd in Nx. destruct Nx as [_ E]. pose proof (tl_len l1). rewrite <- E in H0. rewrite app_length in H0. cbn. lia.
Qed.

Lemma float_dot_iff : forall cf t z l f' l',
  a_float cf t z (46 :: l) = Ret (f', l') <-> fraction (src_ck cf) z l f' l' /\ ok t l'.
Proof.
  intros cf t z l f' l'. unfold a_float. cbn [hd0 hd tl]. change ((46 =? 101) || (46 =? 69)) with false.
  cbv iota. rewrite guard_iff. split.
  - intros [H O]. destruct (negb _) eqn:D; [discriminate|]. apply negb_false_iff, is_digit_iff in D.
    destruct l as [|c l]; [exfalso; eapply digit_not0; exact D|]. cbn [hd0 hd] in *.
    apply frac_iff in H. destruct H as (ds & l1 & -> & F & Nd & X & Ok). split; [|assumption].
    apply fr with (ds := ds) (l1 := l1); auto.
  - intros [H O]. inversion H as [d ds l1 f0 l2 F Nd X]; subst. inversion F; subst. cbn [hd0 hd].
    split; [|apply ok_cons]. replace (is_digit cf d) with true by (symmetry; apply is_digit_iff; assumption).
    cbn [negb]. apply frac_iff. exists ds, l1. repeat split; auto.
Qed.

Lemma float_e_iff : forall cf t z e l f' l', is_e e ->
  (a_float cf t z (e :: l) = Ret (f', l') <-> exponent (src_ck cf) (d_of_Z z) l f' l' /\ ok t l').
Proof.
  intros cf t z e l f' l' He. unfold a_float. cbn [hd0 hd].
  apply is_e_iff in He. rewrite He. apply exponent_iff.
Qed.

(** ** Integers *)

Lemma dec_ge : forall ds z, (0 <= z)%Z -> (z <= dec z ds)%Z.
Proof.
  induction ds as [|d ds IH]; intros z Hz; cbn [dec]; [lia|].
  specialize (IH (z * 10 + Z.of_N (dval d))%Z ltac:(lia)). lia.
Qed.

Definition numv (n : num) : value := match n with NI z => VInt z | NF f => VFloat f end.

Lemma numv_inj : forall a b, numv a = numv b -> a = b.
Proof. intros [] [] H; inversion H; reflexivity. Qed.

(** what may follow the digits of an integer part *)
Inductive int_end (ck : ckind) (z : Z) : list N -> value -> list N -> Prop :=
| ie_int l : no_digit ck l -> no_frac l -> int_end ck z l (VInt z) l
| ie_frac l f l' : fraction ck z l f l' -> int_end ck z (46 :: l) (VFloat f) l'
| ie_exp e l f l' : is_e e -> exponent ck (d_of_Z z) l f l' -> int_end ck z (e :: l) (VFloat f) l'.

Lemma no_frac_hd : forall l, (hd0 l =? 46) || (hd0 l =? 101) || (hd0 l =? 69) = false <-> no_frac l.
Proof. intros [|c l]; cbn [hd0 hd no_frac]; [split; [trivial|reflexivity]|lia]. Qed.

Lemma chk64_pos : forall z r, (0 <= z)%Z -> (chk64 z = Ret r <-> r = z /\ (z <= max_int)%Z).
Proof.
  intros z r Hz. unfold chk64, in_int64, int64_min, int64_max, max_int.
  destruct (_ && _)%bool eqn:E.
  - split; [intro H; inversion H; subst; split; [reflexivity|lia]|intros [-> _]; reflexivity].
  - split; [discriminate|intros [_ H]; lia].
Qed.

Lemma float_num_iff : forall cf t z l n l',
  a_float_num cf t z l = Ret (n, l') <-> exists f, n = NF f /\ a_float cf t z l = Ret (f, l').
Proof.
  intros cf t z l n l'. unfold a_float_num. rewrite bind_ret_iff. split.
  - intros ([f r] & H & E). inversion E; subst. eauto.
  - intros (f & -> & H). exists (f, l'). auto.
Qed.

Lemma int_end_float_iff : forall cf t z l n l', (hd0 l =? 46) || (hd0 l =? 101) || (hd0 l =? 69) = true ->
  (a_float_num cf t z l = Ret (n, l') <-> int_end (src_ck cf) z l (numv n) l' /\ ok t l').
Proof.
  intros cf t z l n l' E. rewrite float_num_iff.
  destruct l as [|c l]; [discriminate|]. cbn [hd0 hd] in E.
  destruct (c =? 46) eqn:Ec.
  - apply N.eqb_eq in Ec. subst c. split.
    + intros (f & -> & H). apply float_dot_iff in H. destruct H as [H O]. split; [apply ie_frac; assumption|assumption].
    + intros [H O]. inversion H as [l0 Nd Nf|l0 f l1 X|e l0 f l1 He X]; subst.
      * cbn in Nf. lia.
      * destruct n; [discriminate|]. cbn [numv] in *. exists f0. split; [reflexivity|]. apply float_dot_iff.
        match goal with X : VFloat _ = VFloat _ |- _ => inversion X; subst end. auto.
      * unfold is_e in He. lia.
  - assert (He : is_e c) by (unfold is_e; lia). split.
    + intros (f & -> & H). apply float_e_iff in H; [|assumption]. destruct H as [H O].
      split; [apply ie_exp; assumption|assumption].
    + intros [H O]. inversion H as [l0 Nd Nf|l0 f l1 X|e l0 f l1 He' X]; subst.
      * cbn in Nf. unfold is_e in He. lia.
      * discriminate.
      * destruct n; [discriminate|]. cbn [numv] in *. exists f0. split; [reflexivity|].
        apply float_e_iff; [assumption|].
        match goal with X : VFloat _ = VFloat _ |- _ => inversion X; subst end. auto.
Qed.

Lemma intd_iff : forall cf t l x z n l', (0 <= z <= max_int)%Z ->
  (a_intd cf t z (x :: l) = Ret (n, l') <->
   exists ds l1, l = ds ++ l1 /\ Forall (digit (src_ck cf)) ds /\ (dec z ds <= max_int)%Z /\
     int_end (src_ck cf) (dec z ds) l1 (numv n) l' /\ ok t l').
Proof.
  intros cf t l. induction l as [|c l IH]; intros x z n l' Hz;
    (change (a_intd cf t z (x :: ?l)) with
       (guard t l (if (hd0 l =? 46) || (hd0 l =? 101) || (hd0 l =? 69) then a_float_num cf t z l
         else if is_digit cf (hd0 l) then
           let* z := chk64 (z * 10)%Z in
           let* z := chk64 (z + Z.of_N (u32_sub (hd0 l) 48))%Z in
           a_intd cf t z l
         else Ret (NI z, l)))); rewrite guard_iff.
  - cbn [hd0 hd]. change ((0 =? 46) || (0 =? 101) || (0 =? 69)) with false. cbv iota. rewrite is_digit0. split.
    + intros [H O]. inversion H; subst. exists [], []. cbn [dec numv]. repeat split; auto; [lia|].
      constructor; exact I.
    + intros (ds & l1 & E & F & M & X & Ok). symmetry in E. apply app_eq_nil in E. destruct E as [-> ->].
      inversion X; subst. cbn [dec] in *. split; [|assumption].
      destruct n; inversion H; subst. reflexivity.
  - destruct ((hd0 (c :: l) =? 46) || (hd0 (c :: l) =? 101) || (hd0 (c :: l) =? 69)) eqn:Ee.
    + rewrite int_end_float_iff by assumption. split.
      * intros [[H O] _]. exists [], (c :: l). cbn [dec]. repeat split; auto. lia.
      * intros (ds & l1 & E & F & M & X & Ok). split; [|apply ok_cons]. split; [|assumption].
        destruct ds as [|d ds]; [cbn in E; subst l1; exact X|].
        inversion E; subst. inversion F as [|? ? D]; subst. exfalso. cbn [hd0 hd] in Ee.
        destruct D as [D1 D2]. rewrite low_small in * by lia. lia.
    + pose proof Ee as Nf. apply no_frac_hd in Nf. cbn [hd0 hd].
      destruct (is_digit cf c) eqn:D.
      * apply is_digit_iff in D. split.
        -- intros [H _]. apply bind_ret_iff in H. destruct H as (z1 & H1 & H).
           apply bind_ret_iff in H. destruct H as (z2 & H2 & H).
           apply chk64_pos in H1; [|lia]. destruct H1 as [-> B1].
           apply chk64_pos in H2; [|lia]. destruct H2 as [-> B2].
           apply IH in H; [|rewrite dval_eq in *; lia].
           destruct H as (ds & l1 & -> & F & M & X & Ok). exists (c :: ds), l1. repeat split; auto.
        -- intros (ds & l1 & E & F & M & X & Ok). split; [|apply ok_cons].
           destruct ds as [|d ds].
           { cbn in E. subst l1. inversion X; subst; cbn in *; try contradiction; try lia.
             unfold is_e in *. lia. }
           inversion E; subst. inversion F; subst. cbn [dec] in *.
           pose proof (dec_ge ds (z * 10 + Z.of_N (dval d))%Z ltac:(lia)) as G.
           apply bind_ret_iff. exists (z * 10)%Z. split; [apply chk64_pos; lia|].
           apply bind_ret_iff. exists (z * 10 + Z.of_N (dval d))%Z. split; [apply chk64_pos; rewrite dval_eq; lia|].
           apply IH; [lia|]. exists ds, l1. repeat split; auto.
      * apply is_digit_false in D. split.
        -- intros [H _]. inversion H; subst. exists [], (c :: l). cbn [dec numv]. repeat split; auto; [lia|].
           constructor; assumption.
        -- intros (ds & l1 & E & F & M & X & Ok). split; [|apply ok_cons].
           destruct ds as [|d ds].
           { cbn in E. subst l1. cbn [dec] in X. inversion X; subst; cbn [hd0 hd] in Ee.
             - destruct n; inversion H; subst; reflexivity.
             - discriminate Ee.
             - unfold is_e in *. lia. }
           inversion E; subst. inversion F; subst. contradiction.
Qed.

Lemma dval_max : forall c, (0 <= Z.of_N (dval c) <= max_int)%Z.
Proof. intro c. unfold dval, max_int. lia. Qed.

(** [unsigned], regrouped *)
Lemma unsigned_int_iff : forall ck nd l v l',
  unsigned ck nd l v l' <->
  (exists l1, l = 48 :: l1 /\ ((no_frac l1 /\ v = VInt 0 /\ l' = l1) \/
     exists l2 f, l1 = 46 :: l2 /\ v = VFloat f /\ fraction ck 0 l2 f l')) \/
  (hd0 l <> 48 /\ (nd = true \/ digit ck (hd0 l)) /\
   exists ds l1, tl l = ds ++ l1 /\ Forall (digit ck) ds /\
     (dec (Z.of_N (dval (hd0 l))) ds <= max_int)%Z /\
     int_end ck (dec (Z.of_N (dval (hd0 l))) ds) l1 v l').
Proof.
  intros ck nd l v l'. split.
  - intro H. inversion H as [l1 Nf|l1 f l2 Fr|l1 c ds l2 Nx N0 Dg F Nd Nf M|l1 c ds l2 f l3 Nx N0 Dg F M Fr
                            |l1 c ds e l2 f l3 Nx N0 Dg He F M Ex]; subst.
    + left. eexists; split; [reflexivity|]. left. auto.
    + left. eexists; split; [reflexivity|]. right. eauto 6.
    + right. apply next_hd in Nx. destruct Nx as [-> E]. repeat split; auto.
      exists ds, l'. repeat split; auto. constructor; assumption.
    + right. apply next_hd in Nx. destruct Nx as [-> E]. repeat split; auto.
      exists ds, (46 :: l2). repeat split; auto. constructor; assumption.
    + right. apply next_hd in Nx. destruct Nx as [-> E]. repeat split; auto.
      exists ds, (e :: l2). repeat split; auto. constructor; assumption.
  - intros [(l1 & -> & [(Nf & -> & ->)|(l2 & f & -> & -> & Fr)])|(N0 & Dg & ds & l1 & E & F & M & X)].
    + apply un_zero. assumption.
    + apply un_zero_frac. assumption.
    + inversion X; subst.
      * apply un_int; auto. apply next_hd. auto.
      * apply un_frac with (c := hd0 l) (ds := ds) (l1 := l0); auto. apply next_hd. auto.
      * apply un_exp with (c := hd0 l) (ds := ds) (e := e) (l1 := l0); auto. apply next_hd. auto.
Qed.

Lemma unsigned_iff : forall cf t l n l', ok t l ->
  (a_unsigned cf t l = Ret (n, l') <-> unsigned (src_ck cf) (ndebug cf) l (numv n) l' /\ ok t l').
Proof.
  intros cf t l n l' O. rewrite unsigned_int_iff. unfold a_unsigned.
  destruct (hd0 l =? 48) eqn:E0.
  - apply N.eqb_eq in E0. destruct l as [|c l1]; [discriminate|]. cbn [hd0 hd tl] in *. subst c.
    cbv zeta. rewrite guard_iff. split.
    + intros [H O1].
      destruct (hd0 l1 =? 46) eqn:E1.
      * apply N.eqb_eq in E1. destruct l1 as [|c l2]; [discriminate|]. cbn [hd0 hd] in E1. subst c.
        apply float_num_iff in H. destruct H as (f & -> & H). apply float_dot_iff in H.
        destruct H as [H Ok]. split; [|assumption]. left. eexists; split; [reflexivity|]. right. exists l2, f. auto.
      * destruct ((hd0 l1 =? 101) || (hd0 l1 =? 69)) eqn:E2; [discriminate|]. inversion H; subst.
        split; [|assumption]. left. eexists; split; [reflexivity|]. left. repeat split; auto.
        apply no_frac_hd. rewrite <- orb_assoc, E2, E1. reflexivity.
    + intros [[(l2 & E & H)|(X & _)] Ok]; [|contradiction]. inversion E; subst l2. clear E.
      destruct H as [(Nf & E & ->)|(l2 & f & -> & E & Fr)].
      * apply no_frac_hd in Nf. apply orb_false_iff in Nf. destruct Nf as [Nf E3].
        apply orb_false_iff in Nf. destruct Nf as [E1 E2]. rewrite E1, E2, E3. cbn [orb].
        destruct n; inversion E; subst. auto.
      * cbn [hd0 hd]. change (46 =? 46) with true. cbv iota. split; [|apply ok_cons].
        destruct n; inversion E; subst. apply float_num_iff. eexists; split; [reflexivity|].
        apply float_dot_iff. auto.
  - unfold a_integer. apply N.eqb_neq in E0.
    assert (G : negb (ndebug cf) && negb (is_digit cf (hd0 l)) = false <->
                (ndebug cf = true \/ digit (src_ck cf) (hd0 l))).
    { rewrite <- is_digit_iff. destruct (ndebug cf), (is_digit cf (hd0 l)); cbn; split; intros; auto; try congruence.
      destruct H; discriminate. }
    pose proof (dval_max (hd0 l)) as DM.
    assert (K : a_intd cf t (Z.of_N (u32_sub (hd0 l) 48)) l = Ret (n, l') <->
       exists ds l1, tl l = ds ++ l1 /\ Forall (digit (src_ck cf)) ds /\
         (dec (Z.of_N (dval (hd0 l))) ds <= max_int)%Z /\
         int_end (src_ck cf) (dec (Z.of_N (dval (hd0 l))) ds) l1 (numv n) l' /\ ok t l').
    { destruct l as [|x l]; [|apply intd_iff; exact DM].
      cbn [a_intd tl hd0 hd]. rewrite dval_eq. split.
      - intro H. inversion H; subst. exists [], []. cbn [dec numv]. repeat split; auto; [apply DM|].
        constructor; exact I.
      - intros (ds & l1 & E & F & M & X & Ok). symmetry in E. apply app_eq_nil in E. destruct E as [-> ->].
        inversion X; subst. cbn [dec] in *. destruct n; inversion H; subst; reflexivity. }
    destruct (negb (ndebug cf) && negb (is_digit cf (hd0 l))) eqn:Eg.
    + split; [discriminate|]. intros [[(l2 & -> & _)|(_ & Dg & _)] _]; [contradiction E0; reflexivity|].
      apply G in Dg. discriminate.
    + rewrite K. split.
      * intros (ds & l1 & E & F & M & X & Ok). split; [|assumption]. right.
        split; [assumption|]. split; [apply G; reflexivity|]. eauto 8.
      * intros [[(l2 & -> & _)|(_ & Dg & ds & l1 & E & F & M & X)] Ok]; [contradiction E0; reflexivity|].
        exists ds, l1. auto.
Qed.

(** ** Numbers *)

Definition tokv (k : atok) : option value :=
  match k with AInt z => Some (VInt z) | AFlt f => Some (VFloat f) | AT _ => None end.

Lemma tokv_signed : forall b n, tokv (signed b n) = Some (if b then negate (numv n) else numv n).
Proof. intros [] []; reflexivity. Qed.

Definition num_start (c : N) : bool := (c =? 45) || (c =? 43) || ((48 <=? c) && (c <=? 57)).

Lemma unsigned_numv : forall ck nd l v l', unsigned ck nd l v l' -> exists n, v = numv n.
Proof.
  intros ck nd l v l' H. inversion H; subst;
    first [exists (NI 0); reflexivity | eexists (NI _); reflexivity | eexists (NF _); reflexivity].
Qed.

Lemma number_numv : forall ck nd l v l', number ck nd l v l' -> exists k, tokv k = Some v /\ (forall x, k <> AT x).
Proof.
  intros ck nd l v l' H. inversion H as [c l1 v1 l2 A B U|l1 v1 l2 U|l1 v1 l2 U]; subst;
    apply unsigned_numv in U; destruct U as [n ->].
  - exists (signed false n). rewrite tokv_signed. split; [reflexivity|]. destruct n; discriminate.
  - exists (signed false n). rewrite tokv_signed. split; [reflexivity|]. destruct n; discriminate.
  - exists (signed true n). rewrite tokv_signed. split; [reflexivity|]. destruct n; discriminate.
Qed.

Lemma tokv_inj : forall a b v, tokv a = Some v -> tokv b = Some v -> a = b.
Proof. intros [] [] v H1 H2; cbn in *; inversion H1; subst; inversion H2; subst; reflexivity. Qed.

Lemma number_iff : forall cf t c l k l', num_start c = true ->
  (a_number cf t (c :: l) = Ret (k, l') <->
   exists v, tokv k = Some v /\ number (src_ck cf) (ndebug cf) (c :: l) v l' /\ ok t l').
Proof.
  intros cf t c l k l' Hs. unfold a_number. cbn [hd0 hd tl]. cbv zeta. rewrite guard_iff, bind_ret_iff.
  split.
  - intros [([n r] & H & E) O]. cbn [fst snd] in E. inversion E; subst. clear E.
    rewrite tokv_signed. eexists. split; [reflexivity|].
    apply unsigned_iff in H; [|assumption]. destruct H as [H Ok]. split; [|assumption].
    destruct (c =? 45) eqn:E1.
    + apply N.eqb_eq in E1. subst c. cbn [orb] in H. apply nu_minus. assumption.
    + destruct (c =? 43) eqn:E2; cbn [orb] in H.
      * apply N.eqb_eq in E2. subst c. apply nu_plus. assumption.
      * unfold num_start in Hs. apply nu_plain; [lia|lia|assumption].
  - intros (v & E & H & Ok).
    inversion H as [c1 l1 v1 l2 A B U|l1 v1 l2 U|l1 v1 l2 U]; subst.
    + replace (c =? 45) with false by lia. replace (c =? 43) with false by lia. cbn [orb].
      split; [|apply ok_cons]. destruct (unsigned_numv _ _ _ _ _ U) as [n ->].
      exists (n, l'). split; [apply unsigned_iff; auto|]. cbn [fst snd].
      f_equal. f_equal. eapply tokv_inj; [apply tokv_signed|exact E].
    + change (43 =? 45) with false. change (43 =? 43) with true. cbn [orb].
      assert (O : ok t l).
      { eapply ok_mono; [exact Ok|]. clear -U Ok. destruct (unsigned_numv _ _ _ _ _ U) as [n ->].
        destruct l as [|x l].
        - assert (X : a_unsigned (mkCfg (src_ck cf) Utf8 C8 Utf8 (ndebug cf)) TEof [] = Ret (n, l')).
          { apply unsigned_iff; [reflexivity|]. cbn. split; [assumption|]. destruct l'; reflexivity. }
          apply a_unsigned_len in X. cbn in X |- *. lia.
        - assert (X : a_unsigned (mkCfg (src_ck cf) Utf8 C8 Utf8 (ndebug cf)) t (x :: l) = Ret (n, l')).
          { apply unsigned_iff; [apply ok_cons|]. cbn. auto. }
          apply a_unsigned_len in X. cbn in *. lia. }
      split; [|assumption]. destruct (unsigned_numv _ _ _ _ _ U) as [n ->].
      exists (n, l'). split; [apply unsigned_iff; auto|]. cbn [fst snd].
      f_equal. f_equal. eapply tokv_inj; [apply tokv_signed|exact E].
    + change (45 =? 45) with true. cbn [orb].
      assert (O : ok t l).
      { eapply ok_mono; [exact Ok|]. clear -U Ok. destruct (unsigned_numv _ _ _ _ _ U) as [n ->].
        destruct l as [|x l].
        - assert (X : a_unsigned (mkCfg (src_ck cf) Utf8 C8 Utf8 (ndebug cf)) TEof [] = Ret (n, l')).
          { apply unsigned_iff; [reflexivity|]. cbn. split; [assumption|]. destruct l'; reflexivity. }
          apply a_unsigned_len in X. cbn in X |- *. lia.
        - assert (X : a_unsigned (mkCfg (src_ck cf) Utf8 C8 Utf8 (ndebug cf)) t (x :: l) = Ret (n, l')).
          { apply unsigned_iff; [apply ok_cons|]. cbn. auto. }
          apply a_unsigned_len in X. cbn in *. lia. }
      split; [|assumption]. destruct (unsigned_numv _ _ _ _ _ U) as [n ->].
      exists (n, l'). split; [apply unsigned_iff; auto|]. cbn [fst snd].
      f_equal. f_equal. eapply tokv_inj; [apply tokv_signed|exact E].
Qed.
