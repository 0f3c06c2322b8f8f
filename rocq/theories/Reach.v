(** The parser moves only forward through its stream. *)
From Verif Require Import Base Stream Encoding Value Token Parser.

Section Reach.
Variable cf : pcfg.

Inductive reach : pst -> pst -> Prop :=
| re_refl st : reach st st
| re_read st st1 st2 : read_next cf st = Ret st1 -> reach st1 st2 -> reach st st2
| re_neg st b st2 : reach (set_neg st b) st2 -> reach st st2
| re_int st z st2 : reach (set_int st z) st2 -> reach st st2
| re_flt st f st2 : reach (set_flt st f) st2 -> reach st st2.

Lemma reach_trans : forall a b c, reach a b -> reach b c -> reach a c.
Proof.
  intros a b c H. induction H; intro K; [exact K| | | |].
  - eapply re_read; [eassumption|auto].
  - eapply re_neg; auto.
  - eapply re_int; auto.
  - eapply re_flt; auto.
Qed.
Lemma reach_read : forall a b, read_next cf a = Ret b -> reach a b.
Proof. intros a b H. eapply re_read; [eassumption|constructor]. Qed.

(** inverts the first step of a computation that returned *)
Ltac back H :=
  match type of H with
  | bind ?r _ = Ret _ => let E := fresh "E" in destruct r eqn:E; cbn [bind] in H; try discriminate
  | (if ?b then _ else _) = Ret _ => destruct b; try discriminate
  | Ret _ = Ret _ => injection H as <-
  end.
Ltac close := first [apply re_refl | eassumption | apply reach_read; assumption].

Lemma r_ws : forall n st st', skip_ws cf n st = Ret st' -> reach st st'.
Proof.
  induction n as [|n IH]; intros st st' H; [discriminate|]. cbn [skip_ws] in H. back H; [back H|back H; constructor].
  eapply re_read; [eassumption|auto].
Qed.
Lemma r_line : forall n st r, line_comment cf n st = Ret r -> reach st (snd r).
Proof.
  induction n as [|n IH]; intros st st' H; [discriminate|]. cbn [line_comment] in H. back H. eapply re_read; [eassumption|].
  back H; [back H; constructor|]. back H; [back H; constructor|]. auto.
Qed.
Lemma r_block : forall n st st', block_comment cf n st = Ret st' -> reach st st'.
Proof.
  induction n as [|n IH]; intros st st' H; [discriminate|]. cbn [block_comment] in H. back H. eapply re_read; [eassumption|].
  back H.
  - back H. eapply re_read; [eassumption|]. back H; [apply reach_read; assumption|]. back H. auto.
  - back H. auto.
Qed.
Lemma r_spaces : forall n st st', skip_spaces cf n st = Ret st' -> reach st st'.
Proof.
  induction n as [|n IH]; intros st st' H; [discriminate|]. cbn [skip_spaces] in H. back H. apply r_ws in E.
  eapply reach_trans; [eassumption|]. back H; [|back H; constructor]. back H. eapply re_read; [eassumption|]. back H.
  - back H. apply r_line in E1. eapply reach_trans; [eassumption|]. back H; [auto|back H; constructor].
  - back H. back H. apply r_block in E1. eapply reach_trans; [eassumption|]. auto.
Qed.
Lemma r_literal : forall w text t st r, scan_literal cf w text t st = Ret r -> reach st (snd r).
Proof.
  intro w. induction text as [|c text IH]; intros t st r H; cbn [scan_literal] in H; [back H; constructor|].
  back H. back H. eapply re_read; [eassumption|eauto].
Qed.
Lemma r_expd : forall n ex st r, exp_digits cf n ex st = Ret r -> reach st (snd r).
Proof.
  induction n as [|n IH]; intros ex st r H; [discriminate|]. cbn [exp_digits] in H. back H. eapply re_read; [eassumption|].
  back H; [eauto|back H; constructor].
Qed.
Lemma r_exponent : forall n st r, scan_exponent cf n st = Ret r -> reach st (snd r).
Proof.
  intros n st r H. unfold scan_exponent in H. back H. eapply re_read; [eassumption|]. cbv zeta in H. back H.
  match type of H with bind (if ?b then _ else _) _ = _ => destruct b end; cbn [bind] in H.
  - back H. back H. apply r_expd in E1. destruct a1. back H. cbn [snd] in *. eapply re_read; [eassumption|]. eapply reach_trans; [eassumption|].
    eapply re_flt. constructor.
  - back H. apply r_expd in E0. destruct a0. back H. cbn [snd] in *. eapply reach_trans; [eassumption|]. eapply re_flt. constructor.
Qed.
Lemma r_frac : forall n fr st r, frac_digits cf n fr st = Ret r -> reach st (snd r).
Proof.
  induction n as [|n IH]; intros fr st r H; [discriminate|]. cbn [frac_digits] in H. back H. eapply re_read; [eassumption|]. cbv zeta in H.
  back H; [eapply r_exponent; eassumption|]. back H; [|back H; constructor]. eapply re_flt. eauto.
Qed.
Lemma r_float : forall n st r, scan_float cf n st = Ret r -> reach st (snd r).
Proof.
  intros n st r H. unfold scan_float in H. cbv zeta in H. eapply re_flt. back H; [eapply r_exponent; eassumption|].
  back H. eapply re_read; [eassumption|]. back H. eapply re_flt. eapply r_frac; eassumption.
Qed.
Lemma r_int : forall n st r, int_digits cf n st = Ret r -> reach st (snd r).
Proof.
  induction n as [|n IH]; intros st r H; [discriminate|]. cbn [int_digits] in H. back H. eapply re_read; [eassumption|]. cbv zeta in H.
  back H; [eapply r_float; eassumption|]. back H; [|back H; constructor]. back H. back H. eapply re_int. eauto.
Qed.
Lemma r_number : forall n st r, scan_number cf n st = Ret r -> reach st (snd r).
Proof.
  intros n st r H. unfold scan_number in H. cbv zeta in H. apply re_neg with (b := false), re_int with (z := 0%Z).
  assert (K : forall s, (if p_cur s =? c_0 then
    let* st := read_next cf s in
    if p_cur st =? c_dot then scan_float cf n st
    else if (p_cur st =? c_e) || (p_cur st =? c_E) then fail "invalid exponent"
    else Ret (Tint, st)
    else scan_integer cf n s) = Ret r -> reach s (snd r)).
  { clear H. intros s H. back H.
    - back H. eapply re_read; [eassumption|]. back H; [eapply r_float; eassumption|]. back H. back H. constructor.
    - unfold scan_integer in H. back H. eapply re_int. eapply r_int; eassumption. }
  match type of H with bind (if ?b then _ else _) _ = _ => destruct b end; cbn [bind] in H; [|apply K; assumption].
  back H. eapply re_neg. eapply re_read; [eassumption|]. apply K. assumption.
Qed.

(** numbers are not the end *)
Lemma t_exponent : forall n st r, scan_exponent cf n st = Ret r -> fst r = Tfloat.
Proof.
  intros n st r H. unfold scan_exponent in H. back H. cbv zeta in H. back H.
  match type of H with bind (if ?b then _ else _) _ = _ => destruct b end; cbn [bind] in H.
  - back H. back H. destruct a1. back H. reflexivity.
  - back H. destruct a0. back H. reflexivity.
Qed.
Lemma t_frac : forall n fr st r, frac_digits cf n fr st = Ret r -> fst r = Tfloat.
Proof.
  induction n as [|n IH]; intros fr st r H; [discriminate|]. cbn [frac_digits] in H. back H. cbv zeta in H.
  back H; [eapply t_exponent; eassumption|]. back H; [eauto|back H; reflexivity].
Qed.
Lemma t_float : forall n st r, scan_float cf n st = Ret r -> fst r = Tfloat.
Proof.
  intros n st r H. unfold scan_float in H. cbv zeta in H. back H; [eapply t_exponent; eassumption|]. back H. back H. eapply t_frac; eassumption.
Qed.
Lemma t_int : forall n st r, int_digits cf n st = Ret r -> fst r <> Teoi.
Proof.
  induction n as [|n IH]; intros st r H; [discriminate|]. cbn [int_digits] in H. back H. cbv zeta in H.
  back H; [apply t_float in H; congruence|]. back H; [|back H; discriminate]. back H. back H. eauto.
Qed.
Lemma t_number : forall n st r, scan_number cf n st = Ret r -> fst r <> Teoi.
Proof.
  intros n st r H. unfold scan_number in H. cbv zeta in H. back H. back H.
  - back H. back H; [apply t_float in H; congruence|]. back H. back H. discriminate.
  - unfold scan_integer in H. back H. eapply t_int; eassumption.
Qed.
Lemma t_literal : forall w text t st r, scan_literal cf w text t st = Ret r -> fst r = t.
Proof.
  intro w. induction text as [|c text IH]; intros t st r H; cbn [scan_literal] in H; [back H; reflexivity|]. back H. back H. eauto.
Qed.

Lemma r_scan : forall n st r, scan cf n st = Ret r ->
  reach st (snd r) /\ (fst r = Teoi -> is_eof (p_is (snd r)) = true \/ p_cur (snd r) = 0).
Proof.
  intros n st r H. unfold scan in H. back H. apply r_spaces in E. destruct (is_eof (p_is a)) eqn:Ee.
  { back H. auto. }
  cbv zeta in H. destruct (punct (p_cur a)) as [t|] eqn:Pn.
  { back H. back H. cbn [fst snd]. split; [eapply reach_trans; [eassumption|apply reach_read; assumption]|]. intros ->.
    unfold punct in Pn. repeat (match type of Pn with (if ?b then _ else _) = _ => destruct b; try discriminate end). }
  assert (L : forall w text t, t <> Teoi -> scan_literal cf w text t a = Ret r -> reach st (snd r) /\ (fst r = Teoi -> is_eof (p_is (snd r)) = true \/ p_cur (snd r) = 0)).
  { intros w text t Nt Hl. split; [eapply reach_trans; [eassumption|]; eapply r_literal; eassumption|]. intro F. exfalso.
    apply t_literal in Hl. congruence. }
  destruct (p_cur a =? c_t); [eapply L; [|eassumption]; discriminate|].
  destruct (p_cur a =? c_f); [eapply L; [|eassumption]; discriminate|].
  destruct (p_cur a =? c_n); [eapply L; [|eassumption]; discriminate|].
  destruct (p_cur a =? c_quote); [back H; split; [assumption|discriminate]|].
  destruct (_ || _).
  { split; [eapply reach_trans; [eassumption|]; eapply r_number; eassumption|]. intro F. exfalso. apply t_number in H. contradiction. }
  destruct (p_cur a =? 0) eqn:Z; [|discriminate]. back H. split; [assumption|]. intros _. right. apply N.eqb_eq. assumption.
Qed.

Lemma r_hex : forall fs code st r, read_hex cf fs code st = Ret r -> reach st (snd r).
Proof.
  induction fs as [|f fs IH]; intros code st r H; cbn [read_hex] in H; [back H; constructor|]. back H. eapply re_read; [eassumption|].
  destruct (hex_val (p_cur a)); [eauto|discriminate].
Qed.
Lemma r_u : forall st r, read_u cf st = Ret r -> reach st (snd r).
Proof.
  intros st r H. unfold read_u, read_escaped in H. back H. apply r_hex in E. eapply reach_trans; [eassumption|]. destruct a as [cp a]. cbn [snd].
  back H; [|back H; constructor]. back H. eapply re_read; [eassumption|]. back H. back H. eapply re_read; [eassumption|]. back H.
  back H. apply r_hex in E2. eapply reach_trans; [eassumption|]. destruct a2. back H. back H. constructor.
Qed.
Lemma r_string : forall n o st o' st', scan_string cf n o st = (o', Ret st') -> reach st st'.
Proof.
  induction n as [|n IH]; intros o st o' st' H; [discriminate|]. cbn [scan_string] in H.
  destruct (read_next cf st) as [a| | | |] eqn:E; try discriminate. eapply re_read; [eassumption|]. cbv zeta in H.
  destruct (is_eof (p_is a)); [discriminate|]. destruct (p_cur a =? c_quote); [injection H as _ H; apply reach_read; assumption|].
  destruct (p_cur a <=? 31); [discriminate|]. destruct (p_cur a =? c_bslash).
  - destruct (read_next cf a) as [b| | | |] eqn:E2; try discriminate. eapply re_read; [eassumption|].
    destruct (simple_escape (p_cur b)); [eauto|]. destruct (p_cur b =? c_u); [|discriminate].
    destruct (read_u cf b) as [[cp x]| | | |] eqn:E3; try discriminate. apply r_u in E3. eapply reach_trans; [eassumption|]. cbn [snd].
    destruct (os_fail _); [discriminate|eauto].
  - destruct (os_fail _); [discriminate|eauto].
Qed.
Lemma r_get_string : forall n st s st', get_string cf n st = (s, Ret st') -> reach st st'.
Proof.
  intros n st s st' H. unfold get_string in H. destruct (scan_string cf n (mkOs [] false) st) as [o r] eqn:E. injection H as _ ->.
  eapply r_string; eassumption.
Qed.

Lemma r_values : forall n,
  (forall c tok st v st', do_parse cf n c tok st = (v, Ret st') -> reach st st') /\
  (forall l st v t st', arr_loop cf n l st = (v, Ret (t, st')) -> reach st st') /\
  (forall l st v t st', obj_loop cf n l st = (v, Ret (t, st')) -> reach st st').
Proof.
  induction n as [|n (IHv & IHa & IHo)]; [split; [|split]; discriminate|]. split; [|split].
  - intros c tok st v st' H. cbn [do_parse] in H.
    assert (exists t a, (match tok with None => scan cf (S n) st | Some t => Ret (t, st) end) = Ret (t, a) /\ reach st a) as (t & a & E & Ra).
    { destruct tok as [t|]; [exists t, st; split; [reflexivity|constructor]|].
      destruct (scan cf (S n) st) as [[t a]| | | |] eqn:E; try discriminate. apply r_scan in E. exists t, a. split; [reflexivity|apply E]. }
    cbv zeta in H. rewrite E in H. eapply reach_trans; [exact Ra|]. destruct t; try discriminate; try (injection H as _ <-; constructor).
    + destruct (get_string cf (S n) a) as [s r] eqn:G. injection H as _ ->. eapply r_get_string; eassumption.
    + destruct (get_integer a); try discriminate. injection H as _ <-. constructor.
    + destruct (arr_loop cf n [] a) as [l r] eqn:G. destruct r as [[t b]| | | |]; try discriminate. destruct t; try discriminate.
      injection H as _ <-. eapply IHa; eassumption.
    + destruct (obj_loop cf n [] a) as [l r] eqn:G. destruct r as [[t b]| | | |]; try discriminate. destruct t; try discriminate.
      injection H as _ <-. eapply IHo; eassumption.
  - intros l st v t st' H. cbn [arr_loop] in H. destruct (scan cf (S n) st) as [[t1 a]| | | |] eqn:E; try discriminate.
    apply r_scan in E. destruct E as [E _]. eapply reach_trans; [exact E|]. cbn [snd].
    destruct (starts_value t1); [|injection H as _ _ <-; constructor].
    destruct (do_parse cf n VNull (Some t1) a) as [w r] eqn:G. destruct r as [b| | | |]; try discriminate.
    apply IHv in G. eapply reach_trans; [exact G|]. destruct (scan cf (S n) b) as [[t2 d]| | | |] eqn:E2; try discriminate.
    apply r_scan in E2. destruct E2 as [E2 _]. eapply reach_trans; [exact E2|]. cbn [snd].
    destruct t2; try (injection H as _ _ <-; constructor). eapply IHa; eassumption.
  - intros l st v t st' H. cbn [obj_loop] in H. destruct (scan cf (S n) st) as [[t1 a]| | | |] eqn:E; try discriminate.
    apply r_scan in E. destruct E as [E _]. eapply reach_trans; [exact E|]. cbn [snd].
    destruct t1; try (injection H as _ _ <-; constructor).
    destruct (get_string cf (S n) a) as [k r] eqn:G. destruct r as [b| | | |]; try discriminate.
    apply r_get_string in G. eapply reach_trans; [exact G|]. destruct (scan cf (S n) b) as [[t2 d]| | | |] eqn:E2; try discriminate.
    apply r_scan in E2. destruct E2 as [E2 _]. eapply reach_trans; [exact E2|]. cbn [snd].
    destruct t2; try (injection H as _ _ <-; constructor).
    destruct (do_parse cf n VNull None d) as [w r] eqn:G2. destruct r as [f| | | |]; try discriminate.
    apply IHv in G2. eapply reach_trans; [exact G2|]. destruct (scan cf (S n) f) as [[t3 g]| | | |] eqn:E3; try discriminate.
    apply r_scan in E3. destruct E3 as [E3 _]. eapply reach_trans; [exact E3|]. cbn [snd].
    destruct t3; try (injection H as _ _ <-; constructor). eapply IHo; eassumption.
Qed.
End Reach.
