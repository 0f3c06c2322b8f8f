(** The model parser as a whole computes what the list machine computes, and
    the recursion budget is never exhausted. *)
From Coq Require Import Lia ZifyBool ZifyNat ZifyN.
From Verif Require Import Base Stream Encoding Value Token Message Parser Feeds ListMachine Simulation.

(** ** Lengths *)

Lemma tl_len : forall (l : list N), (length (tl l) <= length l)%nat.
Proof. destruct l; cbn; lia. Qed.

Lemma a_literal_len : forall cf t w text l r, a_literal cf t w text l = Ret r -> (length r <= length l)%nat.
Proof.
  intros cf t w text. induction text as [|c text IH]; intros l r H; cbn [a_literal] in H.
  - inversion H; lia.
  - destruct (_ =? _); [|discriminate]. apply guard_ret in H. destruct H as [H _].
    apply IH in H. pose proof (tl_len l). lia.
Qed.

Lemma a_literal_len1 : forall cf t w c text l r, a_literal cf t w (c :: text) l = Ret r ->
  (length r <= length (tl l))%nat.
Proof.
  intros cf t w c text l r H. cbn [a_literal] in H. destruct (_ =? _); [|discriminate].
  apply guard_ret in H. destruct H as [H _]. apply a_literal_len in H. assumption.
Qed.

Lemma a_expd_len : forall cf t l ex r l', a_expd cf t ex l = Ret (r, l') -> (length l' <= length (tl l))%nat.
Proof.
  intros cf t l. induction l as [|c l1 IH]; intros ex r l' H; cbn [a_expd] in H.
  - inversion H; subst. cbn. lia.
  - apply guard_ret in H. destruct H as [H _]. cbn [tl].
    destruct (is_digit cf (hd0 l1)).
    + apply IH in H. pose proof (tl_len l1). lia.
    + inversion H; subst. lia.
Qed.

Lemma a_exponent_len : forall cf t f l r l', a_exponent cf t f l = Ret (r, l') ->
  (length l' <= length (tl l))%nat.
Proof.
  intros cf t f l r l' H. unfold a_exponent in H. apply guard_ret in H. destruct H as [H _].
  destruct (negb _); [discriminate|]. apply guard_ret in H. destruct H as [H _].
  match type of H with context [a_expd _ _ _ ?x] => set (l2 := x) in * end.
  destruct (a_expd cf t (u32_sub (hd0 l2) 48) l2) as [[x y]| | | |] eqn:E; try discriminate.
  cbn [bind fst snd] in H. inversion H; subst. apply a_expd_len in E.
  assert (length l2 <= length (tl l))%nat by (unfold l2; destruct (_ || _); [apply tl_len|lia]).
  pose proof (tl_len l2). lia.
Qed.

Lemma a_frac_len : forall cf t l fr f r l', a_frac cf t fr f l = Ret (r, l') ->
  (length l' <= length (tl l))%nat.
Proof.
  intros cf t l. induction l as [|c l1 IH]; intros fr f r l' H; cbn [a_frac] in H.
  - inversion H; subst. cbn. lia.
  - apply guard_ret in H. destruct H as [H _]. cbn [tl].
    destruct (_ || _).
    { apply a_exponent_len in H. pose proof (tl_len l1). lia. }
    destruct (is_digit cf (hd0 l1)).
    + apply IH in H. pose proof (tl_len l1). lia.
    + inversion H; subst. lia.
Qed.

Lemma a_float_len : forall cf t z l r l', a_float cf t z l = Ret (r, l') ->
  (length l' <= length (tl l))%nat.
Proof.
  intros cf t z l r l' H. unfold a_float in H. destruct (_ || _).
  { apply a_exponent_len in H. assumption. }
  apply guard_ret in H. destruct H as [H _]. destruct (negb _); [discriminate|].
  apply a_frac_len in H. pose proof (tl_len (tl l)). lia.
Qed.

Lemma a_float_num_len : forall cf t z l r l', a_float_num cf t z l = Ret (r, l') ->
  (length l' <= length (tl l))%nat.
Proof.
  intros cf t z l r l' H. unfold a_float_num in H.
  destruct (a_float cf t z l) as [[x y]| | | |] eqn:E; try discriminate.
  cbn in H. inversion H; subst. eapply a_float_len; eassumption.
Qed.

Lemma a_intd_len : forall cf t l z r l', a_intd cf t z l = Ret (r, l') ->
  (length l' <= length (tl l))%nat.
Proof.
  intros cf t l. induction l as [|c l1 IH]; intros z r l' H; cbn [a_intd] in H.
  - inversion H; subst. cbn. lia.
  - apply guard_ret in H. destruct H as [H _]. cbn [tl].
    destruct (_ || _).
    { apply a_float_num_len in H. pose proof (tl_len l1). lia. }
    destruct (is_digit cf (hd0 l1)).
    + destruct (chk64 _) as [z1| | | |]; try discriminate. cbn [bind] in H.
      destruct (chk64 _) as [z2| | | |]; try discriminate. cbn [bind] in H.
      apply IH in H. pose proof (tl_len l1). lia.
    + inversion H; subst. lia.
Qed.

Lemma a_unsigned_len : forall cf t l r l', a_unsigned cf t l = Ret (r, l') ->
  (length l' <= length (tl l))%nat.
Proof.
  intros cf t l r l' H. unfold a_unsigned in H. destruct (hd0 l =? c_0).
  - apply guard_ret in H. destruct H as [H _].
    destruct (hd0 (tl l) =? c_dot).
    { apply a_float_num_len in H. pose proof (tl_len (tl l)). lia. }
    destruct (_ || _); [discriminate|]. inversion H; subst. lia.
  - unfold a_integer in H. destruct (_ && _); [discriminate|]. eapply a_intd_len; eassumption.
Qed.

Lemma a_number_len : forall cf t l r l', a_number cf t l = Ret (r, l') ->
  (length l' <= length (tl l))%nat.
Proof.
  intros cf t l r l' H. unfold a_number in H. apply guard_ret in H. destruct H as [H _].
  match type of H with context [a_unsigned _ _ ?x] => set (l2 := x) in * end.
  destruct (a_unsigned cf t l2) as [[x y]| | | |] eqn:E; try discriminate.
  cbn [bind fst snd] in H. inversion H; subst. apply a_unsigned_len in E.
  unfold l2 in E. destruct (_ || _); [|assumption]. pose proof (tl_len (tl l)). lia.
Qed.

Definition eats (k : atok) : bool :=
  match k with AT Tstring | AT Teoi => false | _ => true end.

Lemma a_scan_tok_len : forall cf t l k l', a_scan_tok cf t l = Ret (k, l') ->
  (length l' <= length l)%nat /\ (eats k = true -> (length l' < length l)%nat).
Proof.
  intros cf t l k l' H. unfold a_scan_tok in H. destruct l as [|c l1].
  { inversion H; subst. cbn. split; [lia|discriminate]. }
  assert (Hx : forall n : nat, (n <= length (tl (c :: l1)))%nat -> (n < length (c :: l1))%nat)
    by (intros n Hn; cbn in *; lia).
  destruct (punct c) as [p|].
  { apply guard_ret in H. destruct H as [H _]. inversion H; subst. cbn. lia. }
  assert (L : forall w text x, (let* r := a_literal cf t w text (c :: l1) in Ret (AT x, r)) = Ret (k, l') ->
            text <> [] -> (length l' < length (c :: l1))%nat).
  { intros w text x HL Hne. destruct (a_literal cf t w text (c :: l1)) eqn:E; try discriminate.
    cbn in HL. inversion HL; subst. destruct text; [contradiction|].
    apply a_literal_len1 in E. apply Hx. assumption. }
  destruct (c =? c_t). { apply L in H; [|discriminate]. lia. }
  destruct (c =? c_f). { apply L in H; [|discriminate]. lia. }
  destruct (c =? c_n). { apply L in H; [|discriminate]. lia. }
  destruct (c =? c_quote). { inversion H; subst. cbn. split; [lia|discriminate]. }
  destruct (_ || _). { apply a_number_len in H. apply Hx in H. lia. }
  destruct (c =? 0); [|discriminate]. inversion H; subst. split; [lia|discriminate].
Qed.

Lemma a_scan_len : forall cf t l k l', a_scan cf t l = Ret (k, l') ->
  (length l' <= length l)%nat /\ (eats k = true -> (length l' < length l)%nat).
Proof.
  intros cf t l k l' H. unfold a_scan in H.
  destruct (a_skip MWs t l) as [l1| | | |] eqn:E; try discriminate. cbn [bind] in H.
  apply a_skip_len in E. apply a_scan_tok_len in H. destruct H as [H1 H2].
  split; [lia|]. intro K. specialize (H2 K). lia.
Qed.

Lemma a_string_len : forall cf t n o l o' l', a_string cf t n o l = (o', Ret l') ->
  (length l' + 2 <= length l)%nat.
Proof.
  intros cf t n. induction n as [|n IH]; intros o l o' l' H; [discriminate|].
  cbn [a_string] in H. destruct (tl l) as [|c l2] eqn:E.
  { destruct t; discriminate. }
  assert (Hl : (length l2 + 2 = length l)%nat).
  { destruct l as [|x l0]; [discriminate|]. cbn [tl] in E. subst. cbn. lia. }
  destruct (c =? c_quote).
  { injection H as _ H. apply guard_ret in H. destruct H as [H _]. inversion H; subst. lia. }
  destruct (c <=? 31); [discriminate|].
  destruct (c =? c_bslash).
  - destruct (at_bad t l2); [discriminate|].
    destruct (simple_escape (hd0 l2)); [apply IH in H; lia|].
    destruct (hd0 l2 =? c_u); [|discriminate].
    destruct (a_u t l2) as [[cp l3]| | | |] eqn:Eu; try discriminate.
    apply a_u_len in Eu. destruct (os_fail _); [discriminate|]. apply IH in H. lia.
  - destruct (os_fail _); [discriminate|]. apply IH in H. cbn [length] in H. lia.
Qed.

Lemma a_get_string_len : forall cf t n l s l', a_get_string cf t n l = (s, Ret l') ->
  (length l' + 2 <= length l)%nat.
Proof.
  intros cf t n l s l' H. unfold a_get_string in H.
  destruct (a_string cf t n (mkOs [] false) l) as [o r] eqn:E. inversion H; subst.
  eapply a_string_len; eassumption.
Qed.

(** ** Recursive descent *)

Definition len_parse cf t n := forall c tok l v l', a_parse cf t n c tok l = (v, Ret l') ->
  match tok with
  | None => (length l' < length l)%nat
  | Some k => (length l' <= length l)%nat /\ (k = AT Tstring -> (length l' < length l)%nat)
  end.
Definition len_arr cf t n := forall vs l vs' k l', a_arr cf t n vs l = (vs', Ret (k, l')) ->
  (length l' <= length l)%nat.
Definition len_obj cf t n := forall m l m' k l', a_obj cf t n m l = (m', Ret (k, l')) ->
  (length l' <= length l)%nat.

Lemma stop_ret : forall A B (r : outcome A) (b : B), stop r = Ret b -> False.
Proof. intros A B r b H. destruct r; discriminate. Qed.

Lemma len_all : forall cf t n, len_parse cf t n /\ len_arr cf t n /\ len_obj cf t n.
Proof.
  intros cf t n. induction n as [|n (IHp & IHa & IHo)].
  { repeat split; intros ? ?; intros; discriminate. }
  split; [|split].
  - intros c tok l v l' H. cbn [a_parse] in H.
    assert (Body : forall k l1,
       (match k with
          | AT Ttrue => (VBool true, Ret l1)
          | AT Tfalse => (VBool false, Ret l1)
          | AT Tnull => (VNull, Ret l1)
          | AT Tstring => let '(s, r) := a_get_string cf t (S n) l1 in (VStr s, r)
          | AInt z => (VInt z, Ret l1)
          | AFlt x => (VFloat x, Ret l1)
          | AT Tbegin_arr =>
              let '(vs, r) := a_arr cf t n [] l1 in
              (VArr vs,
               match r with
               | Ret (AT Tend_arr, l) => Ret l
               | Ret (k, _) => fail (expect_msg (tok_of k) Tend_arr)
               | r => stop r
               end)
          | AT Tbegin_obj =>
              let '(m, r) := a_obj cf t n [] l1 in
              (VObj m,
               match r with
               | Ret (AT Tend_obj, l) => Ret l
               | Ret (k, _) => fail (expect_msg (tok_of k) Tend_obj)
               | r => stop r
               end)
          | _ => (c, fail (token_msg "unexpected token" (tok_of k)))
          end = (v, Ret l') ->
        (length l' <= length l1)%nat /\ (k = AT Tstring -> (length l' < length l1)%nat) /\
        (k <> AT Teoi))).
    { intros k l1 HB. destruct k as [k|z|f].
      - destruct k; try discriminate HB;
          try (inversion HB; subst; repeat split; try discriminate; lia).
        + destruct (a_get_string cf t (S n) l1) as [s r] eqn:E. inversion HB; subst.
          apply a_get_string_len in E. repeat split; try discriminate; lia.
        + destruct (a_arr cf t n [] l1) as [vs r] eqn:E.
          destruct r as [[[k| |] l2]| | | |]; try discriminate.
          destruct k; try discriminate. inversion HB; subst.
          apply IHa in E. repeat split; try discriminate; lia.
        + destruct (a_obj cf t n [] l1) as [vs r] eqn:E.
          destruct r as [[[k| |] l2]| | | |]; try discriminate.
          destruct k; try discriminate. inversion HB; subst.
          apply IHo in E. repeat split; try discriminate; lia.
      - inversion HB; subst. repeat split; try discriminate; lia.
      - inversion HB; subst. repeat split; try discriminate; lia. }
    destruct tok as [k|].
    + apply Body in H. destruct H as (A & B & C). auto.
    + destruct (a_scan cf t l) as [[k l1]| | | |] eqn:E; try discriminate.
      apply Body in H. apply a_scan_len in E. destruct E as [E1 E2], H as (A & B & C).
      destruct k as [k| |].
      * destruct k; try (specialize (E2 eq_refl); lia).
        { specialize (B eq_refl). lia. }
        { contradiction C; reflexivity. }
      * specialize (E2 eq_refl); lia.
      * specialize (E2 eq_refl); lia.
  - intros vs l vs' k l' H. cbn [a_arr] in H.
    destruct (a_scan cf t l) as [[k1 l1]| | | |] eqn:E; try discriminate.
    apply a_scan_len in E. destruct E as [E1 _].
    destruct (a_starts k1); [|inversion H; subst; lia].
    destruct (a_parse cf t n VNull (Some k1) l1) as [v r] eqn:Ep.
    destruct r as [l2| | | |]; try (inversion H; fail).
    apply IHp in Ep. destruct Ep as [Ep _].
    destruct (a_scan cf t l2) as [[k2 l3]| | | |] eqn:E2; try (inversion H; fail).
    apply a_scan_len in E2. destruct E2 as [E2 _].
    destruct k2 as [k2| |]; [|inversion H; subst; lia..].
    destruct k2; try (inversion H; subst; lia).
    apply IHa in H. lia.
  - intros m l m' k l' H. cbn [a_obj] in H.
    destruct (a_scan cf t l) as [[k1 l1]| | | |] eqn:E; try discriminate.
    apply a_scan_len in E. destruct E as [E1 _].
    destruct k1 as [k1| |]; [|inversion H; subst; lia..].
    destruct k1; try (inversion H; subst; lia).
    destruct (a_get_string cf t (S n) l1) as [s r] eqn:Es.
    destruct r as [l2| | | |]; try (inversion H; fail).
    apply a_get_string_len in Es.
    destruct (a_scan cf t l2) as [[k2 l3]| | | |] eqn:E2; try (inversion H; fail).
    apply a_scan_len in E2. destruct E2 as [E2 _].
    destruct k2 as [k2| |]; [|inversion H; subst; lia..].
    destruct k2; try (inversion H; subst; lia).
    destruct (a_parse cf t n VNull None l3) as [v r] eqn:Ep.
    destruct r as [l4| | | |]; try (inversion H; fail).
    apply IHp in Ep.
    destruct (a_scan cf t l4) as [[k3 l5]| | | |] eqn:E3; try (inversion H; fail).
    apply a_scan_len in E3. destruct E3 as [E3 _].
    destruct k3 as [k3| |]; [|inversion H; subst; lia..].
    destruct k3; try (inversion H; subst; lia).
    apply IHo in H. lia.
Qed.

(** token relation for [do_parse]'s optional token *)
Definition otok (st : pst) (tk : option token) (k : option atok) : Prop :=
  match tk, k with
  | None, None => True
  | Some tk, Some (AT k) => tk = k /\ k <> Tint /\ k <> Tfloat
  | Some tk, Some (AInt z) => tk = Tint /\ get_integer st = Ret z
  | Some tk, Some (AFlt f) => tk = Tfloat /\ get_float st = f
  | _, _ => False
  end.

Definition need (k : option atok) (l : list N) (n : nat) : Prop :=
  match k with
  | None => (2 * length l + 1 <= n)%nat
  | Some (AT Tbegin_arr) | Some (AT Tbegin_obj) => (2 * length l + 3 <= n)%nat
  | Some (AT Tstring) => (length l <= n)%nat /\ n <> 0%nat
  | Some _ => n <> 0%nat
  end.

Definition simv {A B V} (R : A -> B -> Prop) (r : V * outcome A) (ar : V * outcome B) : Prop :=
  fst r = fst ar /\ sim R (snd r) (snd ar).

Definition ats (cf : pcfg) (t : term) (st : pst) (l : list N) : Prop := at_ cf st l t.

Definition sim_parse cf t n := forall c tk k st l, at_ cf st l t -> otok st tk k -> need k l n ->
  simv (ats cf t) (do_parse cf n c tk st) (a_parse cf t n c k l).
Definition sim_arr cf t n := forall vs st l, at_ cf st l t -> (2 * length l + 2 <= n)%nat ->
  simv (tok_on cf t) (arr_loop cf n vs st) (a_arr cf t n vs l).
Definition sim_obj cf t n := forall m st l, at_ cf st l t -> (2 * length l + 2 <= n)%nat ->
  simv (tok_on cf t) (obj_loop cf n m st) (a_obj cf t n m l).

Lemma tok_on_starts : forall cf t tk st k l, tok_on cf t (tk, st) (k, l) -> starts_value tk = a_starts k.
Proof.
  intros cf t tk st k l [_ H]. cbn [fst snd] in H. destruct k; cbn; destruct H as [-> _]; reflexivity.
Qed.

Lemma sim_all : forall cf t n, sim_parse cf t n /\ sim_arr cf t n /\ sim_obj cf t n.
Proof.
  intros cf t n. induction n as [|n (IHp & IHa & IHo)].
  { split; [|split].
    - intros c tk k st l H O Nd. exfalso. destruct k as [[k| |]|]; cbn in Nd; try lia.
      destruct k; lia.
    - intros vs st l H Nd. lia.
    - intros m st l H Nd. lia. }
  split; [|split].
  - intros c tk k st l H O Nd. cbn [do_parse a_parse].
    assert (Body : forall tk k st l, at_ cf st l t -> otok st (Some tk) (Some k) ->
        (match k with AT Tbegin_arr | AT Tbegin_obj => (2 * length l + 2 <= n)%nat
         | AT Tstring => (length l <= S n)%nat
         | _ => True end) ->
      simv (ats cf t)
        (match tk with
          | Ttrue => (VBool true, Ret st)
          | Tfalse => (VBool false, Ret st)
          | Tnull => (VNull, Ret st)
          | Tstring => let '(s, r) := get_string cf (S n) st in (VStr s, r)
          | Tint =>
              match get_integer st with
              | Ret z => (VInt z, Ret st)
              | r => (VInt 0, stop r)
              end
          | Tfloat => (VFloat (get_float st), Ret st)
          | Tbegin_arr =>
              let '(l, r) := arr_loop cf n [] st in
              (VArr l,
               match r with
               | Ret (Tend_arr, st) => Ret st
               | Ret (t, _) => fail (expect_msg t Tend_arr)
               | r => stop r
               end)
          | Tbegin_obj =>
              let '(m, r) := obj_loop cf n [] st in
              (VObj m,
               match r with
               | Ret (Tend_obj, st) => Ret st
               | Ret (t, _) => fail (expect_msg t Tend_obj)
               | r => stop r
               end)
          | _ => (c, fail (token_msg "unexpected token" tk))
          end)
        (match k with
          | AT Ttrue => (VBool true, Ret l)
          | AT Tfalse => (VBool false, Ret l)
          | AT Tnull => (VNull, Ret l)
          | AT Tstring => let '(s, r) := a_get_string cf t (S n) l in (VStr s, r)
          | AInt z => (VInt z, Ret l)
          | AFlt x => (VFloat x, Ret l)
          | AT Tbegin_arr =>
              let '(vs, r) := a_arr cf t n [] l in
              (VArr vs,
               match r with
               | Ret (AT Tend_arr, l) => Ret l
               | Ret (k, _) => fail (expect_msg (tok_of k) Tend_arr)
               | r => stop r
               end)
          | AT Tbegin_obj =>
              let '(m, r) := a_obj cf t n [] l in
              (VObj m,
               match r with
               | Ret (AT Tend_obj, l) => Ret l
               | Ret (k, _) => fail (expect_msg (tok_of k) Tend_obj)
               | r => stop r
               end)
          | _ => (c, fail (token_msg "unexpected token" (tok_of k)))
          end)).
    { clear tk k st l H O Nd. intros tk k st l H O Nd. destruct k as [k|z|f]; cbn [otok] in O.
      - destruct O as (-> & Ni & Nf).
        destruct k; try (split; [reflexivity|]; cbn; first [exact H|reflexivity]); try contradiction.
        + destruct (get_string_sim cf t (S n) l st H Nd ltac:(lia)) as [E1 E2].
          destruct (get_string cf (S n) st), (a_get_string cf t (S n) l). cbn in E1, E2. subst.
          split; [reflexivity|assumption].
        + pose proof (IHa [] st l H Nd) as [E1 E2].
          destruct (arr_loop cf n [] st) as [vs r], (a_arr cf t n [] l) as [vs' r'].
          cbn [fst snd] in E1, E2. subst. split; [reflexivity|]. cbn [fst snd].
          destruct r as [[tk st2]| | | |], r' as [[k' l2]| | | |]; cbn [sim] in E2; try contradiction;
            try reflexivity; try (subst; reflexivity).
          destruct E2 as [H2 E2]. cbn [fst snd] in H2, E2.
          destruct k' as [k'| |]; destruct E2 as [-> E2]; [|reflexivity..].
          destruct k'; try reflexivity. exact H2.
        + pose proof (IHo [] st l H Nd) as [E1 E2].
          destruct (obj_loop cf n [] st) as [vs r], (a_obj cf t n [] l) as [vs' r'].
          cbn [fst snd] in E1, E2. subst. split; [reflexivity|]. cbn [fst snd].
          destruct r as [[tk st2]| | | |], r' as [[k' l2]| | | |]; cbn [sim] in E2; try contradiction;
            try reflexivity; try (subst; reflexivity).
          destruct E2 as [H2 E2]. cbn [fst snd] in H2, E2.
          destruct k' as [k'| |]; destruct E2 as [-> E2]; [|reflexivity..].
          destruct k'; try reflexivity. exact H2.
      - destruct O as [-> ->]. split; [reflexivity|exact H].
      - destruct O as [-> ->]. split; [reflexivity|exact H]. }
    destruct tk as [tk|], k as [k|]; cbn [otok] in O; try contradiction.
    + apply Body; [assumption|exact O|]. destruct k as [k| |]; [|exact I..].
      destruct k; cbn in Nd; try exact I; try lia; apply Nd.
    + cbn [need] in Nd. pose proof (scan_sim cf t l st (S n) H ltac:(lia)) as S.
      destruct (a_scan cf t l) as [[k1 l1]| | | |] eqn:E;
        destruct (scan cf (Datatypes.S n) st) as [[tk1 st1]| | | |]; cbn [sim] in S; try contradiction;
        try (split; [reflexivity|]; subst; reflexivity).
      apply a_scan_len in E. destruct E as [E1 E2].
      destruct S as [H1 S]. cbn [fst snd] in H1, S.
      apply Body; [assumption|exact S|].
      destruct k1 as [k1| |]; [|exact I..].
      destruct k1; try exact I; try (specialize (E2 eq_refl)); lia.
  - intros vs st l H Nd. cbn [arr_loop a_arr].
    pose proof (scan_sim cf t l st (S n) H ltac:(lia)) as S.
    destruct (a_scan cf t l) as [[k1 l1]| | | |] eqn:E;
      destruct (scan cf (Datatypes.S n) st) as [[tk1 st1]| | | |]; cbn [sim] in S; try contradiction;
      try (split; [reflexivity|]; subst; reflexivity).
    rewrite (tok_on_starts _ _ _ _ _ _ S). pose proof S as [H1 S1]. cbn [fst snd] in H1, S1.
    apply a_scan_len in E. destruct E as [E1 E2].
    destruct (a_starts k1) eqn:St; [|split; [reflexivity|exact S]].
    assert (Nk : need (Some k1) l1 n).
    { cbn [need]. destruct k1 as [k1| |]; [|lia..].
      destruct k1; try (specialize (E2 eq_refl)); lia. }
    pose proof (IHp VNull (Some tk1) (Some k1) st1 l1 H1 S1 Nk) as [P1 P2].
    destruct (do_parse cf n VNull (Some tk1) st1) as [v r].
    destruct (a_parse cf t n VNull (Some k1) l1) as [v' r'] eqn:Ep. cbn [fst snd] in P1, P2. subst v'.
    destruct r as [st2| | | |], r' as [l2| | | |]; cbn [sim] in P2; try contradiction;
      try (split; [reflexivity|]; subst; reflexivity).
    destruct (len_all cf t n) as (Lp & _ & _). apply Lp in Ep. destruct Ep as [Ep Ep2].
    assert (Hl2 : (length l2 < length l)%nat).
    { destruct k1 as [k1| |]; [|specialize (E2 eq_refl); lia..].
      destruct k1; try (specialize (E2 eq_refl); lia); try discriminate St.
      specialize (Ep2 eq_refl). lia. }
    pose proof (scan_sim cf t l2 st2 (Datatypes.S n) P2 ltac:(lia)) as S3.
    destruct (a_scan cf t l2) as [[k3 l3]| | | |] eqn:E3;
      destruct (scan cf (Datatypes.S n) st2) as [[tk3 st3]| | | |]; cbn [sim] in S3; try contradiction;
      try (split; [reflexivity|]; subst; reflexivity).
    pose proof S3 as [H3 T3]. cbn [fst snd] in H3, T3.
    apply a_scan_len in E3. destruct E3 as [E3 E4].
    destruct k3 as [k3| |]; [|destruct T3 as [-> T3]; split; [reflexivity|exact S3]..].
    destruct T3 as (-> & T3). destruct k3; try (split; [reflexivity|exact S3]).
    apply IHa; [assumption|]. specialize (E4 eq_refl). lia.
  - intros m st l H Nd. cbn [obj_loop a_obj].
    pose proof (scan_sim cf t l st (S n) H ltac:(lia)) as S.
    destruct (a_scan cf t l) as [[k1 l1]| | | |] eqn:E;
      destruct (scan cf (Datatypes.S n) st) as [[tk1 st1]| | | |]; cbn [sim] in S; try contradiction;
      try (split; [reflexivity|]; subst; reflexivity).
    pose proof S as [H1 S1]. cbn [fst snd] in H1, S1.
    apply a_scan_len in E. destruct E as [E1 E2].
    destruct k1 as [k1| |]; [|destruct S1 as [-> S1]; split; [reflexivity|exact S]..].
    destruct S1 as (-> & S1). destruct k1; try (split; [reflexivity|exact S]).
    destruct (get_string_sim cf t (Datatypes.S n) l1 st1 H1 ltac:(lia) ltac:(lia)) as [G1 G2].
    destruct (get_string cf (Datatypes.S n) st1) as [s r].
    destruct (a_get_string cf t (Datatypes.S n) l1) as [s' r'] eqn:Es. cbn [fst snd] in G1, G2. subst s'.
    destruct r as [st2| | | |], r' as [l2| | | |]; cbn [sim] in G2; try contradiction;
      try (split; [reflexivity|]; subst; reflexivity).
    apply a_get_string_len in Es.
    pose proof (scan_sim cf t l2 st2 (Datatypes.S n) G2 ltac:(lia)) as S3.
    destruct (a_scan cf t l2) as [[k3 l3]| | | |] eqn:E3;
      destruct (scan cf (Datatypes.S n) st2) as [[tk3 st3]| | | |]; cbn [sim] in S3; try contradiction;
      try (split; [reflexivity|]; subst; reflexivity).
    pose proof S3 as [H3 T3]. cbn [fst snd] in H3, T3.
    apply a_scan_len in E3. destruct E3 as [E3 E4].
    destruct k3 as [k3| |]; [|destruct T3 as [-> T3]; split; [reflexivity|exact S3]..].
    destruct T3 as (-> & T3). destruct k3; try (split; [reflexivity|exact S3]).
    pose proof (IHp VNull None None st3 l3 H3 I ltac:(cbn; lia)) as [P1 P2].
    destruct (do_parse cf n VNull None st3) as [v r].
    destruct (a_parse cf t n VNull None l3) as [v' r'] eqn:Ep. cbn [fst snd] in P1, P2. subst v'.
    destruct r as [st4| | | |], r' as [l4| | | |]; cbn [sim] in P2; try contradiction;
      try (split; [reflexivity|]; subst; reflexivity).
    destruct (len_all cf t n) as (Lp & _ & _). apply Lp in Ep.
    pose proof (scan_sim cf t l4 st4 (Datatypes.S n) P2 ltac:(lia)) as S5.
    destruct (a_scan cf t l4) as [[k5 l5]| | | |] eqn:E5;
      destruct (scan cf (Datatypes.S n) st4) as [[tk5 st5]| | | |]; cbn [sim] in S5; try contradiction;
      try (split; [reflexivity|]; subst; reflexivity).
    pose proof S5 as [H5 T5]. cbn [fst snd] in H5, T5.
    apply a_scan_len in E5. destruct E5 as [E5 E6].
    destruct k5 as [k5| |]; [|destruct T5 as [-> T5]; split; [reflexivity|exact S5]..].
    destruct T5 as (-> & T5). destruct k5; try (split; [reflexivity|exact S5]).
    apply IHo; [assumption|]. specialize (E6 eq_refl). lia.
Qed.

Lemma body_sim : forall cf t n c st l, at_ cf st l t -> (2 * length l + 1 <= n)%nat ->
  simv (fun _ _ => True) (parse_body cf n c st) (a_body cf t n c l).
Proof.
  intros cf t n c st l H Nd. unfold parse_body, a_body.
  destruct (sim_all cf t n) as (P & _ & _).
  pose proof (P c None None st l H I Nd) as [P1 P2].
  destruct (do_parse cf n c None st) as [v r].
  destruct (a_parse cf t n c None l) as [v' r'] eqn:Ep. cbn [fst snd] in P1, P2. subst v'.
  split; [reflexivity|]. cbn [snd].
  destruct r as [st1| | | |], r' as [l1| | | |]; cbn [sim] in P2; try contradiction;
    try reflexivity; try (subst; reflexivity).
  destruct (len_all cf t n) as (Lp & _ & _). apply Lp in Ep. cbn [bind].
  eapply sim_bind; [apply (scan_sim cf t l1 st1 n P2); lia|].
  intros [tk st2] [k l2] [H2 T]. cbn [fst snd] in *.
  destruct k as [k| |]; [destruct T as (-> & T)|destruct T as [-> T]; reflexivity..].
  destruct k; try reflexivity.
Qed.

(** The whole parser on any buffer that feeds a list of code points. *)
Lemma parse_ibuf_list : forall cf h n c b l t,
  feeds (src_enc cf) (src_ck cf) (is_open b) l t -> (2 * length l + 1 <= n)%nat ->
  parse_ibuf cf h n c b = a_top cf t h n c l /\
  fst (snd (parse_ibuf cf h n c b)) <> OutOfFuel.
Proof.
  intros cf h n c b l t F Nd. unfold parse_ibuf, a_top.
  assert (Gd : is_good (is_open b) = true) by reflexivity.
  assert (At : at_ cf (init_pst b) (0 :: l) t) by (apply (at_cons cf (init_pst b) l t); assumption).
  pose proof (read_sim cf (init_pst b) (0 :: l) t At) as R. cbn [tl] in R.
  destruct (at_bad t l) eqn:B.
  { destruct l, t; try discriminate. cbn [guard] in R.
    destruct (read_next cf (init_pst b)); cbn in R; try contradiction. subst.
    split; [reflexivity|discriminate]. }
  assert (G : guard t l (Ret tt) = Ret tt) by (destruct l, t; try discriminate; reflexivity).
  rewrite G in R. destruct (read_next cf (init_pst b)) as [st| | | |]; cbn in R; try contradiction.
  destruct R as [H S].
  pose proof (body_sim cf t n c st l H Nd) as [P1 P2].
  destruct (parse_body cf n c st) as [v r]. destruct (a_body cf t n c l) as [v' r'].
  cbn [fst snd] in P1, P2. subst v'.
  destruct r as [[]| | | |], r' as [[]| | | |]; cbn [sim] in P2; try contradiction; subst;
    (split; [reflexivity|]); cbn; try discriminate.
  destruct h; cbn; try discriminate. destruct (is_configor_exn _); discriminate.
Qed.


Lemma parse_into_list : forall cf h c s l t,
  feeds (src_enc cf) (src_ck cf) (sis s) l t -> (length l <= length s)%nat ->
  parse_into cf h c s = a_top cf t h (fuel_for s) c l /\
  fst (snd (parse_into cf h c s)) <> OutOfFuel.
Proof.
  intros cf h c s l t F L. unfold parse_into.
  apply parse_ibuf_list; [exact F|]. unfold fuel_for. lia.
Qed.
