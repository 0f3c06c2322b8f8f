(** Supports C56: the parser on lists, when reading past the last character
    is an error instead of a clean end.  Everything it does is the same, up
    to the first attempt to read past the end. *)
From Coq Require Import Floats.SpecFloat Lia.
From Verif Require Import Base Stream Encoding Value Token Message Parser Feeds ListMachine.

Section Cut.
Variable (t : term) (k : N).

Definition lost {A} : outcome A := dec_err (TBad k).

(** the second run gives up, or does what the first did, with something left *)
Definition cut {A} (g : A -> list N) (o1 o2 : outcome A) : Prop :=
  o2 = lost \/ (o1 = o2 /\ forall a, o2 = Ret a -> g a <> []).

Definition it (l : list N) : list N := l.

Lemma cut_guard : forall A (g : A -> list N) l o1 o2, (l <> [] -> cut g o1 o2) ->
  cut g (guard t l o1) (guard (TBad k) l o2).
Proof. intros A g [|c l] o1 o2 H; [left; reflexivity|]. apply H. discriminate. Qed.

Lemma cut_same : forall A (g : A -> list N) o, (forall a, o = Ret a -> g a <> []) -> cut g o o.
Proof. intros. right. auto. Qed.

Lemma cut_ret : forall A (g : A -> list N) a, g a <> [] -> cut g (Ret a) (Ret a).
Proof. intros. apply cut_same. intros b E. injection E as <-. assumption. Qed.

Lemma cut_fail : forall A (g : A -> list N) m, cut g (fail m) (fail m).
Proof. intros. apply cut_same. discriminate. Qed.

Lemma cut_fail_code : forall A (g : A -> list N) m c, cut g (fail_code m c) (fail_code m c).
Proof. intros. apply cut_same. discriminate. Qed.

Lemma cut_bind : forall A B (g : A -> list N) (g' : B -> list N) o1 o2 f1 f2, cut g o1 o2 ->
  (forall a, g a <> [] -> cut g' (f1 a) (f2 a)) -> cut g' (bind o1 f1) (bind o2 f2).
Proof.
  intros A B g g' o1 o2 f1 f2 [->|[-> N]] H; [left; reflexivity|].
  destruct o2 as [a|e| | |]; try (apply cut_same; discriminate).
  cbn [bind]. apply H, N. reflexivity.
Qed.

Lemma cut_pure : forall A B (g' : B -> list N) (o : outcome A) f1 f2,
  (forall a, cut g' (f1 a) (f2 a)) -> cut g' (bind o f1) (bind o f2).
Proof. intros A B g' [a|e| | |] f1 f2 H; try (apply cut_same; discriminate). apply H. Qed.

Lemma cut_skip : forall n l m, (length l <= n)%nat -> l <> [] -> cut it (a_skip m t l) (a_skip m (TBad k) l).
Proof.
  induction n as [|n IH]; intros [|c l1] m L N; try contradiction; [cbn in L; lia|]. cbn [length] in L.
  cbn [a_skip]. destruct m.
  - destruct (is_space c); [apply cut_guard; intros N1; apply IH; [lia|assumption]|].
    destruct (c =? c_slash); [|apply cut_ret; discriminate]. apply cut_guard. intros N1.
    destruct l1 as [|c1 l2]; [apply cut_fail|].
    destruct (c1 =? c_slash); [apply IH; [lia|discriminate]|].
    destruct (c1 =? c_star); [apply IH; [lia|discriminate]|apply cut_fail].
  - apply cut_guard. intros N1. destruct l1 as [|c1 l2]; [contradiction|].
    destruct (is_nl c1); apply IH; (lia || discriminate).
  - apply cut_guard. intros N1. destruct l1 as [|c1 l2]; [contradiction|]. cbn [length] in L.
    destruct (c1 =? c_star); [|apply IH; [cbn [length]; lia|discriminate]].
    apply cut_guard. intros N2. destruct l2 as [|c2 l3]; [contradiction|]. cbn [length] in L.
    destruct (c2 =? c_slash); [|apply IH; [cbn [length]; lia|discriminate]].
    apply cut_guard. intros N3. apply IH; [lia|assumption].
Qed.

Lemma cut_literal : forall cf whole text l, l <> [] ->
  cut it (a_literal cf t whole text l) (a_literal cf (TBad k) whole text l).
Proof.
  intros cf whole. induction text as [|c text IH]; intros l N; cbn [a_literal]; [apply cut_ret; assumption|].
  destruct (c =? _); [|apply cut_fail]. apply cut_guard. apply IH.
Qed.

Lemma cut_expd : forall cf l ex, l <> [] -> cut snd (a_expd cf t ex l) (a_expd cf (TBad k) ex l).
Proof.
  intros cf. induction l as [|c l IH]; intros ex N; [contradiction|]. cbn [a_expd]. apply cut_guard. intros N1.
  destruct (is_digit cf (hd0 l)); [apply IH; assumption|apply cut_ret; assumption].
Qed.

Lemma cut_exponent : forall cf f l, l <> [] -> cut snd (a_exponent cf t f l) (a_exponent cf (TBad k) f l).
Proof.
  intros cf f l N. unfold a_exponent. apply cut_guard. intros N1. cbn zeta.
  destruct (negb _); [apply cut_fail_code|]. apply cut_guard. intros N2.
  apply (cut_bind _ _ snd); [apply cut_expd; assumption|]. intros [x r] N3. apply cut_ret. exact N3.
Qed.

Lemma cut_frac : forall cf l fr f, l <> [] -> cut snd (a_frac cf t fr f l) (a_frac cf (TBad k) fr f l).
Proof.
  intros cf. induction l as [|c l IH]; intros fr f N; [contradiction|]. cbn [a_frac]. apply cut_guard. intros N1.
  cbn zeta. destruct (_ || _)%bool; [apply cut_exponent; assumption|].
  destruct (is_digit cf (hd0 l)); [apply IH; assumption|apply cut_ret; assumption].
Qed.

Lemma cut_float : forall cf z l, l <> [] -> cut snd (a_float cf t z l) (a_float cf (TBad k) z l).
Proof.
  intros cf z l N. unfold a_float. cbn zeta. destruct (_ || _)%bool; [apply cut_exponent; assumption|].
  apply cut_guard. intros N1. destruct (negb _); [apply cut_fail_code|apply cut_frac; assumption].
Qed.

Lemma cut_float_num : forall cf z l, l <> [] -> cut snd (a_float_num cf t z l) (a_float_num cf (TBad k) z l).
Proof.
  intros cf z l N. unfold a_float_num. apply (cut_bind _ _ snd); [apply cut_float; assumption|].
  intros [x r] N3. apply cut_ret. exact N3.
Qed.

Lemma cut_intd : forall cf l z, l <> [] -> cut snd (a_intd cf t z l) (a_intd cf (TBad k) z l).
Proof.
  intros cf. induction l as [|c l IH]; intros z N; [contradiction|]. cbn [a_intd]. apply cut_guard. intros N1.
  cbn zeta. destruct (_ || _)%bool; [apply cut_float_num; assumption|].
  destruct (is_digit cf (hd0 l)); [|apply cut_ret; assumption].
  apply cut_pure. intros z1. apply cut_pure. intros z2. apply IH. assumption.
Qed.

Lemma cut_unsigned : forall cf l, l <> [] -> cut snd (a_unsigned cf t l) (a_unsigned cf (TBad k) l).
Proof.
  intros cf l N. unfold a_unsigned. destruct (hd0 l =? c_0).
  - cbn zeta. apply cut_guard. intros N1. destruct (hd0 (tl l) =? c_dot); [apply cut_float_num; assumption|].
    destruct (_ || _)%bool; [apply cut_fail|apply cut_ret; assumption].
  - unfold a_integer. destruct (_ && _)%bool; [apply cut_same; discriminate|apply cut_intd; assumption].
Qed.

Lemma cut_number : forall cf l, l <> [] -> cut snd (a_number cf t l) (a_number cf (TBad k) l).
Proof.
  intros cf l N. unfold a_number. cbn zeta. apply cut_guard. intros N1.
  apply (cut_bind _ _ snd); [apply cut_unsigned; assumption|]. intros [x r] N3. apply cut_ret. exact N3.
Qed.

Lemma cut_scan : forall cf l, l <> [] -> cut snd (a_scan cf t l) (a_scan cf (TBad k) l).
Proof.
  intros cf l N. unfold a_scan. apply (cut_bind _ _ it); [apply (cut_skip (length l)); auto|].
  intros [|c l1] N1; [contradiction|]. cbn [a_scan_tok].
  assert (B : forall w k', cut snd (let* r := a_literal cf t w w (c :: l1) in Ret (AT k', r))
    (let* r := a_literal cf (TBad k) w w (c :: l1) in Ret (AT k', r))).
  { intros w k'. apply (cut_bind _ _ it); [apply cut_literal; discriminate|]. intros r N2. apply cut_ret. exact N2. }
  destruct (punct c); [apply cut_guard; intros N2; apply cut_ret; exact N2|].
  destruct (c =? c_t); [apply B|]. destruct (c =? c_f); [apply B|]. destruct (c =? c_n); [apply B|].
  destruct (c =? c_quote); [apply cut_ret; discriminate|].
  destruct (_ || _)%bool; [apply cut_number; discriminate|].
  destruct (c =? 0); [apply cut_ret; discriminate|apply cut_fail_code].
Qed.

Lemma cut_hex : forall fs code l, l <> [] -> cut snd (a_hex t fs code l) (a_hex (TBad k) fs code l).
Proof.
  induction fs as [|f fs IH]; intros code l N; cbn [a_hex]; [apply cut_ret; assumption|].
  apply cut_guard. intros N1. destruct (hex_val _); [apply IH; assumption|apply cut_fail_code].
Qed.

Lemma cut_u : forall l, l <> [] -> cut snd (a_u t l) (a_u (TBad k) l).
Proof.
  intros l N. unfold a_u. apply (cut_bind _ _ snd); [apply cut_hex; assumption|]. intros [cp l1] N1.
  destruct (is_lead_surrogate cp); [|apply cut_ret; exact N1]. apply cut_guard. intros N2.
  destruct (negb _); [apply cut_fail_code|]. apply cut_guard. intros N3.
  destruct (negb _); [apply cut_fail_code|].
  apply (cut_bind _ _ snd); [apply cut_hex; assumption|]. intros [tr l2] N4.
  destruct (negb _); [apply cut_fail_code|apply cut_ret; exact N4].
Qed.

(** ** With a value on the side *)

Definition cutp {S A} (g : A -> list N) (p1 p2 : S * outcome A) : Prop :=
  snd p2 = lost \/ (p1 = p2 /\ forall a, snd p2 = Ret a -> g a <> []).

Lemma cutp_lift : forall S A (g : A -> list N) (s : S) o1 o2, cut g o1 o2 -> cutp g (s, o1) (s, o2).
Proof. intros S A g s o1 o2 [->|[-> N]]; [left; reflexivity|right; auto]. Qed.

Lemma cut_cases : forall A (g : A -> list N) o1 o2, cut g o1 o2 ->
  o2 = lost \/ (exists a, o1 = Ret a /\ o2 = Ret a /\ g a <> []) \/ (o1 = o2 /\ forall a, o2 <> Ret a).
Proof.
  intros A g o1 o2 [->|[-> N]]; [left; reflexivity|]. destruct o2 as [a|e| | |]; try (right; right; split; [reflexivity|discriminate]).
  right. left. exists a. auto.
Qed.

Lemma cut_string : forall cf n o l, l <> [] -> cutp it (a_string cf t n o l) (a_string cf (TBad k) n o l).
Proof.
  intros cf. induction n as [|n IH]; intros o l N; cbn [a_string]; [apply cutp_lift, cut_same; discriminate|].
  destruct (tl l) as [|c l2]; [left; reflexivity|].
  destruct (c =? c_quote); [apply cutp_lift, cut_guard; intros N1; apply cut_ret; exact N1|].
  destruct (c <=? 31); [apply cutp_lift, cut_fail_code|].
  destruct (c =? c_bslash).
  - destruct l2 as [|c2 l3]; [left; reflexivity|]. cbn [at_bad].
    destruct (simple_escape _); [apply IH; discriminate|].
    destruct (hd0 (c2 :: l3) =? c_u); [|apply cutp_lift, cut_fail_code].
    destruct (cut_cases _ _ _ _ (cut_u (c2 :: l3) ltac:(discriminate))) as [->|[([cp l4] & -> & -> & N4)|[-> N4]]].
    + left. reflexivity.
    + cbn zeta. destruct (os_fail _); [apply cutp_lift, cut_fail_code|apply IH; exact N4].
    + destruct (a_u (TBad k) (c2 :: l3)) as [a|e| | |]; [edestruct N4; reflexivity| | | |]; apply cutp_lift, cut_same; discriminate.
  - cbn zeta. destruct (os_fail _); [apply cutp_lift, cut_fail_code|apply IH; discriminate].
Qed.

Lemma cut_get_string : forall cf n l, l <> [] -> cutp it (a_get_string cf t n l) (a_get_string cf (TBad k) n l).
Proof.
  intros cf n l N. unfold a_get_string. destruct (cut_string cf n (mkOs [] false) l N) as [H|[E H]].
  - destruct (a_string cf (TBad k) n (mkOs [] false) l) as [o r], (a_string cf t n (mkOs [] false) l) as [o1 r1].
    cbn in H. subst r. left. reflexivity.
  - rewrite E. destruct (a_string cf (TBad k) n (mkOs [] false) l) as [o r]. right. split; [reflexivity|exact H].
Qed.

Ltac by_scan cf l N :=
  let k1 := fresh "k" in let l1 := fresh "l" in let N1 := fresh "N" in
  destruct (cut_cases _ _ _ _ (cut_scan cf l N)) as [->|[([k1 l1] & -> & -> & N1)|[-> N1]]];
  [left; reflexivity| cbn [snd] in N1
  |destruct (a_scan cf (TBad k) l) as [?|?| | |]; [edestruct N1; reflexivity| | | |]; apply cutp_lift, cut_same; discriminate].

Lemma cut_all : forall cf n,
  (forall c tok l, l <> [] -> cutp it (a_parse cf t n c tok l) (a_parse cf (TBad k) n c tok l)) /\
  (forall vs l, l <> [] -> cutp snd (a_arr cf t n vs l) (a_arr cf (TBad k) n vs l)) /\
  (forall m l, l <> [] -> cutp snd (a_obj cf t n m l) (a_obj cf (TBad k) n m l)).
Proof.
  intros cf. induction n as [|n (IHp & IHa & IHo)].
  { repeat split; intros; apply cutp_lift, cut_same; discriminate. }
  repeat split.
  - intros c tok l N. cbn [a_parse]. cbn zeta.
    assert (B : forall x l1, l1 <> [] ->
      cutp it
        (match x with
          | AT Ttrue => (VBool true, Ret l1)
          | AT Tfalse => (VBool false, Ret l1)
          | AT Tnull => (VNull, Ret l1)
          | AT Tstring => let '(s, r) := a_get_string cf t (S n) l1 in (VStr s, r)
          | AInt z => (VInt z, Ret l1)
          | AFlt x => (VFloat x, Ret l1)
          | AT Tbegin_arr =>
              let '(vs, r) := a_arr cf t n [] l1 in
              (VArr vs, match r with Ret (AT Tend_arr, l) => Ret l | Ret (k, _) => fail (expect_msg (tok_of k) Tend_arr) | r => stop r end)
          | AT Tbegin_obj =>
              let '(m, r) := a_obj cf t n [] l1 in
              (VObj m, match r with Ret (AT Tend_obj, l) => Ret l | Ret (k, _) => fail (expect_msg (tok_of k) Tend_obj) | r => stop r end)
          | _ => (c, fail (token_msg "unexpected token" (tok_of x)))
          end)
        (match x with
          | AT Ttrue => (VBool true, Ret l1)
          | AT Tfalse => (VBool false, Ret l1)
          | AT Tnull => (VNull, Ret l1)
          | AT Tstring => let '(s, r) := a_get_string cf (TBad k) (S n) l1 in (VStr s, r)
          | AInt z => (VInt z, Ret l1)
          | AFlt x => (VFloat x, Ret l1)
          | AT Tbegin_arr =>
              let '(vs, r) := a_arr cf (TBad k) n [] l1 in
              (VArr vs, match r with Ret (AT Tend_arr, l) => Ret l | Ret (k, _) => fail (expect_msg (tok_of k) Tend_arr) | r => stop r end)
          | AT Tbegin_obj =>
              let '(m, r) := a_obj cf (TBad k) n [] l1 in
              (VObj m, match r with Ret (AT Tend_obj, l) => Ret l | Ret (k, _) => fail (expect_msg (tok_of k) Tend_obj) | r => stop r end)
          | _ => (c, fail (token_msg "unexpected token" (tok_of x)))
          end)).
    { intros x l1 N1. destruct x as [x|z|f]; [|apply cutp_lift, cut_ret; exact N1|apply cutp_lift, cut_ret; exact N1].
      destruct x; try (apply cutp_lift, cut_fail); try (apply cutp_lift, cut_ret; exact N1).
      - destruct (cut_get_string cf (S n) l1 N1) as [H|[E H]].
        + destruct (a_get_string cf (TBad k) (S n) l1) as [s r], (a_get_string cf t (S n) l1). cbn in H. subst r. left. reflexivity.
        + rewrite E. destruct (a_get_string cf (TBad k) (S n) l1) as [s r]. right. split; [reflexivity|exact H].
      - destruct (IHa [] l1 N1) as [H|[E H]].
        + destruct (a_arr cf (TBad k) n [] l1) as [s r], (a_arr cf t n [] l1). cbn in H. subst r. left. reflexivity.
        + rewrite E. destruct (a_arr cf (TBad k) n [] l1) as [s r]. apply cutp_lift, cut_same.
          intros a Ea. destruct r as [[[[]|z|f] l2]|e| | |]; try discriminate Ea. injection Ea as <-. exact (H _ eq_refl).
      - destruct (IHo [] l1 N1) as [H|[E H]].
        + destruct (a_obj cf (TBad k) n [] l1) as [s r], (a_obj cf t n [] l1). cbn in H. subst r. left. reflexivity.
        + rewrite E. destruct (a_obj cf (TBad k) n [] l1) as [s r]. apply cutp_lift, cut_same.
          intros a Ea. destruct r as [[[[]|z|f] l2]|e| | |]; try discriminate Ea. injection Ea as <-. exact (H _ eq_refl). }
    destruct tok as [x|]; [apply B; exact N|]. by_scan cf l N. apply B. assumption.
  - intros vs l N. cbn [a_arr]. by_scan cf l N. destruct (a_starts _); [|apply cutp_lift, cut_ret; assumption].
    match goal with N1 : ?l1 <> [] |- context [a_parse cf t n VNull ?tk ?l1] => destruct (IHp VNull tk l1 N1) as [H|[E H]]; [|rewrite E] end.
    + match goal with |- context [a_parse cf (TBad k) n VNull ?tk ?l1] =>
        destruct (a_parse cf (TBad k) n VNull tk l1) as [v r] end.
      cbn in H. subst r. left. reflexivity.
    + match goal with |- context [a_parse cf (TBad k) n VNull ?tk ?l1] =>
        destruct (a_parse cf (TBad k) n VNull tk l1) as [v r] end.
      destruct r as [l2|e| | |]; try (apply cutp_lift, cut_same; discriminate).
      pose proof (H l2 eq_refl) as N2. cbv [it] in N2.
      by_scan cf l2 N2.
      match goal with N3 : ?l3 <> [] |- context [a_arr cf t n _ ?l3] => rename N3 into N9 end.
      match goal with x : atok |- context [match ?x with AT _ => _ | _ => _ end] => destruct x as [[]|z|f] end;
        try (apply cutp_lift, cut_ret; assumption). apply IHa. assumption.
  - intros m l N. cbn [a_obj]. by_scan cf l N. 
    match goal with |- context [match ?x with AT _ => _ | _ => _ end] => destruct x as [[]|z|f] end;
      try (apply cutp_lift, cut_ret; assumption).
    match goal with N1 : ?l1 <> [] |- context [a_get_string cf t (S n) ?l1] => destruct (cut_get_string cf (S n) l1 N1) as [H|[E H]]; [|rewrite E] end.
    + match goal with |- context [a_get_string cf (TBad k) (S n) ?l1] =>
        destruct (a_get_string cf (TBad k) (S n) l1) as [key r], (a_get_string cf t (S n) l1) end.
      cbn in H. subst r. left. reflexivity.
    + match goal with |- context [a_get_string cf (TBad k) (S n) ?l1] =>
        destruct (a_get_string cf (TBad k) (S n) l1) as [key r] end.
      destruct r as [l2|e| | |]; try (apply cutp_lift, cut_same; discriminate).
      pose proof (H l2 eq_refl) as N2. cbv [it] in N2. clear H E. by_scan cf l2 N2.
      match goal with |- context [match ?x with AT _ => _ | _ => _ end] => destruct x as [[]|z|f] end;
        try (apply cutp_lift, cut_ret; assumption).
      match goal with N1 : ?l1 <> [] |- context [a_parse cf t n VNull ?tk ?l1] => destruct (IHp VNull tk l1 N1) as [H|[E H]]; [|rewrite E] end.
      * match goal with |- context [a_parse cf (TBad k) n VNull ?tk ?l1] =>
          destruct (a_parse cf (TBad k) n VNull tk l1) as [v r], (a_parse cf t n VNull tk l1) end.
        cbn in H. subst r. left. reflexivity.
      * match goal with |- context [a_parse cf (TBad k) n VNull ?tk ?l1] =>
          destruct (a_parse cf (TBad k) n VNull tk l1) as [v r] end.
        destruct r as [l4|e| | |]; try (apply cutp_lift, cut_same; discriminate).
        pose proof (H l4 eq_refl) as N4. cbv [it] in N4. clear H E. by_scan cf l4 N4.
        match goal with |- context [match ?x with AT _ => _ | _ => _ end] => destruct x as [[]|z|f] end;
          try (apply cutp_lift, cut_ret; assumption). apply IHo. assumption.
Qed.

(** The whole run: lost, or the same with a NUL seen before the end. *)
Lemma cut_body : forall cf n c l, l <> [] ->
  snd (a_body cf (TBad k) n c l) = lost \/
  a_body cf t n c l = a_body cf (TBad k) n c l.
Proof.
  intros cf n c l N. unfold a_body. destruct (cut_all cf n) as [P _]. destruct (P c None l N) as [H|[E H]].
  - left. destruct (a_parse cf (TBad k) n c None l) as [v r]. cbn in H. subst r. reflexivity.
  - rewrite E. destruct (a_parse cf (TBad k) n c None l) as [v r].
    destruct r as [l1|e| | |]; try (right; reflexivity).
    pose proof (H l1 eq_refl) as N1. cbv [it] in N1. cbn [bind].
    destruct (cut_scan cf l1 N1) as [->|[-> _]]; [left|right]; reflexivity.
Qed.

Lemma cut_top : forall cf n c l,
  fst (snd (a_top cf (TBad k) HNone n c l)) = lost \/
  a_top cf t HNone n c l = a_top cf (TBad k) HNone n c l.
Proof.
  intros cf n c [|x l]; [left; reflexivity|]. unfold a_top. cbn [at_bad].
  destruct (cut_body cf n c (x :: l) ltac:(discriminate)) as [H|H].
  - left. destruct (a_body cf (TBad k) n c (x :: l)) as [v r]. cbn in H. subst r. reflexivity.
  - right. rewrite H. reflexivity.
Qed.
End Cut.
