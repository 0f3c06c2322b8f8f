(** Two number types side by side: the parsers take the same steps, and the
    values differ in their numbers only. *)
From Coq Require Import Lia ZifyBool ZifyNat ZifyN.
From Verif Require Import Base Stream Encoding Value Token Message Parser ObjFacts NumType SpecNumType.
Open Scope N_scope.

Definition orel {A B} (R : A -> B -> Prop) (r : outcome A) (r' : outcome B) : Prop :=
  match r, r' with
  | Ret a, Ret b => R a b
  | Throw e, Throw e' => e = e'
  | Abort, Abort => True
  | UB, UB => True
  | OutOfFuel, OutOfFuel => True
  | _, _ => False
  end.

Section Two.
Variables (T T' : numty) (RI : nI T -> nI T' -> Prop) (RF : nF T -> nF T' -> Prop).
(** whether arithmetic of the second type may have no result *)
Variable P : Prop.

(** the second ends in undefined behaviour, or as the first does *)
Definition lead {A B} (R : A -> B -> Prop) (r : outcome A) (r' : outcome B) : Prop := (P /\ r' = UB) \/ orel R r r'.

Hypothesis H_of : forall n, RI (i_of T n) (i_of T' n).
Hypothesis H_step : forall i i' n, RI i i' -> lead RI (i_step T i n) (i_step T' i' n).
Hypothesis H_neg : forall i i', RI i i' -> lead RI (i_neg T i) (i_neg T' i').
Hypothesis F_of : forall i i', RI i i' -> RF (f_of T i) (f_of T' i').
Hypothesis F_dig : forall n, RF (f_dig T n) (f_dig T' n).
Hypothesis F_tenth : RF (f_tenth T) (f_tenth T').
Hypothesis F_ten : RF (f_ten T) (f_ten T').
Hypothesis F_one : RF (f_one T) (f_one T').
Hypothesis F_zero : RF (f_zero T) (f_zero T').
Hypothesis F_add : forall a a' b b', RF a a' -> RF b b' -> RF (f_add T a b) (f_add T' a' b').
Hypothesis F_mul : forall a a' b b', RF a a' -> RF b b' -> RF (f_mul T a b) (f_mul T' a' b').
Hypothesis F_neg : forall a a', RF a a' -> RF (f_neg T a) (f_neg T' a').

Lemma lead_bind : forall A B C D (R : A -> B -> Prop) (Q : C -> D -> Prop) r r' f f',
  lead R r r' -> (forall a b, R a b -> lead Q (f a) (f' b)) -> lead Q (bind r f) (bind r' f').
Proof.
  intros A B C D R Q r r' f f' [[HP ->]|H] K; [left; split; [assumption|reflexivity]|].
  destruct r, r'; cbn [orel] in H; try contradiction; cbn [bind]; auto; right; cbn [orel]; auto.
Qed.
Lemma lead_ret : forall A B (R : A -> B -> Prop) a b, R a b -> lead R (Ret a) (Ret b).
Proof. intros. right. assumption. Qed.
Lemma lead_fail : forall A B (R : A -> B -> Prop) m, lead R (Parser.fail m) (Parser.fail m).
Proof. intros. right. reflexivity. Qed.

Definition alongside (s : nst T) (s' : nst T') : Prop :=
  n_p s = n_p s' /\ n_neg s = n_neg s' /\ RI (n_int s) (n_int s') /\ RF (n_flt s) (n_flt s').
Definition along (r : token * nst T) (r' : token * nst T') : Prop := fst r = fst r' /\ alongside (snd r) (snd r').

Variable cf : pcfg.

Lemma al_with : forall s s' p, alongside s s' -> alongside (with_p T s p) (with_p T' s' p).
Proof. intros s s' p (A & B & C & D). split; [reflexivity|auto]. Qed.
Lemma al_cur : forall s s', alongside s s' -> n_cur T' s' = n_cur T s.
Proof. intros s s' (A & _). unfold n_cur. rewrite A. reflexivity. Qed.
Lemma al_next : forall s s', alongside s s' -> lead alongside (n_next T cf s) (n_next T' cf s').
Proof.
  intros s s' A. unfold n_next. assert (E : n_p s = n_p s') by apply A. rewrite <- E.
  destruct (read_next cf (n_p s)); right; cbn; auto. apply al_with. assumption.
Qed.

Lemma al_pow : forall b b' e, RF b b' -> RF (n_power T b e) (n_power T' b' e).
Proof.
  intros b b' [|e] H; [assumption|]. unfold n_power.
  assert (X : forall e b b' x x', RF b b' -> RF x x' -> RF (n_pow_loop T b x e) (n_pow_loop T' b' x' e)).
  { clear -F_mul. induction e as [e IH|e IH|]; intros b b' x x' H H'; cbn [n_pow_loop]; auto. }
  apply X; assumption.
Qed.

Lemma al_exponent : forall n s s', alongside s s' -> lead along (n_exponent T cf n s) (n_exponent T' cf n s').
Proof.
  intros n s s' A. unfold n_exponent. eapply lead_bind; [apply al_next; exact A|]. clear s s' A. intros s s' A. rewrite (al_cur _ _ A).
  destruct (negb _); [apply lead_fail|].
  eapply (lead_bind _ _ _ _ alongside); [destruct (_ || _); [apply al_next; exact A|apply lead_ret; exact A]|]. intros s1 s1' A1. rewrite (al_cur _ _ A1).
  assert (E : n_p s1 = n_p s1') by apply A1. rewrite <- E. destruct (exp_digits cf n (u32_sub (n_cur T s1) 48) (n_p s1)) as [[ex p]| | | |]; right; cbn; auto.
  split; [reflexivity|]. destruct A1 as (_ & B & C & D). split; [reflexivity|]. split; [assumption|]. split; [assumption|]. cbn. apply F_mul; [assumption|].
  apply al_pow. destruct (_ =? _); assumption.
Qed.
Lemma al_flt : forall s s' f f', alongside s s' -> RF f f' -> alongside (with_flt T s f) (with_flt T' s' f').
Proof. intros s s' f f' (A & B & C & D) H. repeat split; assumption. Qed.
Lemma al_frac : forall n f f' s s', RF f f' -> alongside s s' -> lead along (n_frac T cf n f s) (n_frac T' cf n f' s').
Proof.
  induction n as [|n IH]; intros f f' s s' Hf A; [right; exact Logic.I|]. cbn [n_frac]. eapply lead_bind; [apply al_next; exact A|]. clear s s' A. intros s s' A.
  rewrite (al_cur _ _ A). destruct (_ || _); [apply al_exponent; assumption|]. destruct (is_digit _ _); [|apply lead_ret; split; [reflexivity|assumption]].
  apply IH; [auto|]. apply al_flt; [assumption|]. apply F_add; [apply A|auto].
Qed.
Lemma al_floats : forall n s s', alongside s s' -> lead along (n_float T cf n s) (n_float T' cf n s').
Proof.
  intros n s s' A. unfold n_float.
  assert (A0 : alongside (with_flt T s (f_of T (n_int s))) (with_flt T' s' (f_of T' (n_int s')))) by (apply al_flt; [assumption|apply F_of; apply A]).
  rewrite (al_cur _ _ A0). destruct (_ || _); [apply al_exponent; assumption|]. eapply lead_bind; [apply al_next; exact A0|]. intros s1 s1' A1.
  rewrite (al_cur _ _ A1). destruct (negb _); [apply lead_fail|]. apply al_frac; [assumption|]. apply al_flt; [assumption|]. apply F_add; [apply A1|auto].
Qed.
Lemma al_ints : forall s s' i i', alongside s s' -> RI i i' -> alongside (with_int T s i) (with_int T' s' i').
Proof. intros s s' f f' (A & B & C & D) H. repeat split; assumption. Qed.
Lemma al_digits : forall n s s', alongside s s' -> lead along (n_digits T cf n s) (n_digits T' cf n s').
Proof.
  induction n as [|n IH]; intros s s' A; [right; exact Logic.I|]. cbn [n_digits]. eapply lead_bind; [apply al_next; exact A|]. clear s s' A. intros s s' A.
  rewrite (al_cur _ _ A). destruct (_ || _ || _); [apply al_floats; assumption|]. destruct (is_digit _ _); [|apply lead_ret; split; [reflexivity|assumption]].
  eapply lead_bind; [apply H_step; apply A|]. intros i i' Hi. apply IH. apply al_ints; assumption.
Qed.
Lemma al_number : forall n s s', alongside s s' -> lead along (n_number T cf n s) (n_number T' cf n s').
Proof.
  intros n s s' A. unfold n_number.
  assert (A0 : alongside (with_int T (with_neg T s false) (i_of T 0)) (with_int T' (with_neg T' s' false) (i_of T' 0))).
  { destruct A as (B & _ & _ & D). split; [assumption|]. split; [reflexivity|]. split; [apply H_of|assumption]. }
  set (s0 := with_int T (with_neg T s false) (i_of T 0)) in *. set (s0' := with_int T' (with_neg T' s' false) (i_of T' 0)) in *.
  rewrite (al_cur _ _ A0).
  eapply (lead_bind _ _ _ _ alongside).
  { destruct (_ || _); [|apply lead_ret; assumption]. apply al_next. destruct A0 as (B & _ & C & D). split; [assumption|]. split; [reflexivity|]. split; assumption. }
  intros s1 s1' A1. rewrite (al_cur _ _ A1). destruct (_ =? _).
  - eapply lead_bind; [apply al_next; exact A1|]. intros s2 s2' A2. rewrite (al_cur _ _ A2). destruct (_ =? _); [apply al_floats; assumption|].
    destruct (_ || _); [apply lead_fail|]. apply lead_ret. split; [reflexivity|assumption].
  - unfold n_integer. rewrite (al_cur _ _ A1). destruct (_ && _); [right; exact Logic.I|]. apply al_digits. apply al_ints; [assumption|apply H_of].
Qed.
Lemma al_scan : forall n s s', alongside s s' -> lead along (n_scan T cf n s) (n_scan T' cf n s').
Proof.
  intros n s s' A. unfold n_scan. assert (E : n_p s = n_p s') by apply A. rewrite <- E.
  destruct (skip_spaces cf n (n_p s)) as [p| | | |]; cbn [bind]; try (right; exact Logic.I || reflexivity); try (right; reflexivity).
  assert (L : forall k q, along (k, with_p T s q) (k, with_p T' s' q)) by (intros; split; [reflexivity|apply al_with; assumption]).
  destruct (is_eof (p_is p)); [apply lead_ret; apply L|].
  assert (X : forall r : outcome (token * pst), lead along (let* r := r in Ret (fst r, with_p T (with_p T s p) (snd r))) (let* r := r in Ret (fst r, with_p T' (with_p T' s' p) (snd r)))).
  { intros r. destruct r as [[k q]| | | |]; cbn [bind]; try (right; reflexivity); try (right; exact Logic.I). apply lead_ret. apply L. }
  destruct (punct (p_cur p)).
  - destruct (read_next cf p); cbn [bind]; try (right; reflexivity); try (right; exact Logic.I). apply lead_ret. apply L.
  - repeat (destruct (_ =? _); [first [apply X|apply lead_ret; apply L]|]).
    destruct (_ || _); [apply al_number; apply al_with; assumption|]. destruct (_ =? _); [apply lead_ret; apply L|apply lead_fail].
Qed.
Lemma al_get_int : forall s s', alongside s s' -> lead RI (n_get_int T s) (n_get_int T' s').
Proof.
  intros s s' (_ & B & C & _). unfold n_get_int. rewrite <- B. destruct (n_neg s); [apply H_neg; assumption|apply lead_ret; assumption].
Qed.
Lemma al_get_flt : forall s s', alongside s s' -> RF (n_get_flt T s) (n_get_flt T' s').
Proof. intros s s' (_ & B & _ & D). unfold n_get_flt. rewrite <- B. destruct (n_neg s); auto. Qed.
Lemma al_get_str : forall n s s', alongside s s' ->
  fst (n_get_str T cf n s) = fst (n_get_str T' cf n s') /\ lead alongside (snd (n_get_str T cf n s)) (snd (n_get_str T' cf n s')).
Proof.
  intros n s s' A. unfold n_get_str. assert (E : n_p s = n_p s') by apply A. rewrite <- E. destruct (get_string cf n (n_p s)) as [k r]. cbn [fst snd].
  split; [reflexivity|]. destruct r; cbn [bind]; try (right; reflexivity); try (right; exact Logic.I). apply lead_ret. apply al_with. assumption.
Qed.

(** results with a partial value *)
Notation al := (alike RI RF).
Definition alm (m : list (str * gval (nI T) (nF T))) (m' : list (str * gval (nI T') (nF T'))) : Prop :=
  Forall2 (fun p q => fst p = fst q /\ al (snd p) (snd q)) m m'.
Definition both {A B C D} (R : A -> B -> Prop) (Q : C -> D -> Prop) (r : A * outcome C) (r' : B * outcome D) : Prop :=
  (P /\ snd r' = UB) \/ (R (fst r) (fst r') /\ orel Q (snd r) (snd r')).

Lemma alm_emplace : forall k v v' m m', al v v' -> alm m m' -> alm (obj_emplace k v m) (obj_emplace k v' m').
Proof.
  intros k v v' m m' Hv H. induction H as [|[k1 w] [k2 w'] m m' [E Hw] H IH]; cbn [obj_emplace].
  - repeat constructor; assumption.
  - cbn [fst snd] in *. subst k2. destruct (str_ltb k k1); [repeat (constructor; cbn [fst snd]; auto)|].
    destruct (str_eqb k k1); (constructor; [split; auto|]); auto.
Qed.
Lemma Forall2_snoc : forall A B (R : A -> B -> Prop) l l' a b, Forall2 R l l' -> R a b -> Forall2 R (l ++ [a]) (l' ++ [b]).
Proof. intros. apply Forall2_app; [assumption|]. repeat constructor. assumption. Qed.

Lemma al_parse : forall n,
  (forall c c' tok s s', al c c' -> alongside s s' -> both al alongside (n_parse T cf n c tok s) (n_parse T' cf n c' tok s')) /\
  (forall l l' s s', Forall2 al l l' -> alongside s s' -> both (Forall2 al) along (n_arr T cf n l s) (n_arr T' cf n l' s')) /\
  (forall m m' s s', alm m m' -> alongside s s' -> both alm along (n_obj T cf n m s) (n_obj T' cf n m' s')).
Proof.
  induction n as [|n (IHp & IHa & IHo)].
  { split; [|split]; intros; right; (split; [assumption|exact Logic.I]). }
  split; [|split].
  - intros c c' tok s s' Hc A. cbn [n_parse]. fold (n_parse T cf) (n_arr T cf) (n_obj T cf) (n_parse T' cf) (n_arr T' cf) (n_obj T' cf).
    assert (X : lead along (match tok with None => n_scan T cf (S n) s | Some t => Ret (t, s) end)
      (match tok with None => n_scan T' cf (S n) s' | Some t => Ret (t, s') end)).
    { destruct tok; [apply lead_ret; split; [reflexivity|assumption]|apply al_scan; assumption]. }
    destruct X as [[HP X]|X]; [rewrite X; left; split; [assumption|reflexivity]|].
    destruct (match tok with None => n_scan T cf (S n) s | Some t => Ret (t, s) end) as [[t1 s1]| | | |];
      destruct (match tok with None => n_scan T' cf (S n) s' | Some t => Ret (t, s') end) as [[t1' s1']| | | |]; cbn [orel] in X; try contradiction;
      try (right; split; [assumption|exact X]).
    destruct X as [E A1]. cbn [fst snd] in *. subst t1'.
    destruct t1; try (right; split; [constructor|exact A1]); try (right; split; [exact Hc|reflexivity]).
    + destruct (al_get_str (S n) _ _ A1) as [Es G]. destruct (n_get_str T cf (S n) s1) as [k r], (n_get_str T' cf (S n) s1') as [k' r']. cbn [fst snd] in *. subst k'.
      destruct G as [[HP ->]|G]; [left; split; [assumption|reflexivity]|]. right. split; [constructor|exact G].
    + destruct (al_get_int _ _ A1) as [[HP ->]|G]; [left; split; [assumption|reflexivity]|]. right.
      destruct (n_get_int T s1), (n_get_int T' s1'); cbn [orel] in G; try contradiction; (split; [constructor; auto|auto]).
    + apply al_get_flt. assumption.
    + pose proof (IHa [] [] s1 s1' (Forall2_nil _) A1) as G. destruct (n_arr T cf n [] s1) as [l r], (n_arr T' cf n [] s1') as [l' r'].
      destruct G as [[HP G]|[G1 G2]]; cbn [fst snd] in *; [subst r'; left; split; [assumption|reflexivity]|]. right. split; [constructor; assumption|].
      destruct r as [[k s2]| | | |], r' as [[k' s2']| | | |]; cbn [orel] in G2; try contradiction; auto. destruct G2 as [Ek A2]. cbn [fst snd] in *. subst k'.
      destruct k; cbn; auto.
    + pose proof (IHo [] [] s1 s1' (Forall2_nil _) A1) as G. destruct (n_obj T cf n [] s1) as [l r], (n_obj T' cf n [] s1') as [l' r'].
      destruct G as [[HP G]|[G1 G2]]; cbn [fst snd] in *; [subst r'; left; split; [assumption|reflexivity]|]. right. split; [constructor; assumption|].
      destruct r as [[k s2]| | | |], r' as [[k' s2']| | | |]; cbn [orel] in G2; try contradiction; auto. destruct G2 as [Ek A2]. cbn [fst snd] in *. subst k'.
      destruct k; cbn; auto.
  - intros l l' s s' Hl A. cbn [n_arr]. fold (n_parse T cf) (n_arr T cf) (n_obj T cf) (n_parse T' cf) (n_arr T' cf) (n_obj T' cf).
    destruct (al_scan (S n) _ _ A) as [[HP ->]|X]; [left; split; [assumption|reflexivity]|].
    destruct (n_scan T cf (S n) s) as [[t1 s1]| | | |], (n_scan T' cf (S n) s') as [[t1' s1']| | | |]; cbn [orel] in X; try contradiction;
      try (right; split; [assumption|exact X]).
    destruct X as [E A1]. cbn [fst snd] in *. subst t1'. destruct (starts_value t1); [|right; split; [assumption|split; [reflexivity|assumption]]].
    pose proof (IHp GNull GNull (Some t1) s1 s1' (al_null _ _) A1) as G.
    destruct (n_parse T cf n GNull (Some t1) s1) as [v r], (n_parse T' cf n GNull (Some t1) s1') as [v' r'].
    destruct G as [[HP G]|[Gv G]]; cbn [fst snd] in *; [subst r'; left; split; [assumption|reflexivity]|].
    assert (Hl2 : Forall2 al (l ++ [v]) (l' ++ [v'])) by (apply Forall2_snoc; assumption).
    destruct r as [s2| | | |], r' as [s2'| | | |]; cbn [orel] in G; try contradiction; try (right; split; [assumption|exact G]).
    destruct (al_scan (S n) _ _ G) as [[HP ->]|X]; [left; split; [assumption|reflexivity]|].
    destruct (n_scan T cf (S n) s2) as [[t2 s3]| | | |], (n_scan T' cf (S n) s2') as [[t2' s3']| | | |]; cbn [orel] in X; try contradiction;
      try (right; split; [assumption|exact X]).
    destruct X as [E A3]. cbn [fst snd] in *. subst t2'.
    destruct t2; try (right; split; [assumption|split; [reflexivity|assumption]]). apply IHa; assumption.
  - intros m m' s s' Hm A. cbn [n_obj]. fold (n_parse T cf) (n_arr T cf) (n_obj T cf) (n_parse T' cf) (n_arr T' cf) (n_obj T' cf).
    destruct (al_scan (S n) _ _ A) as [[HP ->]|X]; [left; split; [assumption|reflexivity]|].
    destruct (n_scan T cf (S n) s) as [[t1 s1]| | | |], (n_scan T' cf (S n) s') as [[t1' s1']| | | |]; cbn [orel] in X; try contradiction;
      try (right; split; [assumption|exact X]).
    destruct X as [E A1]. cbn [fst snd] in *. subst t1'. destruct t1; try (right; split; [assumption|split; [reflexivity|assumption]]).
    destruct (al_get_str (S n) _ _ A1) as [Es G]. destruct (n_get_str T cf (S n) s1) as [k r], (n_get_str T' cf (S n) s1') as [k' r']. cbn [fst snd] in *. subst k'.
    destruct G as [[HP ->]|G]; [left; split; [assumption|reflexivity]|].
    destruct r as [s2| | | |], r' as [s2'| | | |]; cbn [orel] in G; try contradiction; try (right; split; [assumption|exact G]).
    destruct (al_scan (S n) _ _ G) as [[HP ->]|X]; [left; split; [assumption|reflexivity]|].
    destruct (n_scan T cf (S n) s2) as [[t2 s3]| | | |], (n_scan T' cf (S n) s2') as [[t2' s3']| | | |]; cbn [orel] in X; try contradiction;
      try (right; split; [assumption|exact X]).
    destruct X as [E A3]. cbn [fst snd] in *. subst t2'. destruct t2; try (right; split; [assumption|split; [reflexivity|assumption]]).
    pose proof (IHp GNull GNull None s3 s3' (al_null _ _) A3) as Gp.
    destruct (n_parse T cf n GNull None s3) as [v r], (n_parse T' cf n GNull None s3') as [v' r'].
    destruct Gp as [[HP Gp]|[Gv Gp]]; cbn [fst snd] in *; [subst r'; left; split; [assumption|reflexivity]|].
    destruct r as [s4| | | |], r' as [s4'| | | |]; cbn [orel] in Gp; try contradiction; try (right; split; [assumption|exact Gp]).
    assert (Hm2 : alm (obj_emplace k v m) (obj_emplace k v' m')) by (apply alm_emplace; assumption).
    destruct (al_scan (S n) _ _ Gp) as [[HP ->]|X]; [left; split; [assumption|reflexivity]|].
    destruct (n_scan T cf (S n) s4) as [[t3 s5]| | | |], (n_scan T' cf (S n) s4') as [[t3' s5']| | | |]; cbn [orel] in X; try contradiction;
      try (right; split; [assumption|exact X]).
    destruct X as [E A5]. cbn [fst snd] in *. subst t3'.
    destruct t3; try (right; split; [assumption|split; [reflexivity|assumption]]). apply IHo; assumption.
Qed.

Lemma al_ibuf : forall h n c c' b, al c c' ->
  (P /\ fst (snd (n_parse_ibuf T' cf h n c' b)) = UB) \/
  (al (fst (n_parse_ibuf T cf h n c b)) (fst (n_parse_ibuf T' cf h n c' b)) /\ snd (n_parse_ibuf T cf h n c b) = snd (n_parse_ibuf T' cf h n c' b)).
Proof.
  intros h n c c' b Hc. unfold n_parse_ibuf.
  assert (A0 : alongside (n_init T b) (n_init T' b)) by (split; [reflexivity|]; split; [reflexivity|]; split; [apply H_of|assumption]).
  destruct (al_next _ _ A0) as [[HP ->]|X]; [left; split; [assumption|reflexivity]|].
  destruct (n_next T cf (n_init T b)) as [s| | | |], (n_next T' cf (n_init T' b)) as [s'| | | |]; cbn [orel] in X; try contradiction;
    try (right; split; [exact Hc|first [reflexivity|rewrite X; reflexivity]]).
  unfold n_body. pose proof (proj1 (al_parse n) c c' None s s' Hc X) as G.
  destruct (n_parse T cf n c None s) as [v r], (n_parse T' cf n c' None s') as [v' r'].
  assert (HU : handle h (@UB unit) = (UB, ""%string)) by (destruct h; reflexivity).
  destruct G as [[HP G]|[Gv G]]; cbn [fst snd] in *; [subst r'; left; split; [assumption|cbn [bind]; rewrite HU; reflexivity]|].
  destruct r as [s1| | | |], r' as [s1'| | | |]; cbn [orel] in G; try contradiction; cbn [bind]; try (right; split; [exact Gv|first [reflexivity|rewrite G; reflexivity]]).
  destruct (al_scan n _ _ G) as [[HP ->]|Y]; [left; split; [assumption|cbn [bind]; rewrite HU; reflexivity]|].
  destruct (n_scan T cf n s1) as [[k s2]| | | |], (n_scan T' cf n s1') as [[k' s2']| | | |]; cbn [orel] in Y; try contradiction; cbn [bind];
    try (right; split; [exact Gv|first [reflexivity|rewrite Y; reflexivity]]).
  destruct Y as [Ek _]. cbn [fst] in *. subst k'. right. split; [exact Gv|reflexivity].
Qed.
End Two.
