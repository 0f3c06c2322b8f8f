(** The calls made by comparisons. *)
From Coq Require Import Lia ZifyBool ZifyNat ZifyN Floats.SpecFloat.
From Verif Require Import Base Stream Encoding Value Token Message Parser Serializer Compare ObjFacts CompareProofs DumpText Cost SpecCost.
Open Scope nat_scope.

Definition eq_l := fix go (l l' : list value) : bool * calls :=
  match l, l' with
  | x :: t, y :: t' =>
      let '(r, n) := k_eq x y in
      if r : bool then let '(r', n') := go t t' in (r', and_then n n') else (false, n)
  | _, _ => (true, (0, 0))
  end.
Definition eq_m := fix go (m m' : list (str * value)) : bool * calls :=
  match m, m' with
  | (k, x) :: t, (k', y) :: t' =>
      if str_eqb k k' then
        let '(r, n) := k_eq x y in
        if r : bool then let '(r', n') := go t t' in (r', and_then n n') else (false, n)
      else (false, (0, 0))
  | _, _ => (true, (0, 0))
  end.
Definition veq_l := fix go (l l' : list value) : bool :=
  match l, l' with [], [] => true | x :: t, y :: t' => v_eqb x y && go t t' | _, _ => false end.
Definition veq_m := fix go (m m' : list (str * value)) : bool :=
  match m, m' with
  | [], [] => true
  | (k, x) :: t, (k', y) :: t' => (str_eqb k k' && v_eqb x y) && go t t'
  | _, _ => false
  end.
Lemma k_eq_arr : forall l l', k_eq (VArr l) (VArr l') =
  if length l =? length l' then let '(r, n) := eq_l l l' in (r, one_call n) else (false, one_call (0, 0)).
Proof. reflexivity. Qed.
Lemma k_eq_obj : forall l l', k_eq (VObj l) (VObj l') =
  if length l =? length l' then let '(r, n) := eq_m l l' in (r, one_call n) else (false, one_call (0, 0)).
Proof. reflexivity. Qed.
Lemma v_eqb_arr : forall l l', v_eqb (VArr l) (VArr l') = veq_l l l'.
Proof. reflexivity. Qed.
Lemma v_eqb_obj : forall l l', v_eqb (VObj l) (VObj l') = veq_m l l'.
Proof. reflexivity. Qed.
Lemma veq_l_len : forall l l', length l <> length l' -> veq_l l l' = false.
Proof. induction l as [|x l IH]; intros [|y l'] H; cbn [length veq_l] in *; try reflexivity; try lia. rewrite IH by lia. apply andb_false_r. Qed.
Lemma veq_m_len : forall l l', length l <> length l' -> veq_m l l' = false.
Proof. induction l as [|[k x] l IH]; intros [|[k' y] l'] H; cbn [length veq_m] in *; try reflexivity; try lia. rewrite IH by lia. apply andb_false_r. Qed.

(** what is said of a comparison that made the calls c *)
Definition counted (c : calls) (na nb da db : nat) : Prop := fst c <= na /\ fst c <= nb /\ snd c <= da /\ snd c <= db.
Definition exact (c : calls) (na nb da db : nat) : Prop := fst c = na /\ na = nb /\ snd c = da /\ da = db.

Notation lsum f l := (list_sum (map f l)).
Notation lmax f l := (list_max (map f l)).
Notation nodes2 := (fun kv : str * value => nodes (snd kv)).
Notation nest2 := (fun kv : str * value => nest (snd kv)).
Notation doubled2 := (fun kv : str * value => doubled (snd kv)).

Lemma nodes_pos : forall v, 1 <= nodes v. Proof. destruct v; cbn [nodes]; lia. Qed.
Lemma nest_pos : forall v, 1 <= nest v. Proof. destruct v; cbn [nest]; lia. Qed.
Lemma doubled_pos : forall v, 1 <= doubled v. Proof. destruct v; cbn [doubled]; lia. Qed.

Ltac leaf := intros; let y := fresh "y" in intro y; pose proof (nodes_pos y); pose proof (nest_pos y); destruct y;
  (split; [reflexivity|]; split; [repeat split; cbn [fst snd k_eq one_call nodes nest] in *; lia|]; intro; repeat split; discriminate).

Definition eq_fact (a : value) : Prop := forall b,
  fst (k_eq a b) = v_eqb a b /\ counted (snd (k_eq a b)) (nodes a) (nodes b) (nest a) (nest b) /\
  (v_eqb a b = true -> exact (snd (k_eq a b)) (nodes a) (nodes b) (nest a) (nest b)).

Theorem eq_calls : forall a, eq_fact a.
Proof.
  apply (value_rect2 eq_fact); try (leaf; fail).
  - intros l F b. destruct b as [| | | |l'|l'|]; try (repeat split; cbn [fst snd k_eq one_call nodes nest]; try lia; discriminate).
    rewrite k_eq_arr, v_eqb_arr.  
    destruct (Nat.eqb_spec (length l) (length l')) as [L|L];
      [|rewrite veq_l_len by assumption; repeat split; cbn [fst snd one_call nodes nest]; try lia; discriminate].
    assert (E : fst (eq_l l l') = veq_l l l' /\ counted (snd (eq_l l l')) (lsum nodes l) (lsum nodes l') (lmax nest l) (lmax nest l') /\
              (veq_l l l' = true -> exact (snd (eq_l l l')) (lsum nodes l) (lsum nodes l') (lmax nest l) (lmax nest l'))).
    { revert l' L. induction F as [|x l Fx F IH]; intros [|y l'] L; try discriminate L; [repeat split; apply le_n|].
      cbn [length] in L. destruct (IH l' ltac:(lia)) as (I1 & I2 & I3). destruct (Fx y) as (X1 & X2 & X3). unfold counted, exact in *.
      cbn [eq_l veq_l map list_sum list_max fold_right]. fold eq_l veq_l.
      destruct (k_eq x y) as [r [n n1]]. destruct (eq_l l l') as [r' [n' n1']]. cbn [fst snd] in *. subst r r'.
      fold (lsum nodes l) (lsum nodes l') (lmax nest l) (lmax nest l').
      destruct (v_eqb x y); cbn [andb fst snd and_then]; [|repeat split; try lia; discriminate].
      destruct (X3 eq_refl) as (? & ? & ? & ?). split; [reflexivity|]. split; [lia|]. intro V. destruct (I3 V) as (? & ? & ? & ?). lia. }
    destruct E as (E1 & E2 & E3). unfold counted, exact in *. destruct (eq_l l l') as [r [n n1]]. cbn [fst snd one_call nodes nest] in *.
    split; [assumption|]. split; [lia|]. intro V. destruct (E3 V) as (? & ? & ? & ?). lia.
  - intros l F b. destruct b as [| | | |l'|l'|]; try (repeat split; cbn [fst snd k_eq one_call nodes nest]; try lia; discriminate).
    rewrite k_eq_obj, v_eqb_obj.  
    destruct (Nat.eqb_spec (length l) (length l')) as [L|L];
      [|rewrite veq_m_len by assumption; repeat split; cbn [fst snd one_call nodes nest]; try lia; discriminate].
    assert (E : fst (eq_m l l') = veq_m l l' /\ counted (snd (eq_m l l')) (lsum nodes2 l) (lsum nodes2 l') (lmax nest2 l) (lmax nest2 l') /\
              (veq_m l l' = true -> exact (snd (eq_m l l')) (lsum nodes2 l) (lsum nodes2 l') (lmax nest2 l) (lmax nest2 l'))).
    { revert l' L. induction F as [|[k x] l Fx F IH]; intros [|[k' y] l'] L; try discriminate L; [repeat split; apply le_n|].
      cbn [length] in L. destruct (IH l' ltac:(lia)) as (I1 & I2 & I3). cbn [snd] in Fx. destruct (Fx y) as (X1 & X2 & X3). unfold counted, exact in *.
      cbn [eq_m veq_m map list_sum list_max fold_right]. fold eq_m veq_m.
      destruct (k_eq x y) as [r [n n1]]. destruct (eq_m l l') as [r' [n' n1']]. cbn [fst snd] in *. subst r r'.
      fold (lsum nodes2 l) (lsum nodes2 l') (lmax nest2 l) (lmax nest2 l').
      destruct (str_eqb k k'); cbn [andb fst snd]; [|repeat split; try lia; discriminate].
      destruct (v_eqb x y); cbn [andb fst snd and_then]; [|repeat split; try lia; discriminate].
      destruct (X3 eq_refl) as (? & ? & ? & ?). split; [reflexivity|]. split; [lia|]. intro V. destruct (I3 V) as (? & ? & ? & ?). lia. }
    destruct E as (E1 & E2 & E3). unfold counted, exact in *. destruct (eq_m l l') as [r [n n1]]. cbn [fst snd one_call nodes nest] in *.
    split; [assumption|]. split; [lia|]. intro V. destruct (E3 V) as (? & ? & ? & ?). lia.
Qed.

(** ** operator< *)
Definition cmp2 : Type := ((bool * calls) * (bool * calls))%type.
Definition k_none : bool * calls := (false, (0, 0)).
Definition cmp_l := fix go (l l' : list value) : cmp2 :=
  match l, l' with
  | [], [] => ((false, (0, 0)), (false, (0, 0)))
  | [], _ :: _ => ((true, (0, 0)), (false, (0, 0)))
  | _ :: _, [] => ((false, (0, 0)), (true, (0, 0)))
  | x :: t, y :: t' =>
      let '(lt, gt) := k_cmp x y in
      let '(lt', gt') := go t t' in
      (ask lt gt lt', ask gt lt gt')
  end.
Definition cmp_m := fix go (m m' : list (str * value)) : cmp2 :=
  match m, m' with
  | [], [] => ((false, (0, 0)), (false, (0, 0)))
  | [], _ :: _ => ((true, (0, 0)), (false, (0, 0)))
  | _ :: _, [] => ((false, (0, 0)), (true, (0, 0)))
  | (k, x) :: t, (k', y) :: t' =>
      let '(lt0, gt0) := k_cmp x y in
      let lt := pair_lt k k' lt0 in
      let gt := pair_lt k' k gt0 in
      let '(lt', gt') := go t t' in
      (ask lt gt lt', ask gt lt gt')
  end.
Definition vcmp_l := fix go (l l' : list value) : bool * bool :=
  match l, l' with
  | [], [] => (false, false)
  | [], _ :: _ => (true, false)
  | _ :: _, [] => (false, true)
  | x :: t, y :: t' =>
      let '(lt, gt) := v_cmp x y in
      let '(lt', gt') := go t t' in
      (if lt then true else if gt then false else lt', if gt then true else if lt then false else gt')
  end.
Definition vcmp_m := fix go (m m' : list (str * value)) : bool * bool :=
  match m, m' with
  | [], [] => (false, false)
  | [], _ :: _ => (true, false)
  | _ :: _, [] => (false, true)
  | (k, x) :: t, (k', y) :: t' =>
      let '(lt0, gt0) := v_cmp x y in
      let lt := str_ltb k k' || (negb (str_ltb k' k) && lt0) in
      let gt := str_ltb k' k || (negb (str_ltb k k') && gt0) in
      let '(lt', gt') := go t t' in
      (if lt then true else if gt then false else lt', if gt then true else if lt then false else gt')
  end.
Lemma k_cmp_arr : forall l l', k_cmp (VArr l) (VArr l') = (call_lt (fst (cmp_l l l')), call_lt (snd (cmp_l l l'))).
Proof. intros. change (k_cmp (VArr l) (VArr l')) with (let '(lt, gt) := cmp_l l l' in (call_lt lt, call_lt gt)). destruct (cmp_l l l'). reflexivity. Qed.
Lemma k_cmp_obj : forall l l', k_cmp (VObj l) (VObj l') = (call_lt (fst (cmp_m l l')), call_lt (snd (cmp_m l l'))).
Proof. intros. change (k_cmp (VObj l) (VObj l')) with (let '(lt, gt) := cmp_m l l' in (call_lt lt, call_lt gt)). destruct (cmp_m l l'). reflexivity. Qed.
Lemma v_cmp_arr : forall l l', v_cmp (VArr l) (VArr l') = vcmp_l l l'. Proof. reflexivity. Qed.
Lemma v_cmp_obj : forall l l', v_cmp (VObj l) (VObj l') = vcmp_m l l'. Proof. reflexivity. Qed.

(** both directions keep within the bounds, and reach them if neither holds *)
Definition cmp_ok (r : cmp2) (w : bool * bool) (na nb da db : nat) : Prop :=
  fst (fst r) = fst w /\ fst (snd r) = snd w /\
  counted (snd (fst r)) na nb da db /\ counted (snd (snd r)) na nb da db.
Definition lt_fact (a : value) : Prop := forall b, cmp_ok (k_cmp a b) (v_cmp a b) (doubled a) (doubled b) (nest a) (nest b).

Lemma k_cmp_leaf : forall a b, (forall l l', (a, b) <> (VArr l, VArr l')) -> (forall m m', (a, b) <> (VObj m, VObj m')) ->
  k_cmp a b = ((fst (v_cmp a b), (1, 1)), (snd (v_cmp a b), (1, 1))).
Proof.
  intros a b A O. destruct a, b; try (exfalso; eapply A; reflexivity); try (exfalso; eapply O; reflexivity); reflexivity.
Qed.
Ltac leaf2 := intros; let y := fresh "y" in intro y; rewrite k_cmp_leaf by (intros; discriminate);
  pose proof (doubled_pos y); pose proof (nest_pos y); repeat split; cbn [fst snd doubled nest]; try reflexivity; try lia.

Theorem lt_calls : forall a, lt_fact a.
Proof.
  apply (value_rect2 lt_fact); try (leaf2; fail).
  - intros l F b. pose proof (doubled_pos b). pose proof (nest_pos b).
    destruct b as [| | | |l'| |]; try (rewrite k_cmp_leaf by (intros; discriminate); repeat split; cbn [fst snd doubled nest]; try reflexivity; lia).
    rewrite k_cmp_arr, v_cmp_arr.
    assert (E : cmp_ok (cmp_l l l') (vcmp_l l l') (2 * lsum doubled l) (2 * lsum doubled l') (lmax nest l) (lmax nest l')).
    { clear H H0. revert l'. induction F as [|x l Fx F IH]; intros [|y l']; try (repeat split; cbn [fst snd cmp_l]; lia).
      specialize (IH l'). specialize (Fx y). unfold cmp_ok, counted in *.
      cbn [cmp_l vcmp_l map list_sum list_max fold_right]. fold cmp_l vcmp_l.
      destruct (k_cmp x y) as [[p [p1 p2]] [q [q1 q2]]]. destruct (v_cmp x y) as [p' q']. destruct (cmp_l l l') as [[r [r1 r2]] [s [s1 s2]]]. destruct (vcmp_l l l') as [r' s'].
      cbn [fst snd] in *. destruct Fx as (<- & <- & X3 & X4). destruct IH as (<- & <- & I3 & I4).
      fold (lsum doubled l) (lsum doubled l') (lmax nest l) (lmax nest l').
      unfold ask. cbn [fst snd]. destruct p, q; cbn [fst snd and_then]; repeat split; lia. }
    unfold cmp_ok, counted in *. cbn [fst snd call_lt one_call doubled nest]. destruct E as (E1 & E2 & E3 & E4). repeat split; try assumption; lia.
  - intros l F b. pose proof (doubled_pos b). pose proof (nest_pos b).
    destruct b as [| | | | |l'|]; try (rewrite k_cmp_leaf by (intros; discriminate); repeat split; cbn [fst snd doubled nest]; try reflexivity; lia).
    rewrite k_cmp_obj, v_cmp_obj.
    assert (E : cmp_ok (cmp_m l l') (vcmp_m l l') (2 * lsum doubled2 l) (2 * lsum doubled2 l') (lmax nest2 l) (lmax nest2 l')).
    { clear H H0. revert l'. induction F as [|[k x] l Fx F IH]; intros [|[k' y] l']; try (repeat split; cbn [fst snd cmp_m]; lia).
      specialize (IH l'). cbn [snd] in Fx. specialize (Fx y). unfold cmp_ok, counted in *.
      cbn [cmp_m vcmp_m map list_sum list_max fold_right]. fold cmp_m vcmp_m.
      destruct (k_cmp x y) as [[p [p1 p2]] [q [q1 q2]]]. destruct (v_cmp x y) as [p' q']. destruct (cmp_m l l') as [[r [r1 r2]] [s [s1 s2]]]. destruct (vcmp_m l l') as [r' s'].
      cbn [fst snd] in *. destruct Fx as (<- & <- & X3 & X4). destruct IH as (<- & <- & I3 & I4).
      fold (lsum doubled2 l) (lsum doubled2 l') (lmax nest2 l) (lmax nest2 l').
      unfold ask, pair_lt. destruct (str_ltb k k'), (str_ltb k' k), p, q; cbn [fst snd and_then negb andb orb]; repeat split; lia. }
    unfold cmp_ok, counted in *. cbn [fst snd call_lt one_call doubled nest]. destruct E as (E1 & E2 & E3 & E4). repeat split; try assumption; lia.
Qed.

(** equal values are compared to the end, in both directions *)
Definition tie (r : cmp2) (na nb da db : nat) : Prop :=
  exact (snd (fst r)) na nb da db /\ exact (snd (snd r)) na nb da db /\ fst (fst r) = false /\ fst (snd r) = false.
Definition tie_fact (a : value) : Prop := forall b, v_eqb a b = true -> tie (k_cmp a b) (doubled a) (doubled b) (nest a) (nest b).

Lemma feq_not_lt : forall f g, SFeqb f g = true -> SFltb f g = false /\ SFltb g f = false.
Proof. intros f g. unfold SFeqb, SFltb. rewrite (fcmp_sym f g). destruct (SFcompare f g) as [[]|]; intro H; try discriminate H; split; reflexivity. Qed.
Lemma key_eq_not_lt : forall k k', str_eqb k k' = true -> str_ltb k k' = false /\ str_ltb k' k = false.
Proof. intros k k' E. apply str_eqb_iff in E. subst k'. split; apply str_ltb_false, key_lt_irrefl. Qed.
Lemma leaf_tie : forall a b, v_eqb a b = true -> (forall l l', (a, b) <> (VArr l, VArr l')) -> (forall m m', (a, b) <> (VObj m, VObj m')) ->
  v_cmp a b = (false, false) /\ doubled a = 1 /\ doubled b = 1 /\ nest a = 1 /\ nest b = 1.
Proof.
  intros a b E A O. destruct a, b; try discriminate E; try (exfalso; eapply A; reflexivity); try (exfalso; eapply O; reflexivity);
    (split; [|repeat split; reflexivity]); cbn [v_cmp v_eqb] in *; try reflexivity.
  - apply Z.eqb_eq in E. subst. rewrite Z.ltb_irrefl. reflexivity.
  - destruct (feq_not_lt _ _ E) as [-> ->]. reflexivity.
  - destruct (feq_not_lt _ _ E) as [-> ->]. reflexivity.
  - destruct (feq_not_lt _ _ E) as [-> ->]. reflexivity.
  - destruct (key_eq_not_lt _ _ E) as [-> ->]. reflexivity.
  - apply Bool.eqb_prop in E. subst. destruct b; reflexivity.
Qed.
Ltac leaf3 := intros; let y := fresh "y" in let E := fresh "E" in intros y E;
  destruct (leaf_tie _ _ E ltac:(intros; discriminate) ltac:(intros; discriminate)) as (V & ? & ? & ? & ?);
  rewrite k_cmp_leaf, V by (intros; discriminate); repeat split; cbn [fst snd] in *; congruence.

Theorem tie_calls : forall a, tie_fact a.
Proof.
  apply (value_rect2 tie_fact); try (leaf3; fail).
  - intros l F b E. destruct b as [| | | |l'| |]; try discriminate E. rewrite v_eqb_arr in E. rewrite k_cmp_arr.
    assert (T : tie (cmp_l l l') (2 * lsum doubled l) (2 * lsum doubled l') (lmax nest l) (lmax nest l')).
    { revert l' E. induction F as [|x l Fx F IH]; intros [|y l'] E; try discriminate E; [repeat split; reflexivity|].
      cbn [veq_l] in E. fold veq_l in E. apply andb_true_iff in E. destruct E as [E1 E2]. specialize (IH l' E2). specialize (Fx y E1). unfold tie, exact in *.
      cbn [cmp_l map list_sum list_max fold_right]. fold cmp_l.
      destruct (k_cmp x y) as [[p [p1 p2]] [q [q1 q2]]]. destruct (cmp_l l l') as [[r [r1 r2]] [s [s1 s2]]].
      cbn [fst snd] in *. destruct Fx as (? & ? & -> & ->). destruct IH as (? & ? & -> & ->).
      fold (lsum doubled l) (lsum doubled l') (lmax nest l) (lmax nest l').
      unfold ask. cbn [fst snd and_then]. repeat split; try reflexivity; lia. }
    unfold tie, exact in *. cbn [fst snd call_lt one_call doubled nest]. destruct T as (T1 & T2 & T3 & T4). repeat split; try assumption; lia.
  - intros l F b E. destruct b as [| | | | |l'|]; try discriminate E. rewrite v_eqb_obj in E. rewrite k_cmp_obj.
    assert (T : tie (cmp_m l l') (2 * lsum doubled2 l) (2 * lsum doubled2 l') (lmax nest2 l) (lmax nest2 l')).
    { revert l' E. induction F as [|[k x] l Fx F IH]; intros [|[k' y] l'] E; try discriminate E; [repeat split; reflexivity|].
      cbn [veq_m] in E. fold veq_m in E. apply andb_true_iff in E. destruct E as [E1 E2]. apply andb_true_iff in E1. destruct E1 as [K E1].
      cbn [snd] in Fx. specialize (IH l' E2). specialize (Fx y E1). unfold tie, exact in *.
      cbn [cmp_m map list_sum list_max fold_right]. fold cmp_m.
      destruct (k_cmp x y) as [[p [p1 p2]] [q [q1 q2]]]. destruct (cmp_m l l') as [[r [r1 r2]] [s [s1 s2]]].
      cbn [fst snd] in *. destruct Fx as (? & ? & -> & ->). destruct IH as (? & ? & -> & ->).
      fold (lsum doubled2 l) (lsum doubled2 l') (lmax nest2 l) (lmax nest2 l').
      unfold ask, pair_lt. destruct (key_eq_not_lt _ _ K) as [-> ->]. cbn [fst snd and_then]. repeat split; try reflexivity; lia. }
    unfold tie, exact in *. cbn [fst snd call_lt one_call doubled nest]. destruct T as (T1 & T2 & T3 & T4). repeat split; try assumption; lia.
Qed.

(** ** The statements *)

Theorem eq_cost : forall a b,
  fst (k_eq a b) = v_eqb a b /\
  fst (snd (k_eq a b)) <= Nat.min (nodes a) (nodes b) /\ snd (snd (k_eq a b)) <= Nat.min (nest a) (nest b) /\
  (v_eqb a b = true -> snd (k_eq a b) = (nodes a, nest a)).
Proof.
  intros a b. destruct (eq_calls a b) as (A & (B1 & B2 & B3 & B4) & C). repeat split; try assumption; try lia.
  intro E. destruct (C E) as (E1 & _ & E2 & _). rewrite (surjective_pairing (snd (k_eq a b))), E1, E2. reflexivity.
Qed.
Theorem lt_cost : forall a b,
  fst (k_lt a b) = v_ltb a b /\
  fst (snd (k_lt a b)) <= Nat.min (doubled a) (doubled b) /\ snd (snd (k_lt a b)) <= Nat.min (nest a) (nest b) /\
  (v_eqb a b = true -> snd (k_lt a b) = (doubled a, nest a)).
Proof.
  intros a b. unfold k_lt, v_ltb. destruct (lt_calls a b) as (A & _ & (B1 & B2 & B3 & B4) & _). repeat split; try assumption; try lia.
  intro E. destruct (tie_calls a b E) as ((E1 & _ & E2 & _) & _). rewrite (surjective_pairing (snd (fst (k_cmp a b)))), E1, E2. reflexivity.
Qed.

(** between the number of values and that number times a power of two *)
Lemma sum_le : forall A (f g : A -> nat) l, Forall (fun x => f x <= g x) l -> lsum f l <= lsum g l.
Proof. intros A f g l F. induction F as [|x l Fx F IH]; cbn [map list_sum fold_right]; [apply le_n|]. fold (lsum f l) (lsum g l). lia. Qed.
Lemma max_in : forall A (f : A -> nat) l x, In x l -> f x <= lmax f l.
Proof. intros A f l x. induction l as [|y l IH]; [intros []|]. cbn [map list_max fold_right]. fold (lmax f l). intros [->|I]; [lia|]. specialize (IH I). lia. Qed.
Lemma sum_scale : forall A (f : A -> nat) c l, lsum (fun x => c * f x) l = c * lsum f l.
Proof. intros A f c l. induction l as [|x l IH]; cbn [map list_sum fold_right]; [lia|]. fold (lsum f l) (lsum (fun x => c * f x) l). lia. Qed.
Lemma doubled_arr : forall A (f nd lv : A -> nat) l, Forall (fun x => nd x <= f x /\ f x <= nd x * 2 ^ lv x) l ->
  S (lsum nd l) <= S (2 * lsum f l) /\ S (2 * lsum f l) <= S (lsum nd l) * 2 ^ S (lmax lv l).
Proof.
  intros A f nd lv l F. assert (N : lsum nd l <= lsum f l) by (apply sum_le; eapply Forall_impl; [|exact F]; intros x [X _]; exact X).
  split; [lia|]. assert (B : lsum f l <= 2 ^ lmax lv l * lsum nd l).
  { rewrite <- sum_scale. apply sum_le. rewrite Forall_forall in *. intros x I. destruct (F x I) as [_ X].
    pose proof (max_in A lv l x I) as M. apply (Nat.pow_le_mono_r 2) in M; [|lia]. nia. }
  pose proof (Nat.pow_nonzero 2 (lmax lv l)). rewrite Nat.pow_succ_r'. nia.
Qed.
Theorem doubled_bounds : forall v, nodes v <= doubled v /\ doubled v <= nodes v * 2 ^ levels v.
Proof.
  apply (value_rect2 (fun v => nodes v <= doubled v /\ doubled v <= nodes v * 2 ^ levels v)); try (intros; split; apply le_n).
  - intros l F. exact (doubled_arr value doubled nodes levels l F).
  - intros m F. exact (doubled_arr (str * value) doubled2 nodes2 (fun kv => levels (snd kv)) m F).
Qed.
Lemma tower_eq : forall n, v_eqb (tower n) (tower n) = true.
Proof. induction n as [|n IH]; [reflexivity|]. cbn [tower v_eqb]. rewrite IH. reflexivity. Qed.
Lemma tower_sizes : forall n, nodes (tower n) = S n /\ nest (tower n) = S n /\ levels (tower n) = S n /\ doubled (tower n) = 2 ^ S n - 1.
Proof.
  induction n as [|n (A & B & C & D)]; [repeat split|]. cbn [tower nodes nest levels doubled map list_sum list_max fold_right].
  rewrite A, B, C, D. rewrite (Nat.pow_succ_r' 2 (S n)). pose proof (Nat.pow_nonzero 2 (S n)). lia.
Qed.
Theorem tower_calls : forall n, snd (k_eq (tower n) (tower n)) = (S n, S n) /\ snd (k_lt (tower n) (tower n)) = (2 ^ S n - 1, S n).
Proof.
  intro n. destruct (tower_sizes n) as (A & B & _ & D). destruct (eq_cost (tower n) (tower n)) as (_ & _ & _ & E).
  destruct (lt_cost (tower n) (tower n)) as (_ & _ & _ & L). rewrite E, L by apply tower_eq. rewrite A, B, D. split; reflexivity.
Qed.
