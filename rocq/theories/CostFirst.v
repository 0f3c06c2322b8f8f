(** Comparisons stop at the first difference. *)
From Coq Require Import Lia ZifyBool ZifyNat ZifyN Floats.SpecFloat.
From Verif Require Import Base Stream Encoding Value Token Message Parser Serializer Compare ObjFacts CompareProofs DumpText Cost SpecCost CostCompare.
Open Scope nat_scope.

Lemma f2_len : forall A B (R : A -> B -> Prop) l l', Forall2 R l l' -> length l = length l'.
Proof. intros A B R l l' H. induction H; cbn; congruence. Qed.
Notation same_value := (fun x y : value => v_eqb x y = true).
Notation same_member := (fun p q : str * value => fst p = fst q /\ v_eqb (snd p) (snd q) = true).
Notation calls_eq a b := (fst (snd (k_eq a b))).
Notation calls_lt a b := (fst (snd (k_lt a b))).

Lemma eq_nodes : forall a b, v_eqb a b = true -> k_eq a b = (true, (nodes a, nest a)).
Proof. intros a b E. destruct (eq_cost a b) as (A & _ & _ & C). rewrite (surjective_pairing (k_eq a b)), A, E, (C E). reflexivity. Qed.

Lemma eq_l_first : forall p p' x x' q q', Forall2 same_value p p' -> v_eqb x x' = false ->
  fst (snd (eq_l (p ++ x :: q) (p' ++ x' :: q'))) = lsum nodes p + calls_eq x x'.
Proof.
  intros p p' x x' q q' F D. induction F as [|y y' p p' E F IH]; cbn [app map list_sum fold_right].
  - cbn [eq_l]. destruct (eq_cost x x') as (A & _). rewrite D in A. destruct (k_eq x x') as [r n]. cbn [fst snd] in *. subst r. reflexivity.
  - cbn [eq_l]. fold eq_l. rewrite (eq_nodes y y' E). destruct (eq_l (p ++ x :: q) (p' ++ x' :: q')) as [r n]. cbn [fst snd and_then] in *. rewrite IH.
    fold (lsum nodes p). lia.
Qed.
Lemma eq_m_first : forall p p' k x k' x' q q', Forall2 same_member p p' -> (k = k' -> v_eqb x x' = false) ->
  fst (snd (eq_m (p ++ (k, x) :: q) (p' ++ (k', x') :: q'))) = lsum nodes2 p + (if str_eqb k k' then calls_eq x x' else 0).
Proof.
  intros p p' k x k' x' q q' F D. induction F as [|[y0 y] [y0' y'] p p' [E0 E] F IH]; cbn [app map list_sum fold_right].
  - cbn [eq_m]. destruct (str_eqb k k') eqn:K; [|reflexivity]. apply str_eqb_iff in K. specialize (D K). destruct (eq_cost x x') as (A & _). rewrite D in A.
    destruct (k_eq x x') as [r n]. cbn [fst snd] in *. subst r. reflexivity.
  - cbn [fst snd] in *. subst y0'. cbn [eq_m]. fold eq_m. rewrite str_eqb_refl, (eq_nodes y y' E).
    destruct (eq_m (p ++ (k, x) :: q) (p' ++ (k', x') :: q')) as [r n]. cbn [fst snd and_then] in *. rewrite IH. fold (lsum nodes2 p). lia.
Qed.

Lemma eq_first_array : forall p p' x x' q q', Forall2 same_value p p' -> v_eqb x x' = false -> length q = length q' ->
  calls_eq (VArr (p ++ x :: q)) (VArr (p' ++ x' :: q')) = S (list_sum (map nodes p) + calls_eq x x').
Proof.
  intros p p' x x' q q' F D L. rewrite k_eq_arr. replace (length (p ++ x :: q) =? length (p' ++ x' :: q')) with true.
  2:{ apply f2_len in F. rewrite !app_length. cbn [length]. lia. }
  pose proof (eq_l_first p p' x x' q q' F D) as X. destruct (eq_l _ _) as [r n]. cbn [fst snd one_call] in *. rewrite X. reflexivity.
Qed.
Lemma eq_first_object : forall p p' k x k' x' q q', Forall2 same_member p p' -> (k = k' -> v_eqb x x' = false) -> length q = length q' ->
  calls_eq (VObj (p ++ (k, x) :: q)) (VObj (p' ++ (k', x') :: q')) =
    S (list_sum (map (fun kv => nodes (snd kv)) p) + (if str_eqb k k' then calls_eq x x' else 0)).
Proof.
  intros p p' k x k' x' q q' F D L. rewrite k_eq_obj. replace (length (p ++ (k, x) :: q) =? length (p' ++ (k', x') :: q')) with true.
  2:{ apply f2_len in F. rewrite !app_length. cbn [length]. lia. }
  pose proof (eq_m_first p p' k x k' x' q q' F D) as X. destruct (eq_m _ _) as [r n]. cbn [fst snd one_call] in *. rewrite X. reflexivity.
Qed.
Lemma eq_once : forall a b, match a, b with
  | VArr l, VArr l' => length l <> length l'
  | VObj m, VObj m' => length m <> length m'
  | _, _ => True
  end -> snd (k_eq a b) = (1, 1).
Proof.
  intros a b H. destruct a, b; try reflexivity; [rewrite k_eq_arr|rewrite k_eq_obj]; (replace (_ =? _) with false by lia); reflexivity.
Qed.

(** ** operator< *)
Lemma cmp_tie : forall a b, v_eqb a b = true -> exists c, k_cmp a b = ((false, (doubled a, c)), (false, (doubled a, c))).
Proof.
  intros a b E. destruct (tie_calls a b E) as ((A1 & _ & A2 & _) & (B1 & _ & B2 & _) & C & D). exists (nest a).
  destruct (k_cmp a b) as [[r [n m]] [r' [n' m']]]. cbn [fst snd] in *. subst. reflexivity.
Qed.
Lemma cmp_swap : forall a b, k_cmp b a = (snd (k_cmp a b), fst (k_cmp a b)).
Proof.
  intro a. induction a as [|z|f|s|b0|l IH|m IH] using value_rect2; intro b.
  6:{ destruct b as [| | | |l'| |]; try (rewrite !k_cmp_leaf by (intros; discriminate); cbn; reflexivity).
    rewrite !k_cmp_arr. assert (E : cmp_l l' l = (snd (cmp_l l l'), fst (cmp_l l l'))).
    { revert l'. induction IH as [|x l H IH IHl]; intros [|y l']; try reflexivity. cbn [cmp_l]. fold cmp_l. rewrite (H y), (IHl l').
      destruct (k_cmp x y), (cmp_l l l'). reflexivity. }
    rewrite E. reflexivity. }
  6:{ destruct b as [| | | | |l'|]; try (rewrite !k_cmp_leaf by (intros; discriminate); cbn; reflexivity).
    rewrite !k_cmp_obj. assert (E : cmp_m l' m = (snd (cmp_m m l'), fst (cmp_m m l'))).
    { revert l'. induction IH as [|[k x] l H IH IHl]; intros [|[k' y] l']; try reflexivity. cbn [cmp_m]. fold cmp_m. cbn [snd] in H. rewrite (H y), (IHl l').
      destruct (k_cmp x y), (cmp_m l l'). reflexivity. }
    rewrite E. reflexivity. }
  all: rewrite !k_cmp_leaf by (intros; discriminate); destruct b; cbn [v_cmp fst snd]; reflexivity.
Qed.
Lemma lt_swap : forall a b, snd (k_cmp a b) = k_lt b a.
Proof. intros. unfold k_lt. rewrite (cmp_swap a b). reflexivity. Qed.
Lemma lt_val : forall a b, fst (k_lt a b) = v_ltb a b.
Proof. intros. apply lt_cost. Qed.

(** what deciding between x and x' takes *)
Definition decide_lt (x x' : value) : nat := calls_lt x x' + (if v_ltb x x' then 0 else calls_lt x' x).

Lemma cmp_l_first : forall p p' x x' q q', Forall2 same_value p p' -> v_ltb x x' = true \/ v_ltb x' x = true ->
  fst (snd (fst (cmp_l (p ++ x :: q) (p' ++ x' :: q')))) = 2 * lsum doubled p + decide_lt x x'.
Proof.
  intros p p' x x' q q' F D. induction F as [|y y' p p' E F IH]; cbn [app map list_sum fold_right].
  - cbn [cmp_l]. fold cmp_l. unfold decide_lt. pose proof (lt_val x x') as A. pose proof (lt_val x' x) as B.
    rewrite <- (lt_swap x x') in B |- *. unfold k_lt in *. destruct (k_cmp x x') as [[r n] [r' n']]. destruct (cmp_l q q') as [c c']. cbn [fst snd] in *.
    subst r r'. unfold ask. cbn [fst snd]. destruct (v_ltb x x'); cbn [fst snd]; [lia|]. destruct D as [D|D]; [discriminate|]. rewrite D. cbn [fst snd and_then]. lia.
  - cbn [cmp_l]. fold cmp_l. destruct (cmp_tie y y' E) as [c ->]. destruct (cmp_l (p ++ x :: q) (p' ++ x' :: q')) as [[r n] g]. unfold ask. cbn [fst snd and_then] in *.
    rewrite IH. fold (lsum doubled p). lia.
Qed.
Lemma cmp_m_first : forall p p' k x k' x' q q', Forall2 same_member p p' -> (k = k' -> v_ltb x x' = true \/ v_ltb x' x = true) ->
  fst (snd (fst (cmp_m (p ++ (k, x) :: q) (p' ++ (k', x') :: q')))) = 2 * lsum doubled2 p + (if str_eqb k k' then decide_lt x x' else 0).
Proof.
  intros p p' k x k' x' q q' F D. induction F as [|[y0 y] [y0' y'] p p' [E0 E] F IH]; cbn [app map list_sum fold_right].
  - cbn [cmp_m]. fold cmp_m. destruct (str_eqb k k') eqn:K.
    + apply str_eqb_iff in K. specialize (D K). subst k'. unfold decide_lt. pose proof (lt_val x x') as A. pose proof (lt_val x' x) as B.
      assert (Kk : str_ltb k k = false) by (apply str_ltb_false, key_lt_irrefl).
      rewrite <- (lt_swap x x') in B |- *. unfold k_lt in *. destruct (k_cmp x x') as [[r n] [r' n']]. destruct (cmp_m q q') as [c c']. cbn [fst snd] in *.
      subst r r'. unfold ask, pair_lt. rewrite Kk. cbn [fst snd]. destruct (v_ltb x x'); cbn [fst snd]; [lia|]. destruct D as [D|D]; [discriminate|]. rewrite D. cbn [fst snd and_then]. lia.
    + destruct (k_cmp x x') as [[r n] [r' n']]. destruct (cmp_m q q') as [c c']. unfold ask, pair_lt. cbn [fst snd].
      destruct (str_ltb k k') eqn:L; [reflexivity|]. destruct (str_ltb k' k) eqn:L2; [reflexivity|].
      exfalso. apply str_ltb_false in L. apply str_ltb_false in L2. destruct (key_lt_trich k k') as [X|[X|X]]; try contradiction. subst. rewrite str_eqb_refl in K. discriminate.
  - cbn [fst snd] in *. subst y0'. cbn [cmp_m]. fold cmp_m. destruct (cmp_tie y y' E) as [c ->].
    assert (Kk : str_ltb y0 y0 = false) by (apply str_ltb_false, key_lt_irrefl).
    destruct (cmp_m (p ++ (k, x) :: q) (p' ++ (k', x') :: q')) as [[r n] g]. unfold ask, pair_lt. rewrite Kk. cbn [fst snd and_then] in *.
    rewrite IH. fold (lsum doubled2 p). lia.
Qed.

Lemma lt_first_array : forall p p' x x' q q', Forall2 same_value p p' -> v_ltb x x' = true \/ v_ltb x' x = true ->
  calls_lt (VArr (p ++ x :: q)) (VArr (p' ++ x' :: q')) =
    S (2 * list_sum (map doubled p) + calls_lt x x' + (if v_ltb x x' then 0 else calls_lt x' x)).
Proof.
  intros p p' x x' q q' F D. unfold k_lt at 1. rewrite k_cmp_arr. cbn [fst snd call_lt one_call]. rewrite (cmp_l_first p p' x x' q q' F D).
  unfold decide_lt. lia.
Qed.
Lemma lt_first_object : forall p p' k x k' x' q q', Forall2 same_member p p' -> (k = k' -> v_ltb x x' = true \/ v_ltb x' x = true) ->
  calls_lt (VObj (p ++ (k, x) :: q)) (VObj (p' ++ (k', x') :: q')) =
    S (2 * list_sum (map (fun kv => doubled (snd kv)) p) +
       (if str_eqb k k' then calls_lt x x' + (if v_ltb x x' then 0 else calls_lt x' x) else 0)).
Proof.
  intros p p' k x k' x' q q' F D. unfold k_lt at 1. rewrite k_cmp_obj. cbn [fst snd call_lt one_call]. rewrite (cmp_m_first p p' k x k' x' q q' F D).
  unfold decide_lt. lia.
Qed.
Lemma lt_once : forall a b, match a, b with
  | VArr l, VArr l' => l = [] \/ l' = []
  | VObj m, VObj m' => m = [] \/ m' = []
  | _, _ => True
  end -> snd (k_lt a b) = (1, 1).
Proof.
  assert (L : forall l l', l = [] \/ l' = [] -> snd (fst (cmp_l l l')) = (0, 0)) by (intros l l' [-> | ->]; [destruct l'|destruct l]; reflexivity).
  assert (M : forall l l', l = [] \/ l' = [] -> snd (fst (cmp_m l l')) = (0, 0)) by (intros l l' [-> | ->]; [destruct l'|destruct l as [|[]]]; reflexivity).
  intros a b H. unfold k_lt. destruct a, b; try (rewrite k_cmp_leaf by (intros; discriminate); reflexivity).
  - rewrite k_cmp_arr. cbn [fst snd call_lt]. rewrite L by assumption. reflexivity.
  - rewrite k_cmp_obj. cbn [fst snd call_lt]. rewrite M by assumption. reflexivity.
Qed.
(** a proper beginning is compared to its end *)
Lemma lt_shorter : forall p p' q, Forall2 same_value p p' ->
  calls_lt (VArr p) (VArr (p' ++ q)) = S (2 * list_sum (map doubled p)) /\ calls_lt (VArr (p' ++ q)) (VArr p) = S (2 * list_sum (map doubled p)).
Proof.
  intros p p' q F. unfold k_lt. rewrite !k_cmp_arr. cbn [fst snd call_lt one_call].
  assert (E : fst (snd (fst (cmp_l p (p' ++ q)))) = 2 * lsum doubled p /\ fst (snd (fst (cmp_l (p' ++ q) p))) = 2 * lsum doubled p).
  { induction F as [|y y' p p' E F [I1 I2]]; cbn [app map list_sum fold_right].
    - destruct q; split; reflexivity.
    - cbn [cmp_l]. fold cmp_l. destruct (cmp_tie y y' E) as [c T]. rewrite (cmp_swap y y'), T.
      destruct (cmp_l p (p' ++ q)) as [[r n] g]. destruct (cmp_l (p' ++ q) p) as [[r' n'] g']. unfold ask. cbn [fst snd and_then] in *.
      fold (lsum doubled p). lia. }
  destruct E as [-> ->]. split; reflexivity.
Qed.
