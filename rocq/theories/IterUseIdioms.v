(** Loops that change the value they walk over. *)
From Coq Require Import ZArith Lia.
From Verif Require Import Base Value ValueOps SpecGrammar SpecIter ObjFacts ValueProofs HeapPaths IterUse SpecIterUse IterUseProofs IterUseMain IterUseWalk IterUseLoops.
Open Scope N_scope.

Definition kept_obj (p : option str * value -> bool) (m : nmap) : nmap := filter (fun q => negb (p (Some (fst q), snd (snd q)))) m.
Definition kept_arr (p : option str * value -> bool) (l : list value) : list value := filter (fun x => negb (p (None, x))) l.
Lemma elems_kept_obj : forall p m, elems_obj (kept_obj p m) = filter (fun e => negb (p e)) (elems_obj m).
Proof. intros p m. induction m as [|q m IH]; [reflexivity|]. unfold elems_obj, kept_obj in *. cbn [map filter]. destruct (p (Some (fst q), snd (snd q))); cbn [negb map]; rewrite IH; reflexivity. Qed.
Lemma elems_kept_arr : forall p l, elems_arr (kept_arr p l) = filter (fun e => negb (p e)) (elems_arr l).
Proof. intros p l. induction l as [|q m IH]; [reflexivity|]. unfold elems_arr, kept_arr in *. cbn [map filter]. destruct (p (None, q)); cbn [negb map]; rewrite IH; reflexivity. Qed.

(** an iterator at the first of m2, in m1 ++ m2 *)
Definition pointing (u : uit) (c : nat) (m2 : nmap) : Prop := u_obj u = Some (c, first m2).

Lemma pointing_eq : forall u c m1 m2, sorted (m1 ++ m2) -> pointing u c m2 ->
  u_eq u (u_end (BObj c (m1 ++ m2))) (BObj c (m1 ++ m2)) = Ret (match m2 with [] => true | _ => false end).
Proof.
  intros u c m1 m2 S P. cbn [u_eq u_end]. destruct m2 as [|[k [n x]] m2]; cbn in P.
  - rewrite (use_obj_end _ _ _ P), (use_obj_end (with_obj u_none (c, None)) c _ eq_refl). reflexivity.
  - rewrite (use_obj_at _ _ _ _ n x P (find_mid _ _ _ _ _ (not_before _ _ _ _ _ S))), (use_obj_end (with_obj u_none (c, None)) c _ eq_refl). reflexivity.
Qed.
Lemma pointing_entry : forall u c m1 k n x m2, sorted (m1 ++ (k, (n, x)) :: m2) -> pointing u c ((k, (n, x)) :: m2) ->
  use_obj u c (m1 ++ (k, (n, x)) :: m2) = Ret (Some ((k, n), x)) /\ u_entry u (BObj c (m1 ++ (k, (n, x)) :: m2)) = Ret (Some k, x).
Proof.
  intros u c m1 k n x m2 S P. assert (E := use_obj_at u c _ k n x P (find_mid _ _ _ m1 m2 (not_before _ _ _ _ _ S))).
  split; [exact E|]. cbn [u_entry]. rewrite E. reflexivity.
Qed.

Lemma erase_if_obj : forall p c m2 m1 n u fuel, sorted (m1 ++ m2) -> pointing u c m2 -> (length m2 < fuel)%nat ->
  erase_if p fuel u (mkI (BObj c (m1 ++ m2)) n) = (mkI (BObj c (m1 ++ kept_obj p m2)) n, Ret tt).
Proof.
  intros p c. induction m2 as [|[k [i x]] m2 IH]; intros m1 n u fuel S P L; (destruct fuel as [|fuel]; [cbn in L; lia|]); cbn [erase_if i_body].
  - rewrite (pointing_eq _ _ _ _ S P). reflexivity.
  - rewrite (pointing_eq _ _ _ _ S P). destruct (pointing_entry _ _ _ _ _ _ _ S P) as [E1 E2]. rewrite E2. cbn [kept_obj filter fst snd]. cbn [length] in L.
    assert (N := not_before _ _ _ _ _ S). destruct (sorted_mid _ _ _ _ _ S) as (_ & _ & _ & S12).
    destruct (p (Some k, x)) eqn:Px; cbn [negb].
    + cbn [u_step i_body i_next]. rewrite E1. cbn [fst]. rewrite erase_mid, after_mid by exact N. apply IH; [exact S12|reflexivity|lia].
    + cbn [u_incr]. rewrite E1. cbn [bind fst]. rewrite after_mid by exact N.
      change (m1 ++ (k, (i, x)) :: filter (fun q => negb (p (Some (fst q), snd (snd q)))) m2) with (m1 ++ [(k, (i, x))] ++ kept_obj p m2).
      change (m1 ++ (k, (i, x)) :: m2) with (m1 ++ [(k, (i, x))] ++ m2) in *. rewrite app_assoc. rewrite app_assoc in S. rewrite (app_assoc m1 [(k, (i, x))] (kept_obj p m2)).
      apply IH; [exact S|reflexivity|lia].
Qed.

Lemma erase_post_obj : forall p c m2 m1 n u fuel, sorted (m1 ++ m2) -> pointing u c m2 -> (length m2 < fuel)%nat ->
  erase_post p fuel u (mkI (BObj c (m1 ++ m2)) n) = (mkI (BObj c (m1 ++ kept_obj p m2)) n, Ret tt).
Proof.
  intros p c. induction m2 as [|[k [i x]] m2 IH]; intros m1 n u fuel S P L; (destruct fuel as [|fuel]; [cbn in L; lia|]); cbn [erase_post i_body].
  - rewrite (pointing_eq _ _ _ _ S P). reflexivity.
  - rewrite (pointing_eq _ _ _ _ S P). destruct (pointing_entry _ _ _ _ _ _ _ S P) as [E1 E2]. rewrite E2. cbn [kept_obj filter fst snd]. cbn [length] in L.
    assert (N := not_before _ _ _ _ _ S). destruct (sorted_mid _ _ _ _ _ S) as (_ & _ & _ & S12).
    cbn [u_incr]. rewrite E1. cbn [bind fst]. rewrite after_mid by exact N.
    destruct (p (Some k, x)) eqn:Px; cbn [negb].
    + cbn [u_step i_body i_next]. rewrite E1. cbn [fst]. rewrite erase_mid by exact N. apply IH; [exact S12|reflexivity|lia].
    + change (m1 ++ (k, (i, x)) :: filter (fun q => negb (p (Some (fst q), snd (snd q)))) m2) with (m1 ++ [(k, (i, x))] ++ kept_obj p m2).
      change (m1 ++ (k, (i, x)) :: m2) with (m1 ++ [(k, (i, x))] ++ m2) in *. rewrite app_assoc. rewrite app_assoc in S. rewrite (app_assoc m1 [(k, (i, x))] (kept_obj p m2)).
      apply IH; [exact S|reflexivity|lia].
Qed.

Lemma arr_eq : forall u g l1 l2, u_arr u = Some (g, length l1) ->
  u_eq u (u_end (BArr g (l1 ++ l2))) (BArr g (l1 ++ l2)) = Ret (match l2 with [] => true | _ => false end).
Proof.
  intros u g l1 l2 U. cbn [u_eq u_end]. rewrite (use_arr_at _ _ _ _ U) by (rewrite app_length; lia).
  rewrite (use_arr_at (with_arr u_none (g, length (l1 ++ l2))) g _ _ eq_refl) by lia. cbn [bind]. rewrite app_length.
  destruct l2; cbn [length]; f_equal; [apply Nat.eqb_eq; lia|apply Nat.eqb_neq; lia].
Qed.
Lemma arr_entry : forall u g l1 x l2, u_arr u = Some (g, length l1) ->
  use_arr u g (length (l1 ++ x :: l2)) = Ret (length l1) /\ u_entry u (BArr g (l1 ++ x :: l2)) = Ret (None, x) /\
  Nat.ltb (length l1) (length (l1 ++ x :: l2)) = true.
Proof.
  intros u g l1 x l2 U. assert (E : use_arr u g (length (l1 ++ x :: l2)) = Ret (length l1)) by (apply use_arr_at; [exact U|rewrite app_length; lia]).
  split; [exact E|]. split; [|apply Nat.ltb_lt; rewrite app_length; cbn; lia]. cbn [u_entry]. rewrite E. cbn [bind]. rewrite nth_mid. reflexivity.
Qed.

Lemma erase_if_arr : forall p l2 l1 g n u fuel, (g < n)%nat -> u_arr u = Some (g, length l1) -> (length l2 < fuel)%nat ->
  exists g' n', erase_if p fuel u (mkI (BArr g (l1 ++ l2)) n) = (mkI (BArr g' (l1 ++ kept_arr p l2)) n', Ret tt) /\ (g' < n')%nat.
Proof.
  intros p. induction l2 as [|x l2 IH]; intros l1 g n u fuel G U L; (destruct fuel as [|fuel]; [cbn in L; lia|]); cbn [erase_if i_body].
  - rewrite (arr_eq _ _ _ _ U). exists g, n. split; [reflexivity|exact G].
  - rewrite (arr_eq _ _ _ _ U). destruct (arr_entry u g l1 x l2 U) as (E1 & E2 & E3). rewrite E2. cbn [kept_arr filter]. cbn [length] in L.
    destruct (p (None, x)) eqn:Px; cbn [negb].
    + cbn [u_step i_body i_next]. rewrite E1, E3, remove_mid. apply IH; [lia|reflexivity|lia].
    + cbn [u_incr]. rewrite E1. cbn [bind]. rewrite E3.
      change (l1 ++ x :: filter (fun y => negb (p (None, y))) l2) with (l1 ++ [x] ++ kept_arr p l2). change (l1 ++ x :: l2) with (l1 ++ [x] ++ l2).
      rewrite !app_assoc. apply IH; [exact G| |lia]. cbn. rewrite app_length. cbn. f_equal. f_equal. lia.
Qed.

Lemma erase_post_arr : forall p l2 l1 g n u fuel, (g < n)%nat -> u_arr u = Some (g, length l1) -> (length l2 < fuel)%nat -> existsb (fun x => p (None, x)) l2 = true ->
  snd (erase_post p fuel u (mkI (BArr g (l1 ++ l2)) n)) = UB.
Proof.
  intros p. induction l2 as [|x l2 IH]; intros l1 g n u fuel G U L X; [discriminate|]. destruct fuel as [|fuel]; [cbn in L; lia|]. cbn [erase_post i_body].
  rewrite (arr_eq _ _ _ _ U). destruct (arr_entry u g l1 x l2 U) as (E1 & E2 & E3). rewrite E2. cbn [length] in L. cbn [existsb] in X.
  cbn [u_incr]. rewrite E1. cbn [bind]. rewrite E3.
  destruct (p (None, x)) eqn:Px; cbn [negb orb] in *.
  - cbn [u_step i_body i_next]. rewrite E1, E3. destruct fuel as [|fuel]; [lia|]. cbn [erase_post i_body u_eq].
    destruct (use_arr_cases (with_arr u (g, S (length l1))) n (length (remove_nth (length l1) (l1 ++ x :: l2)))) as [(j & _ & V & _)|[V _]].
    + cbn in V. injection V as V _. lia.
    + rewrite V. reflexivity.
  - change (l1 ++ x :: l2) with (l1 ++ [x] ++ l2). rewrite app_assoc.
    apply IH; [exact G| |lia|exact X].
    cbn. rewrite app_length. cbn. f_equal. f_equal. lia.
Qed.

(** ** as stated *)
Lemma filter_in : forall (p : option str * value -> bool) (m : nmap) k q, In (k, q) (kept_obj p m) -> In (k, q) m.
Proof. intros p m k q H. apply filter_In in H. exact (proj1 H). Qed.
Lemma kept_sorted : forall p m, sorted m -> sorted (kept_obj p m).
Proof.
  intros p m S. induction S as [|k q m F S IH]; cbn; [constructor|]. destruct (negb _); [|exact IH]. constructor; [|exact IH].
  rewrite Forall_forall in *. intros e He. apply F. apply filter_In in He. exact (proj1 He).
Qed.
Lemma kept_stands : forall p c m u s, sorted m -> stands u (BObj c m) s -> (forall k, s = At k -> In k (map fst (kept_obj p m))) -> stands u (BObj c (kept_obj p m)) s.
Proof.
  intros p c m u s S P H. destruct s as [i|k|]; cbn in *; [contradiction| |exact P]. destruct P as (n & x & F & U). exists n, x. split; [|exact U].
  specialize (H k eq_refl). apply in_map_iff in H. destruct H as ([k0 q] & E & H). cbn in E. subst k0. apply find_in; [apply kept_sorted, S|].
  assert (Hq := filter_in _ _ _ _ H). apply (find_in _ _ _ _ S) in Hq. congruence.
Qed.

Lemma elements_same : forall v es es', elements v es -> elements v es' -> es = es'.
Proof. intros v es es' H1 H2. inversion H1; subst; inversion H2; subst; try reflexivity; congruence. Qed.

Theorem erase_if_all : forall p st es fuel, ok st -> container (view (i_body st)) -> elements (view (i_body st)) es -> (length es < fuel)%nat ->
  exists st', erase_if p fuel (u_begin (i_body st)) st = (st', Ret tt) /\ ok st' /\
    type_of (view (i_body st')) = type_of (view (i_body st)) /\ elements (view (i_body st')) (filter (fun e => negb (p e)) es) /\
    (forall u s, (forall i, s <> Pos i) -> stands u (i_body st) s -> (forall k, s = At k -> In k (members (i_body st'))) -> stands u (i_body st') s).
Proof.
  intros p [b n] es fuel K C He L. cbn [i_body] in *. unfold ok in K. destruct b as [v|g l|c m]; cbn [i_body i_next] in K; [contradiction| |].
  - rewrite (elements_same _ _ _ He (elements_arr l)) in *. unfold elems_arr in L. rewrite map_length in L.
    destruct (erase_if_arr p l [] g n (u_begin (BArr g l)) fuel K eq_refl L) as (g' & n' & E & G). exists (mkI (BArr g' (kept_arr p l)) n').
    split; [exact E|]. split; [exact G|]. split; [reflexivity|]. split; [rewrite <- elems_kept_arr; apply elements_arr|].
    intros u [i|k|] N P; [exfalso; exact (N i eq_refl)|contradiction|contradiction].
  - destruct K as (Lc & S & F). rewrite (elements_same _ _ _ He (elements_obj c m)) in *. unfold elems_obj in L. rewrite map_length in L.
    exists (mkI (BObj c (kept_obj p m)) n). split; [exact (erase_if_obj p c m [] n (u_begin (BObj c m)) fuel S eq_refl L)|].
    split; [split; [exact Lc|]; split; [apply kept_sorted, S|]|].
    + apply Forall_forall. intros [k q] H. apply filter_in in H. cbn [i_next] in *. rewrite Forall_forall in F. exact (F _ H).
    + split; [reflexivity|]. split; [rewrite <- elems_kept_obj; apply elements_obj|]. intros u s _ P H. exact (kept_stands _ _ _ _ _ S P H).
Qed.

Theorem erase_post_object : forall p st es fuel, ok st -> type_of (view (i_body st)) = TObject -> elements (view (i_body st)) es -> (length es < fuel)%nat ->
  erase_post p fuel (u_begin (i_body st)) st = erase_if p fuel (u_begin (i_body st)) st.
Proof.
  intros p [b n] es fuel K C He L. cbn [i_body] in *. unfold ok in K. destruct b as [v|g l|c m]; cbn [i_body i_next] in K; [|discriminate|].
  - exfalso. apply K. right. exact C.
  - destruct K as (Lc & S & F). rewrite (elements_same _ _ _ He (elements_obj c m)) in *. unfold elems_obj in L. rewrite map_length in L.
    transitivity (mkI (BObj c (kept_obj p m)) n, Ret tt); [exact (erase_post_obj p c m [] n (u_begin (BObj c m)) fuel S eq_refl L)|symmetry; exact (erase_if_obj p c m [] n (u_begin (BObj c m)) fuel S eq_refl L)].
Qed.

Theorem erase_post_array : forall p st l fuel, ok st -> view (i_body st) = VArr l -> (exists x, In x l /\ p (None, x) = true) -> (length l < fuel)%nat ->
  snd (erase_post p fuel (u_begin (i_body st)) st) = UB.
Proof.
  intros p [b n] l fuel K V (x & Hx & Px) L. cbn [i_body] in *. unfold ok in K. destruct b as [v|g l0|c m]; cbn [i_body i_next view] in *; [|injection V as ->|discriminate].
  - exfalso. apply K. left. rewrite V. reflexivity.
  - apply (erase_post_arr p l [] g n (u_begin (BArr g l)) fuel K eq_refl L).
    apply existsb_exists. exists x. split; assumption.
Qed.

(** ** Assigning to each element *)
Lemma rewrite_obj : forall f c m2 m1 n u fuel, sorted (m1 ++ m2) -> pointing u c m2 -> (length m2 < fuel)%nat ->
  rewrite_all f fuel u (mkI (BObj c (m1 ++ m2)) n) = (mkI (BObj c (m1 ++ map (fun q => (fst q, (fst (snd q), f (snd (snd q))))) m2)) n, Ret tt).
Proof.
  intros f c. induction m2 as [|[k [i x]] m2 IH]; intros m1 n u fuel S P L; (destruct fuel as [|fuel]; [cbn in L; lia|]); cbn [rewrite_all i_body].
  - rewrite (pointing_eq _ _ _ _ S P). reflexivity.
  - rewrite (pointing_eq _ _ _ _ S P). destruct (pointing_entry _ _ _ _ _ _ _ S P) as [E1 E2]. unfold u_read. rewrite E2. cbn [bind snd fst map]. cbn [length] in L.
    assert (N := not_before _ _ _ _ _ S). cbn [u_step i_body i_next]. rewrite E2. rewrite upd_entry_mid by exact N. cbn [i_body u_incr].
    assert (S' : sorted (m1 ++ (k, (i, f x)) :: m2)) by (eapply keys_sorted; [|exact S]; rewrite !map_app; reflexivity).
    rewrite (proj1 (pointing_entry u c m1 k i (f x) m2 S' P)). cbn [bind fst]. rewrite after_mid by exact N.
    change (m1 ++ (k, (i, f x)) :: map (fun q => (fst q, (fst (snd q), f (snd (snd q))))) m2) with (m1 ++ [(k, (i, f x))] ++ map (fun q => (fst q, (fst (snd q), f (snd (snd q))))) m2).
    change (m1 ++ (k, (i, f x)) :: m2) with (m1 ++ [(k, (i, f x))] ++ m2) in *. rewrite app_assoc. rewrite app_assoc in S'.
    rewrite (app_assoc m1 [(k, (i, f x))] (map _ m2)). apply IH; [exact S'|reflexivity|lia].
Qed.
Lemma rewrite_arr : forall f l2 l1 g n u fuel, u_arr u = Some (g, length l1) -> (length l2 < fuel)%nat ->
  rewrite_all f fuel u (mkI (BArr g (l1 ++ l2)) n) = (mkI (BArr g (l1 ++ map f l2)) n, Ret tt).
Proof.
  intros f. induction l2 as [|x l2 IH]; intros l1 g n u fuel U L; (destruct fuel as [|fuel]; [cbn in L; lia|]); cbn [rewrite_all i_body].
  - rewrite (arr_eq _ _ _ _ U). reflexivity.
  - rewrite (arr_eq _ _ _ _ U). destruct (arr_entry u g l1 x l2 U) as (E1 & E2 & E3). unfold u_read. rewrite E2. cbn [bind snd map]. cbn [length] in L.
    cbn [u_step i_body i_next]. rewrite E2, U, set_mid. cbn [i_body u_incr]. destruct (arr_entry u g l1 (f x) l2 U) as (E4 & E5 & E6). rewrite E4. cbn [bind]. rewrite E6.
    change (l1 ++ f x :: map f l2) with (l1 ++ [f x] ++ map f l2). change (l1 ++ f x :: l2) with (l1 ++ [f x] ++ l2). rewrite !app_assoc.
    apply IH; [|lia]. cbn. rewrite app_length. cbn. f_equal. f_equal. lia.
Qed.

Theorem rewrite_each : forall f st es fuel, ok st -> container (view (i_body st)) -> elements (view (i_body st)) es -> (length es < fuel)%nat ->
  exists st', rewrite_all f fuel (u_begin (i_body st)) st = (st', Ret tt) /\ type_of (view (i_body st')) = type_of (view (i_body st)) /\
    elements (view (i_body st')) (map (fun e => (fst e, f (snd e))) es) /\
    forall u s, stands u (i_body st) s -> stands u (i_body st') s.
Proof.
  intros f [b n] es fuel K C He L. cbn [i_body] in *. unfold ok in K. destruct b as [v|g l|c m]; cbn [i_body i_next] in K; [contradiction| |].
  - rewrite (elements_same _ _ _ He (elements_arr l)) in *. unfold elems_arr in L. rewrite map_length in L.
    eexists. split; [exact (rewrite_arr f l [] g n (u_begin (BArr g l)) fuel eq_refl L)|]. split; [reflexivity|]. split.
    + cbn [app i_body view]. replace (map (fun e => (fst e, f (snd e))) (elems_arr l)) with (elems_arr (map f l)); [apply elements_arr|].
      unfold elems_arr. rewrite !map_map. reflexivity.
    + intros u [i|k|] P; cbn in *; try contradiction. rewrite map_length. exact P.
  - destruct K as (Lc & S & F). rewrite (elements_same _ _ _ He (elements_obj c m)) in *. unfold elems_obj in L. rewrite map_length in L.
    eexists. split; [exact (rewrite_obj f c m [] n (u_begin (BObj c m)) fuel S eq_refl L)|]. split; [reflexivity|]. split.
    + cbn [app i_body]. replace (map (fun e => (fst e, f (snd e))) (elems_obj m)) with (elems_obj (map (fun q => (fst q, (fst (snd q), f (snd (snd q))))) m)); [apply elements_obj|].
      unfold elems_obj. rewrite !map_map. reflexivity.
    + intros u [i|k|] P; cbn in *; try contradiction; [|exact P]. destruct P as (j & x & Fx & U). exists j, (f x). split; [|exact U].
      clear - Fx. induction m as [|[k' [j' y]] m IH]; [discriminate|]. cbn [obj_find map fst snd app] in *. destruct (str_eqb k k'); [injection Fx as -> ->; reflexivity|exact (IH Fx)].
Qed.

(** for (auto& x : v) x = f(x)  with v a number, string or boolean *)
Theorem rewrite_scalar : forall f v n fuel, scalar v -> (1 < fuel)%nat ->
  (~ container (f v) -> rewrite_all f fuel (u_begin (BVal v)) (mkI (BVal v) n) = (mkI (BVal (f v)) n, Ret tt)) /\
  (container (f v) -> snd (rewrite_all f fuel (u_begin (BVal v)) (mkI (BVal v) n)) = UB).
Proof.
  intros f v n fuel Sc L. destruct fuel as [|fuel]; [lia|]. cbn [rewrite_all i_body u_step i_next].
  destruct (reads_scalar u_none v Sc) as [R _]. cbn [u_prim u_none Z.eqb] in R. change (u_begin (BVal v)) with u_none. unfold u_read. rewrite R. cbn [bind snd].
  replace (u_eq u_none (u_end (BVal v)) (BVal v)) with (Ret false) by (destruct Sc as [_ N]; destruct v; try reflexivity; exfalso; apply N; reflexivity).
  cbn [bind]. destruct fuel as [|fuel]; [lia|].
  destruct (f v) eqn:E; (split; intro C); try (exfalso; apply C; ((left; reflexivity) || (right; reflexivity)));
    try (destruct C; discriminate); cbn; reflexivity.
Qed.

(** ** Inserting while walking may go on for ever *)
Definition grows (e : option str * value) : option (str * value) :=
  match fst e with Some k => Some (k ++ [97], snd e) | None => None end.
Lemma key_longer : forall k, key_lt k (k ++ [97]).
Proof. induction k as [|a k IH]; cbn; [constructor|apply kl_tail, IH]. Qed.

Theorem insert_endless : forall fuel c m n u k, sorted m -> low n m -> (c < n)%nat -> stands u (BObj c m) (At k) ->
  snd (insert_all grows fuel u (mkI (BObj c m) n)) = OutOfFuel.
Proof.
  induction fuel as [|fuel IH]; intros c m n u k S F Lc P; [reflexivity|]. cbn [insert_all i_body].
  assert (K : ok (mkI (BObj c m) n)) by (split; [exact Lc|split; [exact S|exact F]]).
  destruct (compares u (u_end (BObj c m)) (mkI (BObj c m) n) (At k) End K P eq_refl) as (r & Er & Ir). cbn [i_body] in Er. rewrite Er.
  destruct r; [exfalso; pose proof (proj1 Ir eq_refl); discriminate|]. clear Er Ir.
  assert (P0 := P). destruct P as (i & x & Fk & U).
  assert (E : u_entry u (BObj c m) = Ret (Some k, x)) by (cbn [u_entry]; rewrite (use_obj_at _ _ _ _ _ _ U Fk); reflexivity).
  rewrite E. cbn [grows fst snd]. destruct (u_step (USetKey (k ++ [97]) x) (mkI (BObj c m) n)) as [st1 o] eqn:St.
  destruct (step_ok (USetKey (k ++ [97]) x) _ _ _ I K St) as [K1 _].
  assert (o <> UB) as NU by (cbn in St; injection St as <- <-; discriminate).
  assert (P1 := stays_put (USetKey (k ++ [97]) x) _ _ _ _ _ K P0 St NU I).
  cbn in St. injection St as <- <-. cbn [i_body] in *.
  set (m' := upd_entry (k ++ [97]) x (obj_emplace (k ++ [97]) (n, VNull) m)) in *.
  assert (In97 : In (k ++ [97]) (map fst m')).
  { unfold m'. rewrite upd_entry_keys. destruct (obj_find (k ++ [97]) (obj_emplace (k ++ [97]) (n, VNull) m)) as [q|] eqn:Q.
    - apply find_in' in Q. apply in_map_iff. exists (k ++ [97], q). split; [reflexivity|exact Q].
    - rewrite find_emplace, str_eqb_refl in Q by exact S. destruct (obj_find (k ++ [97]) m); discriminate. }
  destruct (walks u _ _ K1 P1) as [W _]. destruct W as (u' & p' & Wi & Nx & P2); [discriminate|]. cbn [i_body] in *. rewrite Wi.
  inversion Nx as [|? k' _ Ik' _ _|? _ No]; subst.
  - destruct K1 as (Lc1 & S1 & F1). exact (IH c m' (Datatypes.S n) u' k' S1 F1 Lc1 P2).
  - exfalso. exact (No _ In97 (key_longer k)).
Qed.

(** ** key() *)
Theorem keys_read : forall u st p, ok st -> stands u (i_body st) p -> p <> end_spot (i_body st) ->
  match p with
  | At k => u_key u (i_body st) = Ret k
  | _ => u_key u (i_body st) = Throw (EIter "cannot use key() with non-object type")
  end.
Proof.
  intros u st p K P E. destruct (reads u st p K P) as [R _]. destruct (R E) as (e & Re & Fe). unfold u_key. rewrite Re.
  inversion Fe; subst; reflexivity.
Qed.

Theorem insert_forever : forall st k fuel, ok st -> In k (members (i_body st)) ->
  snd (insert_all grows fuel (u_begin (i_body st)) st) = OutOfFuel.
Proof.
  intros [[v|g l|c m] n] k fuel K H; try contradiction. cbn [i_body members] in *.
  destruct m as [|[k0 [i x]] m]; [contradiction|]. assert (K0 := K). destruct K as (Lc & S & F). cbn [i_next i_body] in *.
  apply (insert_endless fuel c _ n _ k0 S F Lc). exists i, x. split; [|reflexivity]. cbn [obj_find]. rewrite str_eqb_refl. reflexivity.
Qed.

(** ** The rest: values that are not containers, and moving away *)
Theorem others : forall st u x,
  (exists o, u_step UMoveOut st = (mkI (BVal VNull) (i_next st), Ret o)) /\
  (~ container (view (i_body st)) ->
     u_step (UErase u) st = (st, Throw (EIter "cannot use erase() with non-object & non-array value")) /\
     (u_prim u = 0%Z -> view (i_body st) <> VNull -> u_step (UStore u x) st = u_step (UAssign x) st) /\
     (u_prim u <> 0%Z -> exists e, u_step (UStore u x) st = (st, Throw e) /\ out_of_range (view (i_body st)) e) /\
     (view (i_body st) = VNull -> exists e, u_step (UStore u x) st = (st, Throw e) /\ out_of_range VNull e) /\
     (forall w, u_eq u w (i_body st) = Ret (Z.eqb (u_prim u) (u_prim w)))).
Proof.
  intros [b n] u x. split; [eexists; reflexivity|]. cbn [i_body]. intro C.
  destruct b as [v|g l|c m]; [|exfalso; apply C; left; reflexivity|exfalso; apply C; right; reflexivity].
  split; [reflexivity|]. split; [|split; [|split; [|reflexivity]]].
  - intros Z N. cbn [u_step i_body u_entry]. rewrite Z. destruct v; cbn; try reflexivity. exfalso. apply N. reflexivity.
  - intro Z. apply Z.eqb_neq in Z. cbn [u_step i_body u_entry]. rewrite Z. destruct v; cbn [u_entry]; try (eexists; split; [reflexivity|]; apply or_scalar; split; [exact C|discriminate]).
    eexists. split; [reflexivity|constructor].
  - cbn [view]. intros ->. eexists. split; [reflexivity|constructor].
Qed.

(** ** Programs on values *)
Theorem run_view : forall cs st st' os, Forall tidy cs -> (forall c, In c cs -> plain c <> None) -> ok st -> u_run cs st = (st', os) ->
  runs cs (view (i_body st)) (view (i_body st')).
Proof.
  induction cs as [|c cs IH]; intros st st' os T Pl K H; cbn [u_run] in H; [injection H as <- <-; constructor|].
  inversion T as [|? ? T1 T2]; subst. destruct (u_step c st) as [st1 o] eqn:E. destruct (plain c) as [f|] eqn:Pc; [|exfalso; exact (Pl c (or_introl eq_refl) Pc)].
  destruct (step_view c f st st1 o Pc K E) as (r & Er & Al). destruct (step_ok c st st1 o T1 K E) as [K1 _].
  assert (Go : forall st2 rs, u_run cs st1 = (st2, rs) -> runs cs (view (i_body st1)) (view (i_body st2))) by (intros st2 rs; apply IH; [exact T2|intros c' Hc; apply Pl; right; exact Hc|exact K1]).
  assert (Stop : ~ defined r -> runs (c :: cs) (view (i_body st)) (view (i_body st1))) by (intro D; exact (r_stop _ _ _ _ _ _ Pc Er D)).
  assert (Step : defined r -> forall st2 rs, u_run cs st1 = (st2, rs) -> runs (c :: cs) (view (i_body st)) (view (i_body st2))) by
    (intros D st2 rs E2; exact (r_step _ _ _ _ _ _ _ Pc Er D (Go _ _ E2))).
  destruct o as [q|e| | |]; destruct r as [q'|e'| | |]; try contradiction Al.
  - destruct (u_run cs st1) as [st2 rs] eqn:E2. injection H as <- <-. apply (Step (or_introl (ex_intro _ _ eq_refl)) _ _ eq_refl).
  - destruct (u_run cs st1) as [st2 rs] eqn:E2. injection H as <- <-. apply (Step (or_intror (ex_intro _ _ eq_refl)) _ _ eq_refl).
  - injection H as <- <-. apply Stop. intros [[? D]|[? D]]; discriminate.
  - injection H as <- <-. apply Stop. intros [[? D]|[? D]]; discriminate.
  - injection H as <- <-. apply Stop. intros [[? D]|[? D]]; discriminate.
Qed.
