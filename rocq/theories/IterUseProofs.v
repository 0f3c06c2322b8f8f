(** Iterators that outlive changes: where they stand afterwards. *)
From Coq Require Import ZArith Lia.
From Verif Require Import Base Value ValueOps SpecGrammar SpecIter ObjFacts ValueProofs HeapGhost IterUse SpecIterUse.
Open Scope N_scope.

(** ** Using the components *)
Lemma use_obj_cases : forall u c m,
  (exists d x, use_obj u c m = Ret (Some (d, x)) /\ u_obj u = Some (c, Some d) /\ obj_find (fst d) m = Some (snd d, x)) \/
  (use_obj u c m = Ret None /\ u_obj u = Some (c, None)) \/
  (use_obj u c m = UB /\ u_obj u <> Some (c, None) /\ forall k n x, u_obj u = Some (c, Some (k, n)) -> obj_find k m <> Some (n, x)).
Proof.
  intros u c m. unfold use_obj. destruct (u_obj u) as [[c' o]|]; [|right; right; repeat split; congruence].
  destruct (Nat.eqb_spec c' c) as [->|Ne]; [|right; right; repeat split; congruence].
  destruct o as [[k n]|]; [|right; left; split; reflexivity].
  unfold entry; cbn [fst snd]. destruct (obj_find k m) as [[n' x]|] eqn:F; [|right; right; repeat split; congruence].
  destruct (Nat.eqb_spec n' n) as [->|Ne]; [|right; right; repeat split; congruence].
  left. exists (k, n), x. cbn [fst snd]. repeat split; assumption.
Qed.

Lemma use_arr_cases : forall u g n,
  (exists i, use_arr u g n = Ret i /\ u_arr u = Some (g, i) /\ (i <= n)%nat) \/
  (use_arr u g n = UB /\ forall i, u_arr u = Some (g, i) -> (n < i)%nat).
Proof.
  intros u g n. unfold use_arr. destruct (u_arr u) as [[g' i]|]; [|right; split; congruence].
  destruct (Nat.eqb_spec g' g) as [->|Ne]; cbn [andb]; [|right; split; congruence].
  destruct (Nat.leb_spec i n); [left; exists i; repeat split; assumption|right; split; [reflexivity|congruence]].
Qed.

Lemma use_obj_at : forall u c m k n x, u_obj u = Some (c, Some (k, n)) -> obj_find k m = Some (n, x) -> use_obj u c m = Ret (Some ((k, n), x)).
Proof. intros u c m k n x U F. unfold use_obj, entry. rewrite U, Nat.eqb_refl. cbn [fst snd]. rewrite F, Nat.eqb_refl. reflexivity. Qed.
Lemma use_obj_end : forall u c m, u_obj u = Some (c, None) -> use_obj u c m = Ret None.
Proof. intros u c m U. unfold use_obj. rewrite U, Nat.eqb_refl. reflexivity. Qed.
Lemma use_arr_at : forall u g n i, u_arr u = Some (g, i) -> (i <= n)%nat -> use_arr u g n = Ret i.
Proof. intros u g n i U L. unfold use_arr. rewrite U, Nat.eqb_refl. apply Nat.leb_le in L. rewrite L. reflexivity. Qed.

(** ** Entries *)
Lemma find_upd_entry : forall k x m j, obj_find j (upd_entry k x m) =
  if str_eqb j k then option_map (fun q => (fst q, x)) (obj_find j m) else obj_find j m.
Proof.
  intros k x m j. induction m as [|[k' [n y]] m IH]; cbn [upd_entry obj_find]; [destruct (str_eqb j k); reflexivity|].
  destruct (str_eqb k k') eqn:E; cbn [obj_find].
  - apply str_eqb_iff in E. subst k'. destruct (str_eqb j k); reflexivity.
  - destruct (str_eqb j k') eqn:E2; [|exact IH]. apply str_eqb_iff in E2. subst j. rewrite str_eqb_sym, E. reflexivity.
Qed.
Lemma upd_entry_nodes : forall k x m, map node_of (upd_entry k x m) = map node_of m.
Proof.
  intros k x m. induction m as [|[k' [n y]] m IH]; cbn [upd_entry map]; [reflexivity|].
  destruct (str_eqb k k'); cbn [map]; [reflexivity|rewrite IH; reflexivity].
Qed.
Lemma nodes_keys : forall m : list (str * (nat * value)), map fst m = map fst (map node_of m).
Proof. intro m. rewrite map_map. reflexivity. Qed.
Lemma upd_entry_keys : forall k x m, map fst (upd_entry k x m) = map fst m.
Proof. intros. rewrite !nodes_keys, upd_entry_nodes. reflexivity. Qed.
Lemma keys_sorted : forall A B (m : list (str * A)) (m' : list (str * B)), map fst m = map fst m' -> sorted m -> sorted m'.
Proof.
  intros A B m m' E S. revert m' E. induction S as [|k v m F S IH]; intros [|[k' v'] m'] E; try discriminate; [constructor|].
  cbn [map fst] in E. injection E as -> E. constructor; [|apply IH; exact E].
  apply (Forall_fst _ (fun x => key_lt k' x)). intros x Hx. rewrite <- E in Hx.
  apply (Forall_fst _ (fun x => key_lt k' x)) with (x := x) in F; assumption.
Qed.
Lemma upd_entry_sorted : forall k x m, sorted m -> sorted (upd_entry k x m).
Proof. intros k x m. apply keys_sorted. symmetry. apply upd_entry_keys. Qed.

Definition low (n : nat) (m : list (str * (nat * value))) := Forall (fun p => (fst (snd p) < n)%nat) m.
Lemma low_nodes : forall n m, low n m <-> Forall (fun d : node => (snd d < n)%nat) (map node_of m).
Proof. intros n m. unfold low. rewrite Forall_map. reflexivity. Qed.
Lemma low_upd : forall n k x m, low n m -> low n (upd_entry k x m).
Proof. intros n k x m H. rewrite low_nodes, upd_entry_nodes, <- low_nodes. exact H. Qed.
Lemma low_more : forall n n' m, (n <= n')%nat -> low n m -> low n' m.
Proof. intros n n' m L. apply Forall_impl. intros. lia. Qed.
Lemma low_find : forall n m k i x, low n m -> obj_find k m = Some (i, x) -> (i < n)%nat.
Proof. intros n m k i x L F. apply find_in' in F. unfold low in L. rewrite Forall_forall in L. exact (L _ F). Qed.
Lemma low_emplace : forall n k x m, low n m -> low (S n) (obj_emplace k (n, x) m).
Proof.
  intros n k x m L. apply Forall_forall. intros [j q] H. apply in_emplace in H. destruct H as [H|H].
  - injection H as -> ->. cbn. lia.
  - unfold low in L. rewrite Forall_forall in L. apply L in H. lia.
Qed.
Lemma low_erase : forall n k m, low n m -> low n (obj_erase k m).
Proof. intros n k m L. apply Forall_forall. intros p H. apply erase_keys in H. unfold low in L. rewrite Forall_forall in L. exact (L _ H). Qed.
Lemma number_keys : forall m n, map fst (number n m) = map fst m.
Proof. induction m as [|[k x] m IH]; intro n; cbn [number map fst]; [reflexivity|rewrite IH; reflexivity]. Qed.
Lemma low_number : forall m n, low (n + length m) (number n m).
Proof.
  induction m as [|[k x] m IH]; intro n; cbn [number length]; constructor; cbn [fst snd]; [lia|].
  replace (n + S (length m))%nat with (S n + length m)%nat by lia. apply IH.
Qed.
Lemma number_high : forall m n k i x, obj_find k (number n m) = Some (i, x) -> (n <= i)%nat.
Proof.
  induction m as [|[k' y] m IH]; intros n k i x H; cbn [number obj_find] in H; [discriminate|].
  destruct (str_eqb k k'); [injection H as <- <-; lia|]. apply IH in H. lia.
Qed.

(** ** Invariants *)
Lemma fresh_ok : forall n v, (forall m, v = VObj m -> sorted m) -> ok (fresh n v).
Proof.
  intros n v S. destruct v; cbn [fresh]; unfold ok; cbn [i_body i_next]; try (intros [X|X]; discriminate); try lia.
  split; [lia|]. split; [|apply (low_number m (Datatypes.S n))].
  eapply keys_sorted; [|exact (S _ eq_refl)]. symmetry. apply number_keys.
Qed.
Lemma fresh_next : forall n v, (n <= i_next (fresh n v))%nat.
Proof. intros n v. destruct v; cbn; lia. Qed.
Lemma clear_scalar : forall v, ~ container v -> ~ container (v_clear v).
Proof. intros v H. destruct v; cbn; assumption. Qed.

Lemma entry_scalar : forall u v e, ~ container v -> u_entry u (BVal v) = Ret e -> e = (None, v).
Proof.
  intros u v e C H. destruct v; cbn [u_entry] in H; try discriminate; try (destruct (Z.eqb _ _); [injection H as <-; reflexivity|discriminate]).
Qed.

Ltac split_body st b n B := destruct st as [b n]; cbn [i_body i_next] in *; destruct b as [v|g l|c m]; cbn [ok i_body i_next] in B.

Lemma step_ok : forall c st st' o, tidy c -> ok st -> u_step c st = (st', o) -> ok st' /\ (i_next st <= i_next st')%nat.
Proof.
  intros c st st' o T K H.
  assert (Same : (st, o) = (st', o) -> ok st' /\ (i_next st <= i_next st')%nat) by (intro X; injection X as <-; split; [exact K|lia]).
  destruct c; cbn [u_step tidy] in *.
  - injection H as <- <-. split; [|apply fresh_next]. apply fresh_ok. intros m ->. exact T.
  - injection H as <- <-. split; [intros [X|X]; discriminate|cbn; lia].
  - destruct (i_body st) as [v|g l|c m] eqn:B; [destruct v| |]; injection H as <- <-; try (split; [exact K|lia]); (split; [unfold ok|]; cbn; lia).
  - destruct (i_body st) as [v|g l|c m] eqn:B; [destruct v| |]; injection H as <- <-; try (split; [exact K|lia]).
    + split; [|cbn; lia]. unfold ok; cbn. split; [lia|]. split; [repeat constructor|]. repeat constructor.
    + unfold ok in *. rewrite B in K. cbn [i_body i_next]. destruct K as (Lc & S & F). split; [|lia]. split; [lia|].
      split; [apply upd_entry_sorted, emplace_sorted, S|apply low_upd, low_emplace, F].
  - assert (Idx : forall g l n, (g < n)%nat -> forall s r, set_idx i x g l n = (s, r) -> ok s /\ (n <= i_next s)%nat).
    { intros g l n L s r E. unfold set_idx in E. destruct (len l <=? i); [destruct (i <? _)|]; injection E as <- <-; (split; [unfold ok|]; cbn; lia). }
    destruct (i_body st) as [v|g l|c m] eqn:B; [destruct v| |]; try (injection H as <- <-; split; [exact K|lia]).
    + destruct (set_idx i x (i_next st) [] (S (i_next st))) as [s r] eqn:E. injection H as <- <-. apply Idx in E; [|lia]. destruct E as [E1 E2]. split; [exact E1|lia].
    + destruct (set_idx i x g l (i_next st)) as [s r] eqn:E. injection H as <- <-. unfold ok in K. rewrite B in K. apply Idx in E; [|lia]. exact E.
  - destruct (i_body st) as [v|g l|c m] eqn:B; injection H as <- <-; try (split; [exact K|lia]).
    unfold ok in *. rewrite B in K. cbn [i_body i_next]. destruct K as (Lc & S & F). split; [|lia]. split; [lia|]. split; [apply erase_sorted, S|apply low_erase, F].
  - destruct (i_body st) as [v|g l|c m] eqn:B; try (injection H as <- <-; split; [exact K|lia]).
    destruct (i <? len l); injection H as <- <-; [split; [unfold ok|]; cbn; lia|split; [exact K|lia]].
  - unfold ok in *. destruct (i_body st) as [v|g l|c m] eqn:B; injection H as <- <-; cbn [i_body i_next].
    + split; [apply clear_scalar, K|lia].
    + split; lia.
    + destruct K as (Lc & S & F). split; [|lia]. split; [lia|]. split; constructor.
  - destruct (u_entry u (i_body st)) as [[k y]|e| | |] eqn:E; try (injection H as <- <-; split; [exact K|lia]).
    destruct (i_body st) as [v|g l|c m] eqn:B.
    + assert (X : (fresh (i_next st) x, Ret u_none) = (st', o)) by (destruct k; exact H). injection X as <- <-. split; [|apply fresh_next].
      apply fresh_ok. intros m ->. exact T.
    + destruct (u_arr u) as [[g' i]|]; [|destruct k; injection H as <- <-; (split; [exact K|lia])].
      assert (X : (mkI (BArr g (set_nth i x l)) (i_next st), Ret u_none) = (st', o)) by (destruct k; exact H). injection X as <- <-.
      unfold ok in *. rewrite B in K. cbn. split; [exact K|lia].
    + destruct k as [k|]; injection H as <- <-; [|split; [exact K|lia]].
      unfold ok in *. rewrite B in K. cbn [i_body i_next]. destruct K as (Lc & S & F). split; [|lia]. split; [lia|]. split; [apply upd_entry_sorted, S|apply low_upd, F].
  - destruct (i_body st) as [v|g l|c m] eqn:B; try (injection H as <- <-; split; [exact K|lia]).
    + destruct (use_arr_cases u g (length l)) as [(i & E & _)|[E _]]; rewrite E in H; [|injection H as <- <-; split; [exact K|lia]].
      destruct (Nat.ltb i (length l)); injection H as <- <-; [split; [unfold ok|]; cbn; lia|split; [exact K|lia]].
    + destruct (use_obj_cases u c m) as [(d & y & E & _)|[[E _]|[E _]]]; rewrite E in H; injection H as <- <-; try (split; [exact K|lia]).
      unfold ok in *. rewrite B in K. cbn [i_body i_next]. destruct K as (Lc & S & F). split; [|lia]. split; [lia|]. split; [apply erase_sorted, S|apply low_erase, F].
Qed.

Lemma known_more : forall st st' u, (i_next st <= i_next st')%nat -> known st u -> known st' u.
Proof.
  intros st st' u L [A O]. split; [intros g i U; apply A in U; lia|]. intros c o U. apply O in U. destruct U as [U1 U2].
  split; [lia|]. intros k n E. apply U2 in E. lia.
Qed.

