(** Iterators that outlive changes: what stays, what is lost. *)
From Coq Require Import ZArith Lia.
From Verif Require Import Base Value ValueOps SpecGrammar SpecIter ObjFacts ValueProofs HeapGhost IterUse SpecIterUse IterUseProofs.
Open Scope N_scope.

Ltac inj H := injection H as <- <-.

Lemma set_idx_in : forall i x g l n s r, set_idx i x g l n = (s, r) -> i < len l -> s = mkI (BArr g (set_nth (N.to_nat i) x l)) n /\ r = Ret tt.
Proof.
  intros i x g l n s r H L. unfold set_idx in H. destruct (N.leb_spec (len l) i); [lia|]. injection H as <- <-. split; reflexivity.
Qed.
Lemma set_idx_out : forall i x g l n s r, set_idx i x g l n = (s, r) -> len l <= i -> exists l', i_body s = BArr n l' /\ i_next s = S n.
Proof.
  intros i x g l n s r H L. unfold set_idx in H. destruct (N.leb_spec (len l) i); [|lia]. destruct (i <? _); injection H as <- <-; eexists; split; reflexivity.
Qed.
Lemma set_nth_len : forall A (l : list A) n x, length (set_nth n x l) = length l.
Proof. induction l as [|y l IH]; intros [|n] x; cbn; try reflexivity. rewrite IH. reflexivity. Qed.
Lemma size_arr : forall g l, v_size (view (BArr g l)) = len l.
Proof. reflexivity. Qed.

(** ** What stays *)
Theorem stays_put : forall c st st' o u p, ok st -> stands u (i_body st) p -> u_step c st = (st', o) -> o <> UB -> stays c (i_body st) p -> stands u (i_body st') p.
Proof.
  intros c st st' o u p K P H NU Y. unfold ok in K.
  destruct (i_body st) as [v|g l|c0 m] eqn:B; [destruct p; contradiction P| |].
  - destruct p as [i|k|]; try contradiction P. destruct P as [U L].
    destruct c as [x| |x|k x|i0 x|k|i0| |w x|w]; cbn [u_step stays] in *; rewrite ?B in H.
    + contradiction. + contradiction. + exfalso. exact (Y i eq_refl).
    + inj H. rewrite B. split; assumption.
    + destruct (set_idx i0 x g l (i_next st)) as [s r] eqn:E. inj H. apply set_idx_in in E; [|exact (Y i eq_refl)].
      destruct E as [-> ->]. cbn. rewrite set_nth_len. split; assumption.
    + inj H. rewrite B. split; assumption.
    + exfalso. exact (Y i eq_refl).
    + discriminate.
    + destruct (u_entry w (BArr g l)) as [[k y]|e| | |]; try (inj H; rewrite B; split; assumption).
      destruct (u_arr w) as [[g' j]|]; destruct k; inj H; cbn; rewrite ?B, ?set_nth_len; split; assumption.
    + exfalso. destruct Y as [Y _]. exact (Y i eq_refl).
  - assert (P0 := P). destruct K as (Lc & S & F).
    assert (Obj : forall m', (forall k n x, p = At k -> obj_find k m = Some (n, x) -> exists x', obj_find k m' = Some (n, x')) -> stands u (BObj c0 m') p).
    { intros m' X. destruct p as [i|k|]; cbn in *; [contradiction| |exact P]. destruct P as (n & x & Fx & U).
      destruct (X k n x eq_refl Fx) as [x' Fx']. exists n, x'. split; assumption. }
    assert (Upd : forall k0 x m0, (forall k n x, obj_find k m = Some (n, x) -> obj_find k m0 = Some (n, x)) -> stands u (BObj c0 (upd_entry k0 x m0)) p).
    { intros k0 x m0 X. apply Obj. intros k n y _ Fy. rewrite find_upd_entry, (X _ _ _ Fy). destruct (str_eqb k k0); eexists; reflexivity. }
    destruct c as [x| |x|k x|i0 x|k|i0| |w x|w]; cbn [u_step stays] in *; rewrite ?B in H.
    + contradiction. + contradiction. + inj H. rewrite B. exact P0.
    + inj H. cbn [i_body]. apply Upd. intros j n y Fy. rewrite find_emplace by exact S. rewrite Fy. reflexivity.
    + inj H. rewrite B. exact P0.
    + inj H. cbn [i_body]. apply Obj. intros j n y -> Fy. rewrite find_erase by exact S.
      destruct (str_eqb j k) eqn:E; [apply str_eqb_iff in E; subst j; exfalso; apply Y; reflexivity|]. exists y. exact Fy.
    + inj H. rewrite B. exact P0.
    + subst p. inj H. exact P0.
    + destruct (u_entry w (BObj c0 m)) as [[k y]|e| | |]; try (inj H; rewrite B; exact P0).
      destruct k as [k|]; inj H; [|rewrite B; exact P0]. cbn [i_body]. apply Upd. intros j n z Fz. exact Fz.
    + destruct (use_obj_cases w c0 m) as [(d & y & E & Ud & Fd)|[[E _]|[E _]]]; rewrite E in H; inj H; try (exfalso; apply NU; reflexivity).
      cbn [i_body]. apply Obj. intros j n z -> Fz. rewrite find_erase by exact S. destruct (str_eqb j (fst d)) eqn:Ej; [|exists z; exact Fz].
      apply str_eqb_iff in Ej. subst j. exfalso. destruct Y as [_ Y]. apply (Y (fst d)); [|reflexivity].
      exists (snd d), y. destruct d. split; [exact Fd|exact Ud].
Qed.

(** ** What is astray stays so *)
Lemma fresh_astray : forall st u v, known st u -> astray u (i_body (fresh (i_next st) v)).
Proof.
  intros st u v [A O] p P. destruct v; cbn [fresh i_body] in P; destruct p as [i|k|]; cbn [stands] in P; try contradiction.
  - destruct P as [U _]. apply A in U. lia.
  - destruct P as (n & x & _ & U). apply O in U. lia.
  - apply O in P. lia.
Qed.
Lemma new_array_astray : forall st u l, known st u -> astray u (BArr (i_next st) l).
Proof. intros st u l [A _] [i|k|] P; cbn in P; try contradiction. destruct P as [U _]. apply A in U. lia. Qed.
Lemma later_array_astray : forall st u l, known st u -> astray u (BArr (S (i_next st)) l).
Proof. intros st u l [A _] [i|k|] P; cbn in P; try contradiction. destruct P as [U _]. apply A in U. lia. Qed.
Lemma null_astray : forall u v, astray u (BVal v).
Proof. intros u v [i|k|] P; exact P. Qed.

Theorem for_good : forall c st st' o u, ok st -> known st u -> astray u (i_body st) -> u_step c st = (st', o) -> astray u (i_body st').
Proof.
  intros c st st' o u K Kn Q H.
  assert (Same : astray u (i_body st)) by exact Q. unfold ok in K.
  destruct (i_body st) as [v|g l|c0 m] eqn:B.
  - destruct c as [x| |x|k x|i0 x|k|i0| |w x|w]; cbn [u_step] in H; rewrite ?B in H.
    + inj H. apply fresh_astray, Kn.
    + inj H. apply null_astray.
    + destruct v; inj H; rewrite ?B; try apply null_astray. apply new_array_astray, Kn.
    + destruct v; inj H; rewrite ?B; try apply null_astray. destruct Kn as [A O]. intros [i|j|] P; cbn in P; try contradiction.
      * destruct P as (n & y & _ & U). apply O in U. lia.
      * apply O in P. lia.
    + destruct v; try (inj H; rewrite ?B; apply null_astray).
      destruct (set_idx i0 x (i_next st) [] (S (i_next st))) as [s r] eqn:E. inj H. apply set_idx_out in E; [|cbn; lia]. destruct E as (l' & -> & _).
      apply later_array_astray, Kn.
    + inj H. rewrite B. apply null_astray.
    + inj H. rewrite B. apply null_astray.
    + inj H. apply null_astray.
    + destruct (u_entry w (BVal v)) as [[k y]|e| | |]; try (inj H; rewrite B; apply null_astray).
      destruct k; inj H; apply fresh_astray, Kn.
    + inj H. rewrite B. apply null_astray.
  - destruct c as [x| |x|k x|i0 x|k|i0| |w x|w]; cbn [u_step] in H; rewrite ?B in H.
    + inj H. apply fresh_astray, Kn.
    + inj H. apply null_astray.
    + inj H. apply new_array_astray, Kn.
    + inj H. rewrite B. exact Q.
    + destruct (set_idx i0 x g l (i_next st)) as [s r] eqn:E. inj H. destruct (N.lt_ge_cases i0 (len l)) as [L|L].
      * apply set_idx_in in E; [|exact L]. destruct E as [-> _]. cbn [i_body]. intros [i|j|] P; cbn in P; try contradiction.
        rewrite set_nth_len in P. exact (Q (Pos i) P).
      * apply set_idx_out in E; [|exact L]. destruct E as (l' & -> & _). apply new_array_astray, Kn.
    + inj H. rewrite B. exact Q.
    + destruct (i0 <? len l); inj H; [apply new_array_astray, Kn|rewrite B; exact Q].
    + inj H. apply new_array_astray, Kn.
    + destruct (u_entry w (BArr g l)) as [[k y]|e| | |]; try (inj H; rewrite B; exact Q).
      destruct (u_arr w) as [[g' j]|]; destruct k; inj H; rewrite ?B; try exact Q; cbn [i_body];
        intros [i|q|] P; cbn in P; try contradiction; rewrite set_nth_len in P; exact (Q (Pos i) P).
    + destruct (use_arr_cases w g (length l)) as [(i & E & _)|[E _]]; rewrite E in H; [|inj H; rewrite B; exact Q].
      destruct (Nat.ltb i (length l)); inj H; [apply new_array_astray, Kn|rewrite B; exact Q].
  - destruct K as (Lc & S & F).
    assert (Obj : forall m', (forall k n x, obj_find k m' = Some (n, x) -> (n < i_next st)%nat -> exists x', obj_find k m = Some (n, x')) -> astray u (BObj c0 m')).
    { intros m' X [i|k|] P; cbn in P; try contradiction; [|exact (Q End P)]. destruct P as (n & x & Fx & U).
      assert (Ln : (n < i_next st)%nat) by (destruct Kn as [_ O]; apply O in U; destruct U as [_ U]; exact (U k n eq_refl)).
      destruct (X k n x Fx Ln) as [x' Fx']. apply (Q (At k)). exists n, x'. split; assumption. }
    destruct c as [x| |x|k x|i0 x|k|i0| |w x|w]; cbn [u_step] in H; rewrite ?B in H.
    + inj H. apply fresh_astray, Kn.
    + inj H. apply null_astray.
    + inj H. rewrite B. exact Q.
    + inj H. cbn [i_body]. apply Obj. intros j n y Fy Ln. rewrite find_upd_entry, find_emplace in Fy by exact S.
      destruct (obj_find j m) as [[n' y']|].
      * destruct (str_eqb j k); cbn in Fy; injection Fy as <- _; eexists; reflexivity.
      * destruct (str_eqb j k); cbn in Fy; [injection Fy as <- _; lia|discriminate].
    + inj H. rewrite B. exact Q.
    + inj H. cbn [i_body]. apply Obj. intros j n y Fy _. rewrite find_erase in Fy by exact S. destruct (str_eqb j k); [discriminate|]. exists y. exact Fy.
    + inj H. rewrite B. exact Q.
    + inj H. cbn [i_body]. apply Obj. intros j n y Fy. discriminate.
    + destruct (u_entry w (BObj c0 m)) as [[k y]|e| | |]; try (inj H; rewrite B; exact Q).
      destruct k as [k|]; inj H; [|rewrite B; exact Q]. cbn [i_body]. apply Obj. intros j n z Fz _. rewrite find_upd_entry in Fz.
      destruct (str_eqb j k); [|exists z; exact Fz]. destruct (obj_find j m) as [[n' z']|]; [|discriminate]. cbn in Fz. injection Fz as <- _. eexists. reflexivity.
    + destruct (use_obj_cases w c0 m) as [(d & y & E & Ud & Fd)|[[E _]|[E _]]]; rewrite E in H; inj H; try (rewrite B; exact Q).
      cbn [i_body]. apply Obj. intros j n z Fz _. rewrite find_erase in Fz by exact S. destruct (str_eqb j (fst d)); [discriminate|]. exists z. exact Fz.
Qed.

(** ** What is lost *)
Theorem lost : forall c st st' o u p, ok st -> known st u -> stands u (i_body st) p -> u_step c st = (st', o) -> o <> UB -> ~ stays c (i_body st) p -> astray u (i_body st').
Proof.
  intros c st st' o u p K Kn P H NU Y. unfold ok in K.
  destruct (i_body st) as [v|g l|c0 m] eqn:B; [destruct p; contradiction P| |].
  - destruct p as [i|k|]; try contradiction P. destruct P as [U L].
    destruct c as [x| |x|k x|i0 x|k|i0| |w x|w]; cbn [u_step stays] in *; rewrite ?B in H.
    + inj H. apply fresh_astray, Kn.
    + inj H. apply null_astray.
    + inj H. apply new_array_astray, Kn.
    + exfalso. apply Y. exact I.
    + destruct (set_idx i0 x g l (i_next st)) as [s r] eqn:E. inj H. destruct (N.lt_ge_cases i0 (len l)) as [L0|L0].
      * exfalso. apply Y. intros j _. exact L0.
      * apply set_idx_out in E; [|exact L0]. destruct E as (l' & -> & _). apply new_array_astray, Kn.
    + exfalso. apply Y. discriminate.
    + destruct (i0 <? len l); inj H; [apply new_array_astray, Kn|exfalso; apply NU; reflexivity].
    + inj H. apply new_array_astray, Kn.
    + exfalso. apply Y. exact I.
    + destruct (use_arr_cases w g (length l)) as [(j & E & _)|[E _]]; rewrite E in H; [|inj H; exfalso; apply NU; reflexivity].
      destruct (Nat.ltb j (length l)); inj H; [apply new_array_astray, Kn|exfalso; apply NU; reflexivity].
  - destruct K as (Lc & S & F).
    assert (Gone : forall k m', p = At k -> obj_find k m' = None -> astray u (BObj c0 m')).
    { intros k m' -> N [i|j|] P'; cbn in P, P'; try contradiction; destruct P as (n & x & Fx & U).
      - destruct P' as (n' & x' & Fx' & U'). rewrite U in U'. injection U' as <- <-. congruence.
      - congruence. }
    assert (Pi : forall i, p <> Pos i) by (intros i ->; exact P).
    destruct c as [x| |x|k x|i0 x|k|i0| |w x|w]; cbn [u_step stays] in *; rewrite ?B in H.
    + inj H. apply fresh_astray, Kn.
    + inj H. apply null_astray.
    + exfalso. apply Y. exact Pi.
    + exfalso. apply Y. exact I.
    + exfalso. apply Y. intros j ->. contradiction.
    + inj H. cbn [i_body]. destruct p as [i|j|]; [contradiction| |exfalso; apply Y; discriminate].
      destruct (str_eqb j k) eqn:E; [apply str_eqb_iff in E; subst j|exfalso; apply Y; intro X; injection X as ->; rewrite str_eqb_refl in E; discriminate].
      apply (Gone k); [reflexivity|]. rewrite find_erase, str_eqb_refl by exact S. reflexivity.
    + exfalso. apply Y. exact Pi.
    + inj H. cbn [i_body]. destruct p as [i|j|]; [contradiction| |exfalso; apply Y; reflexivity]. apply (Gone j); reflexivity.
    + exfalso. apply Y. exact I.
    + destruct (use_obj_cases w c0 m) as [(d & y & E & Ud & Fd)|[[E _]|[E _]]]; rewrite E in H; inj H; try (exfalso; apply NU; reflexivity).
      cbn [i_body]. destruct p as [i|j|]; [contradiction| |exfalso; apply Y; split; [exact Pi|discriminate]].
      destruct (str_eqb j (fst d)) eqn:Ej.
      * apply str_eqb_iff in Ej. subst j. apply (Gone (fst d)); [reflexivity|]. rewrite find_erase, str_eqb_refl by exact S. reflexivity.
      * exfalso. apply Y. split; [exact Pi|]. intros k (n & z & Fz & Uz) X. injection X as <-. rewrite Ud in Uz. injection Uz as ->. cbn in Ej. rewrite str_eqb_refl in Ej. discriminate.
Qed.

(** ** Using what is astray *)
Theorem astray_ub : forall u b n, ok (mkI b n) -> container (view b) -> astray u b ->
  u_entry u b = UB /\ u_incr u b = UB /\ u_decr u b = UB /\ (forall w, u_eq u w b = UB /\ u_eq w u b = UB) /\
  snd (u_step (UErase u) (mkI b n)) = UB /\ (forall x, snd (u_step (UStore u x) (mkI b n)) = UB).
Proof.
  intros u b n K C Q. destruct b as [v|g l|c m]; [contradiction| |].
  - destruct (use_arr_cases u g (length l)) as [(i & E & U & L)|[E _]]; [exfalso; exact (Q (Pos i) (conj U L))|].
    cbn [u_entry u_incr u_decr u_eq u_step i_body i_next]. rewrite E. repeat split.
    destruct (use_arr_cases w g (length l)) as [(i & -> & _)|[-> _]]; reflexivity.
  - destruct (use_obj_cases u c m) as [(d & x & E & U & Fd)|[[E U]|[E _]]].
    + exfalso. destruct d as [k i]. apply (Q (At k)). exists i, x. split; assumption.
    + exfalso. exact (Q End U).
    + cbn [u_entry u_incr u_decr u_eq u_step i_body i_next]. rewrite E. repeat split.
      destruct (use_obj_cases w c m) as [(d & y & -> & _)|[[-> _]|[-> _]]]; reflexivity.
Qed.

(** ** The value *)
Lemma strip_upd : forall k x m q, sorted m -> obj_find k m = Some q ->
  map (fun p => (fst p, snd (snd p))) (upd_entry k x m) = obj_set k x (map (fun p => (fst p, snd (snd p))) m).
Proof.
  intros k x m q S F. induction S as [|k' [n y] m Fa S IH]; cbn [obj_find] in F; [discriminate|]. cbn [upd_entry map fst snd obj_set].
  destruct (str_eqb k k') eqn:E.
  - apply str_eqb_iff in E. subst k'. destruct (str_ltb k k) eqn:L; [apply str_ltb_iff in L; exfalso; exact (key_lt_irrefl _ L)|]. reflexivity.
  - destruct (str_ltb k k') eqn:L; [|cbn [map fst snd]; rewrite (IH F); reflexivity].
    exfalso. apply str_ltb_iff in L. apply find_in' in F. rewrite Forall_forall in Fa. apply Fa in F. cbn [fst] in F.
    exact (key_lt_irrefl _ (key_lt_trans _ _ _ L F)).
Qed.
Lemma strip_emplace : forall k n x (m : list (str * (nat * value))),
  map (fun p => (fst p, snd (snd p))) (obj_emplace k (n, x) m) = obj_emplace k x (map (fun p => (fst p, snd (snd p))) m).
Proof. intros k n x m. symmetry. exact (emplace_vmap _ _ (@snd nat value) k (n, x) m). Qed.
Lemma strip_erase : forall k (m : list (str * (nat * value))),
  map (fun p => (fst p, snd (snd p))) (obj_erase k m) = obj_erase k (map (fun p => (fst p, snd (snd p))) m).
Proof. intros k m. induction m as [|[k' q] m IH]; cbn [obj_erase map fst snd]; [reflexivity|]. destruct (str_eqb k k'); [reflexivity|]. cbn [map fst snd]. rewrite IH. reflexivity. Qed.
Lemma strip_find : forall k (m : list (str * (nat * value))),
  obj_find k (map (fun p => (fst p, snd (snd p))) m) = option_map snd (obj_find k m).
Proof. intros k m. exact (find_vmap _ _ (@snd nat value) k m). Qed.
Lemma strip_number : forall m n, map (fun p => (fst p, snd (snd p))) (number n m) = m.
Proof. induction m as [|[k x] m IH]; intro n; cbn [number map fst snd]; [reflexivity|rewrite IH; reflexivity]. Qed.
Lemma fresh_view : forall n v, view (i_body (fresh n v)) = v.
Proof. intros n v. destruct v; cbn [fresh i_body view]; try reflexivity. rewrite strip_number. reflexivity. Qed.

Lemma set_idx_view : forall i x g l n s r, set_idx i x g l n = (s, r) ->
  exists o, via_idx i (run_op (Assign x)) (VArr l) = (view (i_body s), o) /\ alike r o.
Proof.
  intros i x g l n s r H. unfold set_idx in H. unfold via_idx. destruct (N.leb_spec (len l) i) as [L|L].
  - set (l' := l ++ repeat VNull (N.to_nat (u64 (i + 18446744073709551616 - len l + 1)))) in *. unfold in_elem.
    destruct (N.ltb_spec i (len l')) as [L'|L']; injection H as <- <-.
    + destruct (nth_error l' (N.to_nat i)) as [y|] eqn:E; [|apply nth_error_None in E; unfold len in L'; lia]. cbn. eexists. split; [reflexivity|exact I].
    + destruct (nth_error l' (N.to_nat i)) as [y|] eqn:E; [|cbn; eexists; split; [reflexivity|exact I]].
      assert (X : (N.to_nat i < length l')%nat) by (apply nth_error_Some; congruence). unfold len in L'. lia.
  - injection H as <- <-. unfold in_elem. destruct (nth_error l (N.to_nat i)) as [y|] eqn:E; [|apply nth_error_None in E; unfold len in L; lia].
    cbn. eexists. split; [reflexivity|exact I].
Qed.

Theorem step_view : forall c f st st' o, plain c = Some f -> ok st -> u_step c st = (st', o) -> exists r, f (view (i_body st)) = (view (i_body st'), r) /\ alike o r.
Proof.
  intros c f st st' o Pl K H. unfold ok in K.
  destruct c as [x| |x|k x|i0 x|k|i0| |w x|w]; cbn [plain] in Pl; try discriminate; injection Pl as <-; cbn [u_step] in H.
  - inj H. rewrite fresh_view. eexists. split; [reflexivity|exact I].
  - destruct (i_body st) as [v|g l|c m] eqn:B; [destruct v| |]; inj H; rewrite ?B; try (eexists; split; [reflexivity|try exact I; reflexivity]);
      exfalso; apply K; ((left; reflexivity) || (right; reflexivity)).
  - unfold run. cbn [via via1].
    destruct (i_body st) as [v|g l|c m] eqn:B; [destruct v| |]; inj H; rewrite ?B; try (eexists; split; [reflexivity|try exact I; reflexivity]);
      try (exfalso; apply K; ((left; reflexivity) || (right; reflexivity))).
    + cbn. unfold in_member. cbn. rewrite str_eqb_refl. cbn. destruct (str_ltb k k) eqn:L; [apply str_ltb_iff in L; exfalso; exact (key_lt_irrefl _ L)|].
      eexists. split; [reflexivity|exact I].
    + destruct K as (_ & S & _). cbn [view via_key i_body]. unfold in_member. rewrite <- (strip_emplace k (i_next st) VNull m), strip_find, find_emplace by exact S.
      assert (E : exists q, obj_find k (obj_emplace k (i_next st, VNull) m) = Some q).
      { rewrite find_emplace by exact S. rewrite str_eqb_refl. destruct (obj_find k m); eexists; reflexivity. }
      destruct E as [q E]. rewrite (strip_upd k x _ q (emplace_sorted _ _ _ _ S) E). rewrite str_eqb_refl.
      destruct (obj_find k m); cbn; eexists; (split; [reflexivity|exact I]).
  - unfold run. cbn [via via1].
    destruct (i_body st) as [v|g l|c m] eqn:B; [destruct v| |]; try (inj H; rewrite ?B; eexists; split; [reflexivity|reflexivity]);
      try (exfalso; apply K; ((left; reflexivity) || (right; reflexivity))).
    + destruct (set_idx i0 x (i_next st) [] (S (i_next st))) as [s r] eqn:E. inj H. apply set_idx_view in E. destruct E as (q & E & A).
      exists q. split; [exact E|]. destruct r, q; cbn in *; try contradiction; try exact I; exact A.
    + destruct (set_idx i0 x g l (i_next st)) as [s r] eqn:E. inj H. apply set_idx_view in E. destruct E as (q & E & A).
      exists q. split; [exact E|]. destruct r, q; cbn in *; try contradiction; try exact I; exact A.
  - destruct (i_body st) as [v|g l|c m] eqn:B; [destruct v| |]; inj H; rewrite ?B; try (eexists; split; [reflexivity|try exact I; reflexivity]);
      try (exfalso; apply K; ((left; reflexivity) || (right; reflexivity))).
    cbn [view run_op v_erase_key rmap i_body]. rewrite strip_erase. eexists. split; [reflexivity|]. rewrite strip_find. destruct (obj_find k m); exact I.
  - destruct (i_body st) as [v|g l|c m] eqn:B; [destruct v| |]; try (inj H; rewrite ?B; eexists; split; [reflexivity|reflexivity]);
      try (exfalso; apply K; ((left; reflexivity) || (right; reflexivity))).
    cbn [view run_op v_erase_idx rmap]. destruct (i0 <? len l); inj H; rewrite ?B; eexists; (split; [reflexivity|exact I]).
  - destruct (i_body st) as [v|g l|c m] eqn:B; inj H; eexists; (split; [reflexivity|exact I]).
Qed.
