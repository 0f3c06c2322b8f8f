(** Iterators that outlive changes: programs, erasing, loops. *)
From Coq Require Import ZArith Lia.
From Verif Require Import Base Value ValueOps SpecGrammar SpecIter ObjFacts ValueProofs HeapPaths IterUse SpecIterUse IterUseProofs IterUseMain IterUseWalk.
Open Scope N_scope.

(** ** Iterators just obtained *)
Lemma node_low : forall n (m : nmap) e, low n m -> In e m -> (fst (snd e) < n)%nat.
Proof. intros n m e L H. unfold low in L. rewrite Forall_forall in L. exact (L _ H). Qed.
Lemma first_low : forall n (m : nmap) k i, low n m -> first m = Some (k, i) -> (i < n)%nat.
Proof. intros n [|e m] k i L H; [discriminate|]. injection H as <- <-. apply (node_low _ _ _ L). left. reflexivity. Qed.
Lemma last_low : forall n (m : nmap) k i, low n m -> last_node m = Some (k, i) -> (i < n)%nat.
Proof.
  intros n m k i L H. destruct m as [|e m _] using rev_ind; [discriminate|]. rewrite last_snoc in H. injection H as <- <-.
  apply (node_low _ _ _ L). apply in_or_app. right. left. reflexivity.
Qed.
Lemma after_low : forall n (m : nmap) j k i, low n m -> after j m = Some (k, i) -> (i < n)%nat.
Proof.
  intros n m j k i L H. induction m as [|[k' q] m IH]; cbn [after] in H; [discriminate|]. inversion L; subst.
  destruct (str_eqb j k'); [exact (first_low _ _ _ _ H3 H)|]. exact (IH H3 H).
Qed.
Lemma before_low : forall n (m : nmap) j p k i, low n m -> (forall k i, p = Some (k, i) -> (i < n)%nat) -> before j p m = Some (k, i) -> (i < n)%nat.
Proof.
  intros n m j. induction m as [|e m IH]; intros p k i L P H; cbn [before] in H; [discriminate|]. inversion L; subst.
  destruct (str_eqb j (fst e)); [exact (P _ _ H)|]. apply (IH _ _ _ H3) in H; [exact H|]. intros k0 i0 X. injection X as <- <-. assumption.
Qed.

Lemma known_none : forall st, known st u_none.
Proof. intro st. split; intros; discriminate. Qed.
Lemma known_prim : forall st u z, known st u -> known st (with_prim u z).
Proof. intros st u z H. exact H. Qed.
Lemma known_arr : forall st u g i, known st u -> (g < i_next st)%nat -> known st (with_arr u (g, i)).
Proof. intros st u g i [A O] L. split; [|exact O]. intros g' i' X. injection X as <- <-. exact L. Qed.
Lemma known_obj : forall st u c o, known st u -> (c < i_next st)%nat -> (forall k n, o = Some (k, n) -> (n < i_next st)%nat) -> known st (with_obj u (c, o)).
Proof. intros st u c o [A O] L X. split; [exact A|]. intros c' o' Y. injection Y as <- <-. split; assumption. Qed.

Theorem made_known : forall st, ok st -> known st (u_begin (i_body st)) /\ known st (u_end (i_body st)) /\ forall k, known st (u_find k (i_body st)).
Proof.
  intros st K. unfold ok in K. destruct (i_body st) as [v|g l|c m].
  - assert (E : known st (u_end (BVal v))) by (destruct v; apply known_none || apply (known_prim st u_none 1), known_none).
    split; [apply known_none|]. split; [exact E|]. intro k. exact E.
  - repeat split; intros; cbn in *; try discriminate; congruence.
  - destruct K as (Lc & S & F). split; [|split; [|intro k]]; cbn [u_begin u_end u_find]; apply known_obj; try apply known_none; try exact Lc; intros j n X.
    + exact (first_low _ _ _ _ F X).
    + discriminate.
    + destruct (obj_find k m) as [[i x]|] eqn:E; [|discriminate]. injection X as <- <-. exact (low_find _ _ _ _ _ F E).
Qed.

Theorem moved_known : forall st u u', ok st -> known st u -> u_incr u (i_body st) = Ret u' \/ u_decr u (i_body st) = Ret u' -> known st u'.
Proof.
  intros st u u' K Kn H. unfold ok in K. destruct (i_body st) as [v|g l|c m].
  - destruct v; cbn in H; destruct H as [H|H]; injection H as <-; exact Kn.
  - cbn [u_incr u_decr] in H. destruct (use_arr_cases u g (length l)) as [(i & E & _)|[E _]]; rewrite E in H; cbn [bind] in H; [|destruct H; discriminate].
    destruct H as [H|H]; [destruct (Nat.ltb i (length l)); [|discriminate]|destruct i; [discriminate|]]; injection H as <-; apply known_arr; assumption.
  - destruct K as (Lc & S & F). cbn [u_incr u_decr] in H.
    destruct (use_obj_cases u c m) as [(d & x & E & _)|[[E _]|[E _]]]; rewrite E in H; cbn [bind] in H; [| |destruct H; discriminate].
    + destruct H as [H|H].
      * injection H as <-. apply known_obj; [exact Kn|exact Lc|]. intros k n X. exact (after_low _ _ _ _ _ F X).
      * destruct (before (fst d) None m) as [[k n]|] eqn:X; [|discriminate]. injection H as <-. apply known_obj; [exact Kn|exact Lc|].
        intros k0 n0 Y. injection Y as <- <-. refine (before_low _ _ _ _ _ _ F _ X). discriminate.
    + destruct H as [H|H]; [discriminate|]. destruct (last_node m) as [[k n]|] eqn:X; [|discriminate]. injection H as <-. apply known_obj; [exact Kn|exact Lc|].
      intros k0 n0 Y. injection Y as <- <-. exact (last_low _ _ _ _ F X).
Qed.

Theorem step_known : forall c st st' o u, tidy c -> ok st -> known st u -> u_step c st = (st', o) -> ok st' /\ known st' u /\ forall w, o = Ret w -> known st' w.
Proof.
  intros c st st' o u T K Kn H. destruct (step_ok _ _ _ _ T K H) as [K' L]. split; [exact K'|]. split; [exact (known_more _ _ _ L Kn)|].
  intros w ->. destruct c as [x| |x|k x|i0 x|k|i0| |w0 x|w0]; cbn [u_step] in H.
  - injection H as _ <-. apply known_none.
  - injection H as _ <-. apply known_none.
  - destruct (i_body st) as [[]| |]; inversion H; subst; apply known_none.
  - destruct (i_body st) as [[]| |]; inversion H; subst; apply known_none.
  - destruct (i_body st) as [[]| |]; try discriminate.
    + destruct (set_idx _ _ _ _ _) as [s [q|e| | |]]; inversion H; subst; apply known_none.
    + destruct (set_idx _ _ _ _ _) as [s [q|e| | |]]; inversion H; subst; apply known_none.
  - destruct (i_body st) as [[]| |]; inversion H; subst; apply known_none.
  - destruct (i_body st) as [[]| |]; try discriminate. destruct (i0 <? len l); inversion H; subst; apply known_none.
  - destruct (i_body st) as [[]| |]; inversion H; subst; apply known_none.
  - destruct (u_entry w0 (i_body st)) as [[[k|] y]|e| | |]; try discriminate; destruct (i_body st) as [v| |]; try (destruct (u_arr w0) as [[g' j]|]); inversion H; subst; apply known_none.
  - unfold ok in K. destruct (i_body st) as [v|g l|c m]; [discriminate| |].
    + destruct (use_arr_cases w0 g (length l)) as [(i & E & _)|[E _]]; rewrite E in H; [|discriminate].
      destruct (Nat.ltb i (length l)); [|discriminate]. injection H as <- <-. cbn. split; intros; cbn in *; [|discriminate]. injection H as <- <-. lia.
    + destruct K as (Lc & S & F). destruct (use_obj_cases w0 c m) as [(d & x & E & _)|[[E _]|[E _]]]; rewrite E in H; try discriminate.
      injection H as <- <-. apply known_obj; [apply (proj1 (proj2 (made_known (mkI (BObj c m) (i_next st)) (conj Lc (conj S F)))))|exact Lc|].
      intros k n X. exact (after_low _ _ _ _ _ F X).
Qed.

(** ** Programs *)
Theorem run_stays : forall cs st st' os u p, Forall tidy cs -> ok st -> known st u -> u_run cs st = (st', os) -> ~ In UB os ->
  stands u (i_body st) p -> stays_all cs st p -> ok st' /\ stands u (i_body st') p.
Proof.
  induction cs as [|c cs IH]; intros st st' os u p T K Kn H N P Y; cbn [u_run stays_all] in *.
  - injection H as <- <-. split; assumption.
  - inversion T; subst. destruct Y as [Y1 Y2]. destruct (u_step c st) as [st1 o] eqn:E.
    assert (NU : o <> UB).
    { intros ->. injection H as <- <-. apply N. left. reflexivity. }
    destruct (step_known _ _ _ _ _ H2 K Kn E) as (K1 & Kn1 & _). assert (P1 := stays_put _ _ _ _ _ _ K P E NU Y1).
    destruct o as [w|e| | |]; try (injection H as <- <-; split; assumption); try (exfalso; apply NU; reflexivity);
      destruct (u_run cs st1) as [st2 rs] eqn:E2; injection H as <- <-;
      (refine (IH _ _ _ _ _ H3 K1 Kn1 E2 _ P1 (Y2 _ _ eq_refl)); intro X; apply N; right; exact X).
Qed.

Theorem run_astray : forall cs st st' os u, Forall tidy cs -> ok st -> known st u -> u_run cs st = (st', os) -> astray u (i_body st) -> astray u (i_body st').
Proof.
  induction cs as [|c cs IH]; intros st st' os u T K Kn H Q; cbn [u_run] in *.
  - injection H as <- <-. exact Q.
  - inversion T; subst. destruct (u_step c st) as [st1 o] eqn:E.
    destruct (step_known _ _ _ _ _ H2 K Kn E) as (K1 & Kn1 & _). assert (Q1 := for_good _ _ _ _ _ K Kn Q E).
    destruct o as [w|e| | |]; try (injection H as <- <-; exact Q1);
      destruct (u_run cs st1) as [st2 rs] eqn:E2; injection H as <- <-; exact (IH _ _ _ _ H3 K1 Kn1 E2 Q1).
Qed.

(** ** erase(iterator) and *iterator = x *)
Definition elems_arr (l : list value) : list (option str * value) := map (fun x => (None, x)) l.
Definition elems_obj (m : nmap) : list (option str * value) := map (fun p => (Some (fst p), snd (snd p))) m.
Lemma elements_arr : forall l, elements (VArr l) (elems_arr l). Proof. intro l. constructor. Qed.
Lemma elements_obj : forall c m, elements (view (BObj c m)) (elems_obj m).
Proof. intros c m. cbn [view]. unfold elems_obj. rewrite <- (map_map (fun p : str * (nat * value) => (fst p, snd (snd p))) (fun p => (Some (fst p), snd p))). constructor. Qed.

Theorem erases : forall u st p, ok st -> stands u (i_body st) p ->
  (p = end_spot (i_body st) -> snd (u_step (UErase u) st) = UB) /\
  (p <> end_spot (i_body st) -> exists st' u' es1 e es2, u_step (UErase u) st = (st', Ret u') /\
     type_of (view (i_body st')) = type_of (view (i_body st)) /\ found (view (i_body st)) p e /\
     elements (view (i_body st)) (es1 ++ e :: es2) /\ elements (view (i_body st')) (es1 ++ es2) /\
     (forall i, p = Pos i -> i = length es1 /\ stands u' (i_body st') (Pos i)) /\
     (forall k, p = At k -> match es2 with
                            | (Some k', _) :: _ => stands u' (i_body st') (At k')
                            | _ => es2 = [] /\ stands u' (i_body st') End
                            end)).
Proof.
  intros u st p K P. unfold ok in K. cbn [u_step]. destruct (i_body st) as [v|g l|c m] eqn:B; [destruct p; contradiction P| |].
  - destruct p as [i|k|]; try contradiction P. destruct P as [U L]. rewrite (use_arr_at _ _ _ _ U L). cbn [end_spot]. split; intro E.
    + injection E as ->. rewrite Nat.ltb_irrefl. reflexivity.
    + assert (L' : (i < length l)%nat) by (destruct (Nat.eq_dec i (length l)) as [->|]; [exfalso; apply E; reflexivity|lia]).
      destruct (split_at _ l i L') as (l1 & x & l2 & -> & <-). apply Nat.ltb_lt in L'. rewrite L', remove_mid.
      eexists; eexists. exists (elems_arr l1), (None, x), (elems_arr l2). split; [reflexivity|]. split; [reflexivity|]. split; [constructor|].
      split; [cbn [view]; replace (elems_arr l1 ++ (None, x) :: elems_arr l2) with (elems_arr (l1 ++ x :: l2)) by apply map_app; apply elements_arr|].
      split; [cbn [view i_body]; replace (elems_arr l1 ++ elems_arr l2) with (elems_arr (l1 ++ l2)) by apply map_app; apply elements_arr|].
      split; [|discriminate]. intros i X. injection X as <-. split; [symmetry; apply map_length|]. split; [reflexivity|]. rewrite app_length. lia.
  - destruct K as (Lc & S & F). destruct p as [i|k|]; try contradiction P; cbn [end_spot]; (split; intro E; try congruence).
    + destruct P as (n & x & Fk & U). rewrite (use_obj_at _ _ _ _ _ _ U Fk). cbn [fst]. apply find_split in Fk. destruct Fk as (m1 & m2 & -> & N).
      rewrite after_mid, erase_mid by exact N. destruct (sorted_mid _ _ _ _ _ S) as (S2 & L1 & L2 & S12).
      eexists; eexists. exists (elems_obj m1), (Some k, x), (elems_obj m2). split; [reflexivity|]. split; [reflexivity|].
      split; [constructor; apply (strip_in _ k n x); apply in_or_app; right; left; reflexivity|].
      split; [replace (elems_obj m1 ++ (Some k, x) :: elems_obj m2) with (elems_obj (m1 ++ (k, (n, x)) :: m2)) by apply map_app; apply elements_obj|].
      split; [replace (elems_obj m1 ++ elems_obj m2) with (elems_obj (m1 ++ m2)) by apply map_app; apply (elements_obj c)|].
      split; [discriminate|]. intros k0 _. destruct m2 as [|[k' [n' x']] m2]; [split; reflexivity|]. cbn [elems_obj map fst snd].
      exists n', x'. split; [|reflexivity]. apply find_mid. exact (not_before _ _ _ _ _ S12).
    + rewrite (use_obj_end _ _ _ P). reflexivity.
Qed.

Theorem stores : forall u x st p, ok st -> stands u (i_body st) p -> p <> end_spot (i_body st) ->
  exists st' es1 o y es2, u_step (UStore u x) st = (st', Ret u_none) /\ type_of (view (i_body st')) = type_of (view (i_body st)) /\
    found (view (i_body st)) p (o, y) /\ elements (view (i_body st)) (es1 ++ (o, y) :: es2) /\ elements (view (i_body st')) (es1 ++ (o, x) :: es2) /\
    (forall i, p = Pos i -> i = length es1).
Proof.
  intros u x st p K P E. unfold ok in K. cbn [u_step]. destruct (i_body st) as [v|g l|c m] eqn:B; [destruct p; contradiction P| |].
  - destruct p as [i|k|]; try contradiction P. destruct P as [U L]. cbn [end_spot] in E. cbn [u_entry]. rewrite (use_arr_at _ _ _ _ U L). cbn [bind].
    destruct (split_at _ l i) as (l1 & y & l2 & -> & <-); [destruct (Nat.eq_dec i (length l)) as [->|]; [exfalso; apply E; reflexivity|lia]|].
    rewrite nth_mid, U, set_mid. eexists. exists (elems_arr l1), None, y, (elems_arr l2). split; [reflexivity|]. split; [reflexivity|]. split; [constructor|].
    split; [cbn [view]; replace (elems_arr l1 ++ (None, y) :: elems_arr l2) with (elems_arr (l1 ++ y :: l2)) by apply map_app; apply elements_arr|].
    split; [cbn [view i_body]; replace (elems_arr l1 ++ (None, x) :: elems_arr l2) with (elems_arr (l1 ++ x :: l2)) by apply map_app; apply elements_arr|].
    intros i X. injection X as <-. symmetry. apply map_length.
  - destruct p as [i|k|]; try contradiction P; cbn [end_spot] in E; [|exfalso; apply E; reflexivity].
    destruct P as (n & y & Fk & U). cbn [u_entry]. rewrite (use_obj_at _ _ _ _ _ _ U Fk). cbn [bind fst]. apply find_split in Fk. destruct Fk as (m1 & m2 & -> & N).
    rewrite upd_entry_mid by exact N. eexists. exists (elems_obj m1), (Some k), y, (elems_obj m2). split; [reflexivity|]. split; [reflexivity|].
    split; [constructor; apply (strip_in _ k n y); apply in_or_app; right; left; reflexivity|].
    split; [replace (elems_obj m1 ++ (Some k, y) :: elems_obj m2) with (elems_obj (m1 ++ (k, (n, y)) :: m2)) by apply map_app; apply elements_obj|].
    split; [replace (elems_obj m1 ++ (Some k, x) :: elems_obj m2) with (elems_obj (m1 ++ (k, (n, x)) :: m2)) by apply map_app; apply (elements_obj c)|].
    discriminate.
Qed.
