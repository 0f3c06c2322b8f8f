(** Iterators that outlive changes: reading, walking, loops. *)
From Coq Require Import ZArith Lia.
From Verif Require Import Base Value ValueOps SpecGrammar SpecIter ObjFacts ValueProofs HeapPaths IterUse SpecIterUse IterUseProofs IterUseMain.
Open Scope N_scope.

Notation nmap := (list (str * (nat * value))).

(** ** Sorted maps around a key *)
Lemma sorted_mid : forall A (m1 : list (str * A)) k q m2, sorted (m1 ++ (k, q) :: m2) ->
  sorted m2 /\ (forall j, In j (map fst m1) -> key_lt j k) /\ (forall j, In j (map fst m2) -> key_lt k j) /\ sorted (m1 ++ m2).
Proof.
  induction m1 as [|[k' q'] m1 IH]; intros k q m2 S; inversion S as [|? ? ? F S']; subst.
  - cbn [app]. repeat split; [exact S'|contradiction| |exact S'].
    intros j Hj. apply (Forall_fst _ (fun x => key_lt k x)) with (x := j) in F; assumption.
  - destruct (IH _ _ _ S') as (S2 & L1 & L2 & S12). cbn [app]. repeat split; try assumption.
    + intros j [<-|Hj]; [|exact (L1 _ Hj)]. cbn [fst]. rewrite Forall_forall in F. apply (F (k, q)). apply in_or_app. right. left. reflexivity.
    + constructor; [|exact S12]. rewrite Forall_forall in *. intros p Hp. apply F. apply in_app_or in Hp. apply in_or_app.
      destruct Hp; [left|right; right]; assumption.
Qed.
Lemma not_before : forall A (m1 : list (str * A)) k q m2, sorted (m1 ++ (k, q) :: m2) -> ~ In k (map fst m1).
Proof. intros A m1 k q m2 S X. apply sorted_mid in S. destruct S as (_ & L & _). exact (key_lt_irrefl _ (L _ X)). Qed.

Lemma after_mid : forall (m1 : nmap) k q m2, ~ In k (map fst m1) -> after k (m1 ++ (k, q) :: m2) = first m2.
Proof.
  induction m1 as [|[k' q'] m1 IH]; intros k q m2 N; cbn [app after].
  - rewrite str_eqb_refl. reflexivity.
  - destruct (str_eqb k k') eqn:E; [apply str_eqb_iff in E; subst; exfalso; apply N; left; reflexivity|].
    apply IH. intro X. apply N. right. exact X.
Qed.
Lemma last_some : forall (m : nmap) e, exists d, last_node (e :: m) = Some d.
Proof. induction m as [|p m IH]; intro e; [eexists; reflexivity|]. exact (IH p). Qed.
Lemma before_mid : forall (m1 : nmap) k q m2 p, ~ In k (map fst m1) ->
  before k p (m1 ++ (k, q) :: m2) = match last_node m1 with Some d => Some d | None => p end.
Proof.
  induction m1 as [|[k' q'] m1 IH]; intros k q m2 p N; cbn [app before fst].
  - rewrite str_eqb_refl. reflexivity.
  - destruct (str_eqb k k') eqn:E; [apply str_eqb_iff in E; subst; exfalso; apply N; left; reflexivity|].
    rewrite IH by (intro X; apply N; right; exact X). destruct m1 as [|e m1]; [reflexivity|].
    change (last_node ((k', q') :: e :: m1)) with (last_node (e :: m1)). destruct (last_some m1 e) as [d ->]. reflexivity.
Qed.
Lemma last_snoc : forall (m : nmap) e, last_node (m ++ [e]) = Some (node_of e).
Proof. induction m as [|p m IH]; intro e; [reflexivity|]. cbn [app last_node]. rewrite IH. destruct (m ++ [e]) eqn:X; [destruct m; discriminate|reflexivity]. Qed.
Lemma erase_mid : forall A (m1 : list (str * A)) k q m2, ~ In k (map fst m1) -> obj_erase k (m1 ++ (k, q) :: m2) = m1 ++ m2.
Proof.
  induction m1 as [|[k' q'] m1 IH]; intros k q m2 N; cbn [app obj_erase].
  - rewrite str_eqb_refl. reflexivity.
  - destruct (str_eqb k k') eqn:E; [apply str_eqb_iff in E; subst; exfalso; apply N; left; reflexivity|].
    rewrite IH by (intro X; apply N; right; exact X). reflexivity.
Qed.
Lemma upd_entry_mid : forall (m1 : nmap) k n y x m2, ~ In k (map fst m1) -> upd_entry k x (m1 ++ (k, (n, y)) :: m2) = m1 ++ (k, (n, x)) :: m2.
Proof.
  induction m1 as [|[k' [n' q']] m1 IH]; intros k n y x m2 N; cbn [app upd_entry].
  - rewrite str_eqb_refl. reflexivity.
  - destruct (str_eqb k k') eqn:E; [apply str_eqb_iff in E; subst; exfalso; apply N; left; reflexivity|].
    rewrite IH by (intro X; apply N; right; exact X). reflexivity.
Qed.
Lemma remove_mid : forall A (l1 : list A) x l2, remove_nth (length l1) (l1 ++ x :: l2) = l1 ++ l2.
Proof. induction l1 as [|y l1 IH]; intros x l2; cbn; [reflexivity|rewrite IH; reflexivity]. Qed.
Lemma set_mid : forall A (l1 : list A) x y l2, set_nth (length l1) y (l1 ++ x :: l2) = l1 ++ y :: l2.
Proof. induction l1 as [|z l1 IH]; intros x y l2; cbn; [reflexivity|rewrite IH; reflexivity]. Qed.
Lemma nth_mid : forall A (l1 : list A) x l2, nth_error (l1 ++ x :: l2) (length l1) = Some x.
Proof. induction l1 as [|z l1 IH]; intros x l2; [reflexivity|]. cbn [length app nth_error]. apply IH. Qed.
Lemma split_at : forall A (l : list A) i, (i < length l)%nat -> exists l1 x l2, l = l1 ++ x :: l2 /\ length l1 = i.
Proof.
  intros A l i L. destruct (nth_error l i) as [x|] eqn:E; [|apply nth_error_None in E; lia].
  apply nth_error_split in E. destruct E as (l1 & l2 & -> & <-). exists l1, x, l2. split; reflexivity.
Qed.

Lemma strip_in : forall (m : nmap) k n x, In (k, (n, x)) m -> In (k, x) (map (fun p => (fst p, snd (snd p))) m).
Proof. intros m k n x H. apply in_map_iff. exists (k, (n, x)). split; [reflexivity|exact H]. Qed.
Lemma strip_keys : forall m : nmap, map fst (map (fun p => (fst p, snd (snd p))) m) = map fst m.
Proof. intro m. rewrite map_map. reflexivity. Qed.
Lemma in_key : forall A (m1 : list (str * A)) k q m2, In k (map fst (m1 ++ (k, q) :: m2)).
Proof. intros. rewrite map_app. apply in_or_app. right. left. reflexivity. Qed.
Lemma in_mid : forall A (m1 : list (str * A)) k q m2 j, In j (map fst (m1 ++ (k, q) :: m2)) -> In j (map fst m1) \/ j = k \/ In j (map fst m2).
Proof. intros A m1 k q m2 j H. rewrite map_app in H. apply in_app_or in H. destruct H as [H|[H|H]]; [left; exact H|right; left; symmetry; exact H|right; right; exact H]. Qed.

(** ** Reading *)
Theorem reads : forall u st p, ok st -> stands u (i_body st) p ->
  (p <> end_spot (i_body st) -> exists e, u_entry u (i_body st) = Ret e /\ found (view (i_body st)) p e) /\
  (p = end_spot (i_body st) -> exists e, u_entry u (i_body st) = Throw e /\ out_of_range (view (i_body st)) e).
Proof.
  intros u st p K P. unfold ok in K. destruct (i_body st) as [v|g l|c m]; [destruct p; contradiction P| |].
  - destruct p as [i|k|]; try contradiction P. destruct P as [U L]. cbn [u_entry end_spot view]. rewrite (use_arr_at _ _ _ _ U L). cbn [bind]. split; intro E.
    + destruct (split_at _ l i) as (l1 & x & l2 & -> & <-); [destruct (Nat.eq_dec i (length l)) as [->|]; [exfalso; apply E; reflexivity|lia]|].
      rewrite nth_mid. eexists. split; [reflexivity|constructor].
    + injection E as ->. rewrite (proj2 (nth_error_None l (length l))) by lia. eexists. split; [reflexivity|constructor].
  - destruct p as [i|k|]; try contradiction P; cbn [u_entry end_spot view]; (split; intro E; try congruence).
    + destruct P as (n & x & F & U). rewrite (use_obj_at _ _ _ _ _ _ U F). eexists. split; [reflexivity|]. constructor. apply find_in' in F. exact (strip_in _ _ _ _ F).
    + rewrite (use_obj_end _ _ _ P). eexists. split; [reflexivity|constructor].
Qed.

(** other types: whatever the iterator was made for *)
Theorem reads_scalar : forall u v, scalar v ->
  u_entry u (BVal v) = (if Z.eqb (u_prim u) 0 then Ret (None, v) else Throw (EOutOfRange "primitive iterator out of range")) /\
  u_incr u (BVal v) = Ret (with_prim u (u_prim u + 1)) /\ u_decr u (BVal v) = Ret (with_prim u (u_prim u - 1)).
Proof. intros u v [C N]. destruct v; try (exfalso; apply N; reflexivity); try (exfalso; apply C; ((left; reflexivity) || (right; reflexivity))); repeat split; reflexivity. Qed.
Theorem reads_null : forall u, u_entry u (BVal VNull) = Throw (EOutOfRange "null iterator out of range") /\ u_incr u (BVal VNull) = Ret u /\ u_decr u (BVal VNull) = Ret u.
Proof. intro u. repeat split. Qed.

(** ** begin, end, find *)
Theorem taken : forall st, ok st -> container (view (i_body st)) ->
  (exists p, first_spot (i_body st) p /\ stands (u_begin (i_body st)) (i_body st) p) /\
  stands (u_end (i_body st)) (i_body st) (end_spot (i_body st)) /\
  (forall c m k, i_body st = BObj c m ->
     (In k (map fst m) -> stands (u_find k (i_body st)) (i_body st) (At k)) /\ (~ In k (map fst m) -> stands (u_find k (i_body st)) (i_body st) End)).
Proof.
  intros st K C. unfold ok in K. destruct (i_body st) as [v|g l|c m]; [contradiction| |].
  - split; [exists (Pos 0); split; [constructor|split; [reflexivity|lia]]|]. split; [split; [reflexivity|lia]|]. intros c m k X. discriminate.
  - destruct K as (Lc & S & F). split; [|split; [reflexivity|]].
    + destruct m as [|[k [n x]] m]; [exists End; split; [constructor|reflexivity]|]. exists (At k). split.
      * constructor; [left; reflexivity|]. destruct (sorted_mid _ [] _ _ _ S) as (_ & _ & L & _). intros j [<-|Hj] X; [exact (key_lt_irrefl _ X)|].
        exact (key_lt_irrefl _ (key_lt_trans _ _ _ X (L _ Hj))).
      * exists n, x. cbn [obj_find]. rewrite str_eqb_refl. split; reflexivity.
    + intros c0 m0 k X. injection X as <- <-. cbn [u_find]. split; intro H.
      * destruct (obj_find k m) as [[n x]|] eqn:E; [exists n, x; split; [exact E|reflexivity]|].
        exfalso. apply in_map_iff in H. destruct H as ([k0 q] & <- & H). exact (proj1 (find_no _ _ _) E q H).
      * destruct (obj_find k m) as [[n x]|] eqn:E; [|reflexivity]. exfalso. apply H. apply find_in' in E. apply in_map_iff. exists (k, (n, x)). split; [reflexivity|exact E].
Qed.

(** ** Walking *)
Theorem walks : forall u st p, ok st -> stands u (i_body st) p ->
  (p <> end_spot (i_body st) -> exists u' p', u_incr u (i_body st) = Ret u' /\ next_spot (i_body st) p p' /\ stands u' (i_body st) p') /\
  (p = end_spot (i_body st) -> u_incr u (i_body st) = UB).
Proof.
  intros u st p K P. unfold ok in K. destruct (i_body st) as [v|g l|c m]; [destruct p; contradiction P| |].
  - destruct p as [i|k|]; try contradiction P. destruct P as [U L]. cbn [u_incr end_spot]. rewrite (use_arr_at _ _ _ _ U L). cbn [bind]. split; intro E.
    + assert (L' : (i < length l)%nat) by (destruct (Nat.eq_dec i (length l)) as [->|]; [exfalso; apply E; reflexivity|lia]).
      apply Nat.ltb_lt in L' as L''. rewrite L''. eexists. exists (Pos (Datatypes.S i)). split; [reflexivity|]. split; [|split; [reflexivity|exact L']].
      constructor. cbn. unfold len. lia.
    + injection E as ->. rewrite Nat.ltb_irrefl. reflexivity.
  - destruct K as (Lc & S & F). destruct p as [i|k|]; try contradiction P; cbn [u_incr end_spot]; (split; intro E; try congruence).
    + destruct P as (n & x & Fk & U). rewrite (use_obj_at _ _ _ _ _ _ U Fk). cbn [bind fst]. apply find_split in Fk. destruct Fk as (m1 & m2 & -> & N).
      rewrite after_mid by exact N. eexists. destruct (sorted_mid _ _ _ _ _ S) as (S2 & L1 & L2 & _).
      destruct m2 as [|[k' [n' x']] m2].
      * exists End. split; [reflexivity|]. split; [|reflexivity]. constructor; [apply in_key|].
        intros j Hj X. apply in_mid in Hj. destruct Hj as [Hj|[->|[]]]; [|exact (key_lt_irrefl _ X)]. exact (key_lt_irrefl _ (key_lt_trans _ _ _ X (L1 _ Hj))).
      * exists (At k'). split; [reflexivity|].
        assert (Lk : key_lt k k') by (apply L2; left; reflexivity).
        destruct (sorted_mid _ [] _ _ _ S2) as (_ & _ & L3 & _).
        split.
        -- constructor; [apply in_key| |exact Lk|].
           ++ cbn [members]. rewrite map_app. apply in_or_app. right. right. left. reflexivity.
           ++ intros j Hj [X1 X2]. apply in_mid in Hj. destruct Hj as [Hj|[->|[<-|Hj]]].
              ** exact (key_lt_irrefl _ (key_lt_trans _ _ _ X1 (L1 _ Hj))).
              ** exact (key_lt_irrefl _ X1).
              ** exact (key_lt_irrefl _ X2).
              ** exact (key_lt_irrefl _ (key_lt_trans _ _ _ X2 (L3 _ Hj))).
        -- exists n', x'. split; [|reflexivity].
           replace (m1 ++ (k, (n, x)) :: (k', (n', x')) :: m2) with ((m1 ++ [(k, (n, x))]) ++ (k', (n', x')) :: m2) in * by (rewrite <- app_assoc; reflexivity).
           apply find_mid. exact (not_before _ _ _ _ _ S).
    + rewrite (use_obj_end _ _ _ P). reflexivity.
Qed.

Theorem walks_back : forall u st p, ok st -> stands u (i_body st) p ->
  (first_spot (i_body st) p -> u_decr u (i_body st) = UB) /\
  (~ first_spot (i_body st) p -> exists u', u_decr u (i_body st) = Ret u' /\
     exists p', stands u' (i_body st) p' /\ p' <> end_spot (i_body st) /\
     match p with
     | End => forall j, In j (members (i_body st)) -> ~ (exists k, p' = At k /\ key_lt k j)
     | _ => next_spot (i_body st) p' p
     end).
Proof.
  intros u st p K P. unfold ok in K. destruct (i_body st) as [v|g l|c m]; [destruct p; contradiction P| |].
  - destruct p as [i|k|]; try contradiction P. destruct P as [U L]. cbn [u_decr end_spot]. rewrite (use_arr_at _ _ _ _ U L). cbn [bind]. split; intro E.
    + inversion E. subst. reflexivity.
    + destruct i as [|i]; [exfalso; apply E; constructor|]. eexists. split; [reflexivity|]. exists (Pos i). split; [split; [reflexivity|lia]|].
      split; [intro X; injection X as X; lia|]. constructor. cbn. unfold len. lia.
  - destruct K as (Lc & S & F). destruct p as [i|k|]; try contradiction P; cbn [u_decr end_spot].
    + destruct P as (n & x & Fk & U). rewrite (use_obj_at _ _ _ _ _ _ U Fk). cbn [bind fst]. apply find_split in Fk. destruct Fk as (m1 & m2 & -> & N).
      rewrite before_mid by exact N. destruct (sorted_mid _ _ _ _ _ S) as (S2 & L1 & L2 & _).
      destruct m1 as [|e m1 _] using rev_ind; (split; intro E).
      * reflexivity.
      * exfalso. apply E. constructor; [left; reflexivity|]. intros j [<-|Hj] X; [exact (key_lt_irrefl _ X)|]. exact (key_lt_irrefl _ (key_lt_trans _ _ _ X (L2 _ Hj))).
      * exfalso. inversion E as [|? ? ? I1 I2|]; subst. destruct e as [k' q']. apply (I2 k').
        -- rewrite <- app_assoc. apply in_key.
        -- apply L1. apply in_key.
      * rewrite last_snoc. destruct e as [k' [n' x']]. eexists. split; [reflexivity|]. exists (At k').
        assert (S' := S). rewrite <- app_assoc in S'. cbn [app] in S'. destruct (sorted_mid _ _ _ _ _ S') as (_ & L1' & L2' & _).
        split; [|split; [discriminate|]].
        -- exists n', x'. split; [|reflexivity]. rewrite <- app_assoc. cbn [app]. apply find_mid. exact (not_before _ _ _ _ _ S').
        -- constructor.
           ++ cbn [members]. rewrite <- app_assoc. apply in_key.
           ++ apply in_key.
           ++ apply L1. apply in_key.
           ++ cbn [members]. intros j Hj [X1 X2]. rewrite <- app_assoc in Hj. apply in_mid in Hj. destruct Hj as [Hj|[->|[<-|Hj]]].
              ** exact (key_lt_irrefl _ (key_lt_trans _ _ _ X1 (L1' _ Hj))).
              ** exact (key_lt_irrefl _ X1).
              ** exact (key_lt_irrefl _ X2).
              ** exact (key_lt_irrefl _ (key_lt_trans _ _ _ X2 (L2 _ Hj))).
    + rewrite (use_obj_end _ _ _ P). cbn [bind]. destruct m as [|e m _] using rev_ind; (split; intro E).
      * reflexivity.
      * exfalso. apply E. constructor.
      * inversion E as [| |? Y]; subst. destruct m; discriminate.
      * rewrite last_snoc. destruct e as [k' [n' x']]. eexists. split; [reflexivity|]. exists (At k').
        destruct (sorted_mid _ _ _ _ _ S) as (_ & L1 & _ & _).
        split; [|split; [discriminate|]].
        -- exists n', x'. split; [|reflexivity]. apply find_mid. exact (not_before _ _ _ _ _ S).
        -- intros j Hj (k & X & Lk). injection X as <-. apply in_mid in Hj. destruct Hj as [Hj|[->|[]]]; [|exact (key_lt_irrefl _ Lk)].
           exact (key_lt_irrefl _ (key_lt_trans _ _ _ Lk (L1 _ Hj))).
Qed.

(** ** Comparing *)
Theorem compares : forall u w st p q, ok st -> stands u (i_body st) p -> stands w (i_body st) q ->
  exists r, u_eq u w (i_body st) = Ret r /\ (r = true <-> p = q).
Proof.
  intros u w st p q K P Q. destruct (i_body st) as [v|g l|c m]; [destruct p; contradiction P| |].
  - destruct p as [i|k|]; try contradiction P. destruct q as [j|k|]; try contradiction Q. destruct P as [U L], Q as [W L']. cbn [u_eq].
    rewrite (use_arr_at _ _ _ _ U L), (use_arr_at _ _ _ _ W L'). cbn [bind]. eexists. split; [reflexivity|].
    rewrite Nat.eqb_eq. split; congruence.
  - cbn [u_eq]. destruct p as [i|k|]; try contradiction P; destruct q as [j|k'|]; try contradiction Q; cbn [stands] in *.
    + destruct P as (n & x & F & U), Q as (n' & x' & F' & U'). rewrite (use_obj_at _ _ _ _ _ _ U F), (use_obj_at _ _ _ _ _ _ U' F'). cbn [bind node_eqb fst].
      eexists. split; [reflexivity|]. rewrite str_eqb_iff. split; congruence.
    + destruct P as (n & x & F & U). rewrite (use_obj_at _ _ _ _ _ _ U F), (use_obj_end _ _ _ Q). eexists. split; [reflexivity|]. split; discriminate.
    + destruct Q as (n' & x' & F' & U'). rewrite (use_obj_end _ _ _ P), (use_obj_at _ _ _ _ _ _ U' F'). eexists. split; [reflexivity|]. split; discriminate.
    + rewrite (use_obj_end _ _ _ P), (use_obj_end _ _ _ Q). eexists. split; [reflexivity|]. split; reflexivity.
Qed.
