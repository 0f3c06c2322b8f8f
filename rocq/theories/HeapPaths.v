(** Paths in annotated trees and in forests of them. *)
From Coq Require Import Lia Permutation Arith.
From Verif Require Import Base Value ValueOps ObjFacts ValueProofs Heap SpecHeap HeapGhost.
Open Scope nat_scope.

Fixpoint walk (l : loc) (g : gt) (p : list sel) : option (loc * gt) :=
  match p with
  | [] => Some (l, g)
  | Idx i :: p' =>
      match g with
      | GArr q n xs => match nth_error xs (N.to_nat i) with Some x => walk (LElem q n (N.to_nat i)) x p' | None => None end
      | _ => None
      end
  | Key k :: p' =>
      match g with
      | GObj q m => match obj_find k m with Some x => walk (LMember q k) x p' | None => None end
      | _ => None
      end
  end.

Fixpoint gput (p : list sel) (y g : gt) : gt :=
  match p with
  | [] => y
  | Idx i :: p' =>
      match g with
      | GArr q n xs => match nth_error xs (N.to_nat i) with Some x => GArr q n (set_nth (N.to_nat i) (gput p' y x) xs) | None => g end
      | _ => g
      end
  | Key k :: p' =>
      match g with
      | GObj q m => match obj_find k m with Some x => GObj q (obj_upd k (gput p' y x) m) | None => g end
      | _ => g
      end
  end.

(** ** Lists *)
Lemma set_mid : forall A (l1 l2 : list A) x y, set_nth (length l1) y (l1 ++ x :: l2) = l1 ++ y :: l2.
Proof. induction l1 as [|z l1 IH]; intros l2 x y; cbn; [reflexivity|]. rewrite IH. reflexivity. Qed.

Lemma remove_mid : forall A (l1 l2 : list A) x, remove_nth (length l1) (l1 ++ x :: l2) = l1 ++ l2.
Proof. induction l1 as [|z l1 IH]; intros l2 x; cbn; [reflexivity|]. rewrite IH. reflexivity. Qed.

Lemma set_set : forall A (l : list A) n x y, set_nth n x (set_nth n y l) = set_nth n x l.
Proof. induction l as [|z l IH]; intros [|n] x y; cbn; try reflexivity. rewrite IH. reflexivity. Qed.

Lemma set_comm : forall A (l : list A) n m x y, n <> m -> set_nth n x (set_nth m y l) = set_nth m y (set_nth n x l).
Proof. induction l as [|z l IH]; intros [|n] [|m] x y H; cbn; try reflexivity; try congruence. rewrite IH by congruence. reflexivity. Qed.

Lemma find_split : forall A k (x : A) m, obj_find k m = Some x ->
  exists m1 m2, m = m1 ++ (k, x) :: m2 /\ ~ In k (map fst m1).
Proof.
  intros A k x m. induction m as [|[k' x'] m IH]; intro H; cbn in H; [discriminate|].
  destruct (str_eqb k k') eqn:E.
  - apply str_eqb_iff in E. subst. injection H as ->. exists [], m. cbn. auto.
  - destruct (IH H) as (m1 & m2 & -> & N). exists ((k', x') :: m1), m2. split; [reflexivity|]. cbn [map fst In].
    intros [->|I]; [|auto]. rewrite str_eqb_refl in E. discriminate.
Qed.

Lemma find_mid : forall A k (x : A) m1 m2, ~ In k (map fst m1) -> obj_find k (m1 ++ (k, x) :: m2) = Some x.
Proof.
  intros A k x m1 m2. induction m1 as [|[k' x'] m1 IH]; intro N; cbn [app obj_find].
  - rewrite str_eqb_refl. reflexivity.
  - cbn [map fst In] in N. destruct (str_eqb k k') eqn:E; [apply str_eqb_iff in E; subst; tauto|]. apply IH. tauto.
Qed.

Lemma upd_mid : forall A k (x y : A) m1 m2, ~ In k (map fst m1) -> obj_upd k y (m1 ++ (k, x) :: m2) = m1 ++ (k, y) :: m2.
Proof.
  intros A k x y m1 m2. induction m1 as [|[k' x'] m1 IH]; intro N; cbn [app obj_upd].
  - rewrite str_eqb_refl. reflexivity.
  - cbn [map fst In] in N. destruct (str_eqb k k') eqn:E; [apply str_eqb_iff in E; subst; tauto|]. rewrite IH by tauto. reflexivity.
Qed.

Lemma erase_mid : forall A k (x : A) m1 m2, ~ In k (map fst m1) -> obj_erase k (m1 ++ (k, x) :: m2) = m1 ++ m2.
Proof.
  intros A k x m1 m2. induction m1 as [|[k' x'] m1 IH]; intro N; cbn [app obj_erase].
  - rewrite str_eqb_refl. reflexivity.
  - cbn [map fst In] in N. destruct (str_eqb k k') eqn:E; [apply str_eqb_iff in E; subst; tauto|]. rewrite IH by tauto. reflexivity.
Qed.

Lemma upd_upd : forall A k (x y : A) m, obj_upd k x (obj_upd k y m) = obj_upd k x m.
Proof.
  intros A k x y m. induction m as [|[k' x'] m IH]; cbn; [reflexivity|].
  destruct (str_eqb k k') eqn:E; cbn; rewrite E; [reflexivity|]. rewrite IH. reflexivity.
Qed.

Lemma upd_same : forall A k (x : A) m, obj_find k m = Some x -> obj_upd k x m = m.
Proof.
  intros A k x m. induction m as [|[k' x'] m IH]; cbn; [reflexivity|].
  destruct (str_eqb k k') eqn:E; intro H; [congruence|]. rewrite IH by assumption. reflexivity.
Qed.

Lemma eqb_both : forall k k' k0, str_eqb k k0 = true -> str_eqb k' k0 = true -> k = k'.
Proof. intros k k' k0 H1 H2. apply str_eqb_iff in H1. apply str_eqb_iff in H2. congruence. Qed.

Lemma upd_comm : forall A k k' (x y : A) m, k <> k' -> obj_upd k x (obj_upd k' y m) = obj_upd k' y (obj_upd k x m).
Proof.
  intros A k k' x y m D. induction m as [|[k0 x0] m IH]; cbn; [reflexivity|].
  destruct (str_eqb k k0) eqn:E1; destruct (str_eqb k' k0) eqn:E2; cbn; rewrite ?E1, ?E2; try reflexivity.
  - exfalso. apply D. eapply eqb_both; eassumption.
  - rewrite IH. reflexivity.
Qed.

Lemma find_upd : forall A k (x y : A) m, obj_find k m = Some x -> obj_find k (obj_upd k y m) = Some y.
Proof.
  intros A k x y m. induction m as [|[k' x'] m IH]; cbn; [discriminate|].
  destruct (str_eqb k k') eqn:E; cbn; rewrite E; [reflexivity|exact IH].
Qed.

Lemma find_upd_other : forall A k k' (y : A) m, k <> k' -> obj_find k (obj_upd k' y m) = obj_find k m.
Proof.
  intros A k k' y m D. induction m as [|[k0 x0] m IH]; cbn; [reflexivity|].
  destruct (str_eqb k' k0) eqn:E1; cbn; destruct (str_eqb k k0) eqn:E2; try reflexivity; try exact IH.
  exfalso. apply D. eapply eqb_both; eassumption.
Qed.

Lemma nth_lt : forall A (l : list A) n x, nth_error l n = Some x -> n < length l.
Proof. intros A l n x H. apply nth_error_Some. congruence. Qed.

(** ** Paths *)
Inductive apart : list sel -> list sel -> Prop :=
| ap_head s s' p r : s <> s' -> apart (s :: p) (s' :: r)
| ap_tail s p r : apart p r -> apart (s :: p) (s :: r).

Lemma apart_sym : forall p r, apart p r -> apart r p.
Proof. intros p r H. induction H; [apply ap_head; congruence|apply ap_tail; assumption]. Qed.

Lemma sel_dec : forall s s' : sel, {s = s'} + {s <> s'}.
Proof. decide equality; [apply N.eq_dec|apply (list_eq_dec N.eq_dec)]. Qed.

Lemma paths : forall p r, apart p r \/ (exists t, r = p ++ t) \/ (exists t, p = r ++ t).
Proof.
  induction p as [|s p IH]; intros [|s' r].
  - right; left; exists []; reflexivity.
  - right; left; eexists; reflexivity.
  - right; right; eexists; reflexivity.
  - destruct (sel_dec s s') as [<-|D]; [|left; constructor; assumption].
    destruct (IH r) as [H|[[t ->]|[t ->]]].
    + left. apply ap_tail. assumption.
    + right; left. exists t. reflexivity.
    + right; right. exists t. reflexivity.
Qed.

Lemma apart_not : forall p r t, apart p r -> r <> p ++ t.
Proof.
  intros p r t H. induction H as [s s' p r D|s p r H IH]; cbn; intro E; injection E; intros; congruence.
Qed.

Lemma walk_app : forall p t l g, walk l g (p ++ t) = match walk l g p with Some (l', x) => walk l' x t | None => None end.
Proof.
  induction p as [|[i|k] p IH]; intros t l g; cbn [app walk]; [reflexivity| |].
  - destruct g; try reflexivity. destruct (nth_error _ _); [apply IH|reflexivity].
  - destruct g; try reflexivity. destruct (obj_find _ _); [apply IH|reflexivity].
Qed.

Lemma walk_free : forall t l l' g, t <> [] -> walk l g t = walk l' g t.
Proof. intros [|[i|k] t] l l' g H; [congruence| |]; reflexivity. Qed.

(** reading at r after writing below it *)
Lemma walk_put_below : forall r t y l g l' x, walk l g r = Some (l', x) -> walk l (gput (r ++ t) y g) r = Some (l', gput t y x).
Proof.
  induction r as [|[i|k] r IH]; intros t y l g l' x H; cbn [app walk gput] in *.
  - injection H as -> ->. reflexivity.
  - destruct g as [| | | | |q n xs|]; try discriminate. destruct (nth_error xs (N.to_nat i)) as [c|] eqn:E; [|discriminate].
    cbn [walk]. rewrite nth_set_same by (eapply nth_lt; eassumption). apply IH. assumption.
  - destruct g as [| | | | | |q m]; try discriminate. destruct (obj_find k m) as [c|] eqn:E; [|discriminate].
    cbn [walk]. rewrite (find_upd _ _ _ _ _ E). apply IH. assumption.
Qed.

(** reading below r after writing r *)
Lemma walk_put_above : forall r t y l g l' x, walk l g r = Some (l', x) -> walk l (gput r y g) (r ++ t) = walk l' y t.
Proof.
  intros r t y l g l' x H. rewrite walk_app. rewrite <- (app_nil_r r) at 1.
  rewrite (walk_put_below _ [] y _ _ _ _ H). reflexivity.
Qed.

Lemma walk_put_apart : forall p r y l g, apart p r -> walk l (gput p y g) r = walk l g r.
Proof.
  intros p r y l g H. revert l g. induction H as [s s' p r D|s p r H IH]; intros l g.
  - destruct s as [i|k]; destruct s' as [j|k']; cbn [gput walk]; destruct g as [| | | | |q n xs|q m]; try reflexivity.
    + destruct (nth_error xs (N.to_nat i)) as [c|] eqn:E; [|reflexivity].
      rewrite nth_set_other; [reflexivity|]. intro X. apply D. f_equal. apply N2Nat.inj. assumption.
    + destruct (nth_error xs (N.to_nat i)); reflexivity.
    + destruct (obj_find k m); reflexivity.
    + destruct (obj_find k m) as [c|] eqn:E; [|reflexivity]. rewrite find_upd_other by congruence. reflexivity.
  - destruct s as [i|k]; cbn [gput walk]; destruct g as [| | | | |q n xs|q m]; try reflexivity.
    + destruct (nth_error xs (N.to_nat i)) as [c|] eqn:E; [|rewrite E; reflexivity].
      rewrite nth_set_same by (eapply nth_lt; eassumption). apply IH.
    + destruct (obj_find k m) as [c|] eqn:E; [|rewrite E; reflexivity]. rewrite (find_upd _ _ _ _ _ E). apply IH.
Qed.

Lemma put_put_apart : forall p r y z g, apart p r -> gput p y (gput r z g) = gput r z (gput p y g).
Proof.
  intros p r y z g H. revert g. induction H as [s s' p r D|s p r H IH]; intro g.
  - destruct s as [i|k]; destruct s' as [j|k']; cbn [gput]; destruct g as [| | | | |q n xs|q m]; try reflexivity.
    + assert (X : N.to_nat i <> N.to_nat j) by (intro X; apply D; f_equal; apply N2Nat.inj; assumption).
      destruct (nth_error xs (N.to_nat i)) as [c|] eqn:E; destruct (nth_error xs (N.to_nat j)) as [d|] eqn:F; rewrite ?E, ?F;
        rewrite ?nth_set_other by auto; rewrite ?E, ?F; try reflexivity. rewrite set_comm by assumption. reflexivity.
    + destruct (nth_error xs (N.to_nat i)); reflexivity.
    + destruct (obj_find k' m); reflexivity.
    + destruct (nth_error xs (N.to_nat j)); reflexivity.
    + destruct (obj_find k m); reflexivity.
    + assert (X : k <> k') by congruence.
      destruct (obj_find k m) as [c|] eqn:E; destruct (obj_find k' m) as [d|] eqn:F; rewrite ?E, ?F;
        rewrite ?find_upd_other by auto; rewrite ?E, ?F; try reflexivity. rewrite upd_comm by assumption. reflexivity.
  - destruct s as [i|k]; cbn [gput]; destruct g as [| | | | |q n xs|q m]; try reflexivity.
    + destruct (nth_error xs (N.to_nat i)) as [c|] eqn:E; [|rewrite E; reflexivity].
      rewrite !nth_set_same by (eapply nth_lt; eassumption). rewrite !set_set, IH. reflexivity.
    + destruct (obj_find k m) as [c|] eqn:E; [|rewrite E; reflexivity].
      rewrite !(find_upd _ _ _ _ _ E). rewrite !upd_upd, IH. reflexivity.
Qed.

Lemma put_put_pre : forall p r y z l g l' x, walk l g p = Some (l', x) -> gput p y (gput (p ++ r) z g) = gput p y g.
Proof.
  induction p as [|[i|k] p IH]; intros r y z l g l' x H; cbn [app walk gput] in *; [reflexivity| |].
  - destruct g as [| | | | |q n xs|]; try discriminate. destruct (nth_error xs (N.to_nat i)) as [c|] eqn:E; [|discriminate].
    rewrite nth_set_same by (eapply nth_lt; eassumption). rewrite set_set. rewrite (IH _ _ _ _ _ _ _ H). reflexivity.
  - destruct g as [| | | | | |q m]; try discriminate. destruct (obj_find k m) as [c|] eqn:E; [|discriminate].
    rewrite (find_upd _ _ _ _ _ E), upd_upd. rewrite (IH _ _ _ _ _ _ _ H). reflexivity.
Qed.

Lemma cell_put : forall p y g, p <> [] -> cell_of (gput p y g) = cell_of g.
Proof.
  intros [|[i|k] p] y g H; [congruence| |]; cbn [gput]; destruct g; try reflexivity.
  - destruct (nth_error _ _); reflexivity.
  - destruct (obj_find _ _); reflexivity.
Qed.

Lemma put_same : forall p l g l' x, walk l g p = Some (l', x) -> gput p x g = g.
Proof.
  induction p as [|[i|k] p IH]; intros l g l' x H; cbn [walk gput] in *.
  - congruence.
  - destruct g as [| | | | |q n xs|]; try discriminate. destruct (nth_error xs (N.to_nat i)) as [c|] eqn:E; [|discriminate].
    rewrite (IH _ _ _ _ H). rewrite set_same by assumption. reflexivity.
  - destruct g as [| | | | | |q m]; try discriminate. destruct (obj_find k m) as [c|] eqn:E; [|discriminate].
    rewrite (IH _ _ _ _ H). rewrite upd_same by assumption. reflexivity.
Qed.

(** ** The spec's paths *)
Lemma vmap_app : forall A B (f : A -> B) m1 m2, vmap f (m1 ++ m2) = vmap f m1 ++ vmap f m2.
Proof. intros. apply map_app. Qed.
Lemma vmap_fst : forall A B (f : A -> B) m, map fst (vmap f m) = map fst m.
Proof. intros. unfold vmap. rewrite map_map. reflexivity. Qed.

Lemma val_obj : forall q m, val_of (GObj q m) = VObj (vmap val_of m).
Proof. reflexivity. Qed.

Lemma walk_tget : forall p l g l' x, walk l g p = Some (l', x) -> tget p (val_of g) (val_of x).
Proof.
  induction p as [|[i|k] p IH]; intros l g l' x H; cbn [walk] in *.
  - injection H as E1 E2. subst. constructor.
  - destruct g as [| | | | |q n xs|]; try discriminate. destruct (nth_error xs (N.to_nat i)) as [c|] eqn:E; [|discriminate].
    apply nth_error_split in E. destruct E as (l1 & l2 & -> & L). cbn [val_of]. rewrite map_app. cbn [map].
    apply tg_idx; [rewrite map_length; congruence|]. eapply IH. eassumption.
  - destruct g as [| | | | | |q m]; try discriminate. destruct (obj_find k m) as [c|] eqn:E; [|discriminate].
    apply find_split in E. destruct E as (m1 & m2 & -> & N). rewrite val_obj, vmap_app. cbn [vmap map fst snd].
    apply tg_key; [rewrite vmap_fst; assumption|]. eapply IH. eassumption.
Qed.

Lemma walk_tset : forall p l g l' x y, walk l g p = Some (l', x) -> tset p (val_of y) (val_of g) (val_of (gput p y g)).
Proof.
  induction p as [|[i|k] p IH]; intros l g l' x y H; cbn [walk gput] in *.
  - constructor.
  - destruct g as [| | | | |q n xs|]; try discriminate. destruct (nth_error xs (N.to_nat i)) as [c|] eqn:E; [|discriminate].
    apply nth_error_split in E. destruct E as (l1 & l2 & -> & L). rewrite <- L, set_mid. cbn [val_of]. rewrite !map_app. cbn [map].
    apply ts_idx; [rewrite map_length; congruence|]. eapply IH. eassumption.
  - destruct g as [| | | | | |q m]; try discriminate. destruct (obj_find k m) as [c|] eqn:E; [|discriminate].
    apply find_split in E. destruct E as (m1 & m2 & -> & N). rewrite upd_mid by assumption. rewrite !val_obj, !vmap_app. cbn [vmap map fst snd].
    apply ts_key; [rewrite vmap_fst; assumption|]. eapply IH. eassumption.
Qed.

Lemma nth_mid : forall A (l1 l2 : list A) x, nth_error (l1 ++ x :: l2) (length l1) = Some x.
Proof. intros. rewrite nth_error_app2, Nat.sub_diag by lia. reflexivity. Qed.

Lemma tget_walk : forall p v w, tget p v w -> forall l g, val_of g = v -> exists l' x, walk l g p = Some (l', x) /\ val_of x = w.
Proof.
  intros p v w H. induction H as [v|p l1 c l2 i x L H IH|p m1 k c m2 x N H IH]; intros l g E.
  - exists l, g. auto.
  - destruct g as [| | | | |q n xs|]; try discriminate. cbn [val_of] in E. injection E as E.
    assert (X : nth_error (map val_of xs) (N.to_nat i) = Some c) by (rewrite E, L; apply nth_mid).
    rewrite nth_error_map in X. cbn [walk]. destruct (nth_error xs (N.to_nat i)) as [d|]; [|discriminate].
    cbn [option_map] in X. apply IH. congruence.
  - destruct g as [| | | | | |q m]; try discriminate. rewrite val_obj in E. injection E as E.
    assert (X : obj_find k (vmap val_of m) = Some c) by (rewrite E; apply find_mid; assumption).
    rewrite find_vmap in X. cbn [walk]. destruct (obj_find k m) as [d|]; [|discriminate].
    cbn [option_map] in X. apply IH. congruence.
Qed.

Lemma app_mid_inj : forall A (l1 l1' l2 l2' : list A) x x', length l1 = length l1' -> l1 ++ x :: l2 = l1' ++ x' :: l2' -> l1 = l1' /\ x = x' /\ l2 = l2'.
Proof.
  induction l1 as [|y l1 IH]; intros [|y' l1'] l2 l2' x x' L E; cbn in *; try discriminate.
  - injection E as E1 E2. auto.
  - injection E as E1 E2. injection L as L. destruct (IH _ _ _ _ _ L E2) as (? & ? & ?). subst. auto.
Qed.

Lemma key_mid_inj : forall A (m1 m1' m2 m2' : list (str * A)) k x x', ~ In k (map fst m1) -> ~ In k (map fst m1') ->
  m1 ++ (k, x) :: m2 = m1' ++ (k, x') :: m2' -> m1 = m1' /\ x = x' /\ m2 = m2'.
Proof.
  induction m1 as [|[j y] m1 IH]; intros [|[j' y'] m1'] m2 m2' k x x' N N' E; cbn in *.
  - injection E as E1 E2. auto.
  - injection E as E1 E2 E3. subst. tauto.
  - injection E as E1 E2 E3. subst. tauto.
  - injection E as E1 E2 E3. subst. destruct (IH m1' m2 m2' k x x') as (? & ? & ?); [tauto|tauto|assumption|]. subst. auto.
Qed.

Lemma tset_fun : forall p y v v1, tset p y v v1 -> forall v2, tset p y v v2 -> v1 = v2.
Proof.
  intros p y v v1 H. induction H as [y v|p y l1 c c' l2 i L H IH|p y m1 k c c' m2 N H IH]; intros v2 H2.
  - inversion H2. reflexivity.
  - remember (VArr (l1 ++ c :: l2)) as w eqn:W. remember (Idx i :: p) as P eqn:PP. destruct H2 as [|p' y' a1 d d' a2 j L' H2|p' y' a1 k d d' a2 N' H2]; try discriminate.
    injection W as W. injection PP as Pj Pp. subst.
    apply app_mid_inj in W; [|congruence]. destruct W as (? & ? & ?). subst. f_equal. f_equal. f_equal. apply IH. assumption.
  - remember (VObj (m1 ++ (k, c) :: m2)) as w eqn:W. remember (Key k :: p) as P eqn:PP. destruct H2 as [|p' y' a1 d d' a2 j L' H2|p' y' a1 k' d d' a2 N' H2]; try discriminate.
    injection W as W. injection PP as Pj Pp. subst.
    apply key_mid_inj in W; [|assumption|assumption]. destruct W as (? & ? & ?). subst. do 4 f_equal. apply IH. assumption.
Qed.

Lemma tget_fun : forall p v w1, tget p v w1 -> forall w2, tget p v w2 -> w1 = w2.
Proof.
  intros p v w1 H. induction H as [v|p l1 c l2 i x L H IH|p m1 k c m2 x N H IH]; intros w2 H2.
  - inversion H2. reflexivity.
  - remember (VArr (l1 ++ c :: l2)) as w eqn:W. remember (Idx i :: p) as P eqn:PP. destruct H2 as [|p' a1 d a2 j w2 L' H2|p' a1 k d a2 w2 N' H2]; try discriminate.
    injection W as W. injection PP as Pj Pp. subst.
    apply app_mid_inj in W; [|congruence]. destruct W as (? & ? & ?). subst. apply IH. assumption.
  - remember (VObj (m1 ++ (k, c) :: m2)) as w eqn:W. remember (Key k :: p) as P eqn:PP. destruct H2 as [|p' a1 d a2 j w2 L' H2|p' a1 k' d a2 w2 N' H2]; try discriminate.
    injection W as W. injection PP as Pj Pp. subst.
    apply key_mid_inj in W; [|assumption|assumption]. destruct W as (? & ? & ?). subst. apply IH. assumption.
Qed.

(** ** Forests *)
Definition forest := list (option gt).
Definition fwalk (G : forest) (a : place) : option (loc * gt) :=
  match nth_error G (fst a) with Some (Some g) => walk (LSlot (fst a)) g (snd a) | _ => None end.
Definition fput (G : forest) (a : place) (y : gt) : forest :=
  match nth_error G (fst a) with Some (Some g) => set_nth (fst a) (Some (gput (snd a) y g)) G | _ => G end.
Definition vals (G : forest) : store := map (option_map val_of) G.

Definition fapart (a b : place) : Prop := fst a <> fst b \/ apart (snd a) (snd b).

Lemma fapart_sym : forall a b, fapart a b -> fapart b a.
Proof. intros a b [H|H]; [left; congruence|right; apply apart_sym; assumption]. Qed.

Lemma places : forall a b, fapart a b \/ below a b \/ below b a.
Proof.
  intros [n p] [m r]. unfold fapart, below. cbn [fst snd]. destruct (Nat.eq_dec n m) as [<-|D]; [|auto].
  destruct (paths p r) as [H|[H|H]]; auto.
Qed.

Lemma fapart_not_below : forall a b, fapart a b -> ~ below a b.
Proof. intros a b [H|H] [E [t X]]; [auto|]. eapply apart_not; eassumption. Qed.

Lemma below_refl : forall a, below a a.
Proof. intros [n p]. split; [reflexivity|]. exists []. cbn. rewrite app_nil_r. reflexivity. Qed.

Lemma below_anti : forall a b, below a b -> below b a -> a = b.
Proof.
  intros [n p] [m r] [E [t X]] [_ [u Y]]. cbn [fst snd] in *. subst. f_equal.
  rewrite <- app_assoc in Y. rewrite <- (app_nil_r p) in Y at 1. apply app_inv_head in Y.
  symmetry in Y. apply app_eq_nil in Y. destruct Y as [-> ->]. rewrite app_nil_r. reflexivity.
Qed.

Lemma fwalk_at : forall G a l x, fwalk G a = Some (l, x) -> exists g, nth_error G (fst a) = Some (Some g) /\ walk (LSlot (fst a)) g (snd a) = Some (l, x).
Proof. unfold fwalk. intros G a l x H. destruct (nth_error G (fst a)) as [[g|]|]; try discriminate. eauto. Qed.

Lemma fput_at : forall G a g y, nth_error G (fst a) = Some (Some g) -> fput G a y = set_nth (fst a) (Some (gput (snd a) y g)) G.
Proof. intros G a g y H. unfold fput. rewrite H. reflexivity. Qed.

Lemma nth_fput : forall G a g y, nth_error G (fst a) = Some (Some g) -> nth_error (fput G a y) (fst a) = Some (Some (gput (snd a) y g)).
Proof. intros G a g y H. rewrite (fput_at _ _ _ _ H). apply nth_set_same. eapply nth_lt. eassumption. Qed.

Lemma nth_fput_other : forall G a y n, fst a <> n -> nth_error (fput G a y) n = nth_error G n.
Proof. intros G a y n D. unfold fput. destruct (nth_error G (fst a)) as [[g|]|]; try reflexivity. apply nth_set_other. assumption. Qed.

Lemma fwalk_put_apart : forall G a b y, fapart a b -> fwalk (fput G a y) b = fwalk G b.
Proof.
  intros G a b y H. unfold fwalk. destruct (Nat.eq_dec (fst a) (fst b)) as [E|D]; [|rewrite nth_fput_other by assumption; reflexivity].
  destruct H as [H|H]; [congruence|].
  destruct (nth_error G (fst b)) as [[g|]|] eqn:X; rewrite <- E in X.
  - rewrite <- E. rewrite (nth_fput _ _ _ _ X). apply walk_put_apart. assumption.
  - unfold fput. rewrite X. rewrite <- E, X. reflexivity.
  - unfold fput. rewrite X. rewrite <- E, X. reflexivity.
Qed.

Definition ext (a : place) (t : list sel) : place := (fst a, snd a ++ t).

Lemma below_ext : forall a b, below a b -> exists t, b = ext a t.
Proof. intros [n p] [m r] [E [t X]]. cbn [fst snd] in *. subst. exists t. reflexivity. Qed.

(** writing below b keeps b's location and changes what is there *)
Lemma fwalk_put_below : forall G b t y l x, fwalk G b = Some (l, x) -> fwalk (fput G (ext b t) y) b = Some (l, gput t y x).
Proof.
  intros G b t y l x H. apply fwalk_at in H. destruct H as (g & N & W). unfold fwalk.
  change (fst b) with (fst (ext b t)) at 1. rewrite (nth_fput _ (ext b t) _ _ N). apply walk_put_below. assumption.
Qed.

Lemma fwalk_put_same : forall G a y l x, fwalk G a = Some (l, x) -> fwalk (fput G a y) a = Some (l, y).
Proof.
  intros G [n p] y l x H. pose proof (fwalk_put_below G (n, p) [] y l x H) as X. unfold ext in X. cbn [fst snd] in X. rewrite app_nil_r in X. exact X.
Qed.

Lemma fwalk_put_above : forall G a t y l x, fwalk G a = Some (l, x) -> fwalk (fput G a y) (ext a t) = walk l y t.
Proof.
  intros G a t y l x H. apply fwalk_at in H. destruct H as (g & N & W). unfold fwalk. cbn [ext fst snd].
  rewrite (nth_fput _ _ _ _ N). eapply walk_put_above. eassumption.
Qed.

Lemma fwalk_ext : forall G a t l x, fwalk G a = Some (l, x) -> fwalk G (ext a t) = walk l x t.
Proof.
  intros G a t l x H. apply fwalk_at in H. destruct H as (g & N & W). unfold fwalk. cbn [ext fst snd]. rewrite N, walk_app, W. reflexivity.
Qed.

Lemma fput_fput_apart : forall G a b y z, fapart a b -> fput (fput G a y) b z = fput (fput G b z) a y.
Proof.
  intros G a b y z H. destruct (Nat.eq_dec (fst a) (fst b)) as [E|D].
  - destruct H as [H|H]; [congruence|].
    destruct (nth_error G (fst a)) as [[g|]|] eqn:X.
    + pose proof X as Y. rewrite E in Y.
      rewrite (fput_at (fput G a y) b (gput (snd a) y g) z) by (rewrite <- E; apply nth_fput; assumption).
      rewrite (fput_at (fput G b z) a (gput (snd b) z g) y) by (rewrite E; apply nth_fput; assumption).
      rewrite (fput_at _ _ _ _ X), (fput_at _ _ _ _ Y). rewrite E, !set_set. rewrite put_put_apart by (apply apart_sym; assumption). reflexivity.
    + unfold fput. rewrite <- E. rewrite X. rewrite X. reflexivity.
    + unfold fput. rewrite <- E. rewrite X. rewrite X. reflexivity.
  - destruct (nth_error G (fst a)) as [[g|]|] eqn:X; destruct (nth_error G (fst b)) as [[h|]|] eqn:Y;
      unfold fput; rewrite ?X, ?Y; rewrite ?nth_set_other by auto; rewrite ?X, ?Y; rewrite ?nth_set_other by auto; rewrite ?X, ?Y; try reflexivity.
    apply set_comm. auto.
Qed.

Lemma fput_fput_pre : forall G a t y z l x, fwalk G a = Some (l, x) -> fput (fput G (ext a t) z) a y = fput G a y.
Proof.
  intros G a t y z l x H. apply fwalk_at in H. destruct H as (g & N & W).
  rewrite (fput_at (fput G (ext a t) z) a (gput (snd a ++ t) z g) y (nth_fput G (ext a t) g z N)).
  rewrite (fput_at G (ext a t) g z N), (fput_at G a g y N). cbn [ext fst snd].
  rewrite set_set. rewrite (put_put_pre _ _ _ _ _ _ _ _ W). reflexivity.
Qed.

Lemma fput_fput_same : forall G a y z l x, fwalk G a = Some (l, x) -> fput (fput G a z) a y = fput G a y.
Proof.
  intros G [n p] y z l x H. pose proof (fput_fput_pre G (n, p) [] y z l x H) as X. unfold ext in X. cbn [fst snd] in X. rewrite app_nil_r in X. exact X.
Qed.

Lemma fput_same : forall G a l x, fwalk G a = Some (l, x) -> fput G a x = G.
Proof.
  intros G a l x H. apply fwalk_at in H. destruct H as (g & N & W). rewrite (fput_at _ _ _ _ N), (put_same _ _ _ _ _ W). apply set_same. assumption.
Qed.

Lemma length_fput : forall G a y, length (fput G a y) = length G.
Proof. intros G a y. unfold fput. destruct (nth_error G (fst a)) as [[g|]|]; try reflexivity. apply length_set. Qed.

Lemma fwalk_grow : forall G T a l x, fwalk G a = Some (l, x) -> fwalk (G ++ T) a = Some (l, x).
Proof.
  intros G T a l x H. apply fwalk_at in H. destruct H as (g & N & W). unfold fwalk.
  rewrite nth_error_app1 by (eapply nth_lt; eassumption). rewrite N. assumption.
Qed.

Lemma set_app1 : forall A (l1 l2 : list A) n x, n < length l1 -> set_nth n x (l1 ++ l2) = set_nth n x l1 ++ l2.
Proof. induction l1 as [|y l1 IH]; intros l2 [|n] x H; cbn in *; try lia; [reflexivity|]. rewrite IH by lia. reflexivity. Qed.

Lemma fput_grow : forall G T a y l x, fwalk G a = Some (l, x) -> fput (G ++ T) a y = fput G a y ++ T.
Proof.
  intros G T a y l x H. apply fwalk_at in H. destruct H as (g & N & W). pose proof (nth_lt _ _ _ _ N).
  rewrite (fput_at G a g y N). rewrite (fput_at (G ++ T) a g y) by (rewrite nth_error_app1 by assumption; assumption).
  apply set_app1. assumption.
Qed.

Lemma fwalk_new : forall G y t, fwalk (G ++ [Some y]) (length G, t) = walk (LSlot (length G)) y t.
Proof. intros. unfold fwalk. cbn [fst snd]. rewrite nth_mid. reflexivity. Qed.

Lemma fput_new : forall G y t z, fput (G ++ [Some y]) (length G, t) z = G ++ [Some (gput t z y)].
Proof. intros. unfold fput. cbn [fst snd]. rewrite nth_mid. apply set_mid. Qed.

Lemma fwalk_lt : forall G a l x, fwalk G a = Some (l, x) -> fst a < length G.
Proof. intros G a l x H. apply fwalk_at in H. destruct H as (g & N & _). eapply nth_lt. eassumption. Qed.

(** ** Stores *)
Lemma sget_walk : forall G a v, sget (vals G) a v -> exists l x, fwalk G a = Some (l, x) /\ val_of x = v.
Proof.
  intros G a v (w & N & H). unfold vals in N. rewrite nth_error_map in N. unfold fwalk.
  destruct (nth_error G (fst a)) as [[g|]|]; cbn [option_map] in N; try discriminate.
  eapply tget_walk; [eassumption|]. congruence.
Qed.

Lemma walk_sget : forall G a l x, fwalk G a = Some (l, x) -> sget (vals G) a (val_of x).
Proof.
  intros G a l x H. apply fwalk_at in H. destruct H as (g & N & W). exists (val_of g). split.
  - unfold vals. rewrite nth_error_map, N. reflexivity.
  - eapply walk_tget. eassumption.
Qed.

Lemma sset_walk : forall G a l x y S', fwalk G a = Some (l, x) -> sset (vals G) a (val_of y) S' -> S' = vals (fput G a y).
Proof.
  intros G a l x y S' H (S1 & v & v' & S2 & E & L & T & ->). apply fwalk_at in H. destruct H as (g & N & W).
  apply nth_error_split in N. destruct N as (G1 & G2 & -> & L1). unfold vals in *. rewrite map_app in E. cbn [map option_map] in E.
  apply app_mid_inj in E; [|rewrite map_length; congruence]. destruct E as (E1 & E2 & E3). injection E2 as E2.
  unfold fput. rewrite <- L1, nth_mid, set_mid. rewrite map_app. cbn [map option_map]. subst. do 2 f_equal. f_equal.
  eapply tset_fun; [eassumption|]. eapply walk_tset. eassumption.
Qed.

Lemma walk_sset : forall G a l x y, fwalk G a = Some (l, x) -> sset (vals G) a (val_of y) (vals (fput G a y)).
Proof.
  intros G a l x y H. apply fwalk_at in H. destruct H as (g & N & W).
  apply nth_error_split in N. destruct N as (G1 & G2 & -> & L1).
  exists (vals G1), (val_of g), (val_of (gput (snd a) y g)), (vals G2). unfold fput, vals. rewrite <- L1, nth_mid, set_mid, !map_app.
  cbn [map option_map]. rewrite map_length. split; [reflexivity|]. split; [reflexivity|]. split; [|reflexivity].
  eapply walk_tset. eassumption.
Qed.
