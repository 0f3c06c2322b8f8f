(** Proofs about the value operations. *)
From Coq Require Import Lia ZifyBool ZifyNat ZifyN.
From Verif Require Import Base Value ValueOps SpecGrammar SpecText ObjFacts SpecValue.

(** ** Induction on value trees *)
Section Ind.
Variable P : value -> Prop.
Hypothesis Hnull : P VNull.
Hypothesis Hint : forall z, P (VInt z).
Hypothesis Hfloat : forall f, P (VFloat f).
Hypothesis Hstr : forall s, P (VStr s).
Hypothesis Hbool : forall b, P (VBool b).
Hypothesis Harr : forall l, (forall x, In x l -> P x) -> P (VArr l).
Hypothesis Hobj : forall m, (forall k x, In (k, x) m -> P x) -> P (VObj m).
Fixpoint value_deep (v : value) : P v.
Proof.
  destruct v as [|z|f|s|l|m|b].
  - apply Hnull.
  - apply Hint.
  - apply Hfloat.
  - apply Hstr.
  - apply Harr. induction l as [|y l IH]; intros x [].
    + rewrite <- H. apply value_deep.
    + apply IH. assumption.
  - apply Hobj. induction m as [|[k' y] m IH]; intros k x Hi; [destruct Hi|destruct Hi as [E|Hi]].
    + injection E as _ <-. apply value_deep.
    + eapply IH. eassumption.
  - apply Hbool.
Qed.
End Ind.

(** ** Lists *)
Lemma nth_set : forall A (l : list A) n x m, (n < length l)%nat ->
  nth_error (set_nth n x l) m = if Nat.eqb m n then Some x else nth_error l m.
Proof.
  induction l as [|y l IH]; intros [|n] x [|m] H; cbn [set_nth nth_error length] in *; try lia; try reflexivity.
  rewrite IH by lia. reflexivity.
Qed.

Lemma length_set : forall A (l : list A) n x, length (set_nth n x l) = length l.
Proof. induction l as [|y l IH]; intros [|n] x; cbn [set_nth length]; auto. Qed.

Lemma set_same : forall A (l : list A) n x, nth_error l n = Some x -> set_nth n x l = l.
Proof.
  induction l as [|y l IH]; intros [|n] x H; cbn [set_nth nth_error] in *; try discriminate.
  - congruence.
  - rewrite IH; auto.
Qed.

Lemma in_set_nth : forall A (l : list A) n x y, In y (set_nth n x l) -> y = x \/ In y l.
Proof.
  induction l as [|z l IH]; intros [|n] x y H; cbn [set_nth In] in *; intuition.
  apply IH in H0. intuition.
Qed.

Lemma nth_remove : forall A (l : list A) n m, (n < length l)%nat ->
  nth_error (remove_nth n l) m = if Nat.ltb m n then nth_error l m else nth_error l (S m).
Proof.
  induction l as [|y l IH]; intros [|n] m H; cbn [remove_nth length] in *; try lia; try reflexivity.
  destruct m as [|m]; [reflexivity|]. cbn [nth_error]. rewrite IH by lia. reflexivity.
Qed.

Lemma length_remove : forall A (l : list A) n, (n < length l)%nat -> S (length (remove_nth n l)) = length l.
Proof. induction l as [|y l IH]; intros [|n] H; cbn [remove_nth length] in *; try lia. rewrite IH; lia. Qed.

Lemma in_remove : forall A (l : list A) n y, In y (remove_nth n l) -> In y l.
Proof. induction l as [|z l IH]; intros [|n] y H; cbn [remove_nth In] in *; intuition. right. eapply IH. eassumption. Qed.

(** ** Objects *)
Lemma find_in : forall A k (x : A) m, sorted m -> (obj_find k m = Some x <-> In (k, x) m).
Proof.
  intros A k x m H. rewrite find_iff. split; [apply assoc_in|]. intro Hi. apply sorted_in_assoc; assumption.
Qed.

Lemma find_in' : forall A k (x : A) m, obj_find k m = Some x -> In (k, x) m.
Proof. intros A k x m H. apply assoc_in. apply find_iff. assumption. Qed.

Lemma find_no : forall A k (m : list (str * A)), obj_find k m = None <-> (forall x, ~ In (k, x) m).
Proof.
  intros A k m. induction m as [|[k' v'] m IH]; cbn [obj_find In].
  - split; auto.
  - destruct (str_eqb k k') eqn:E.
    + apply str_eqb_iff in E. subst. split; [discriminate|]. intro H. exfalso. apply (H v'). auto.
    + apply str_eqb_neq in E. rewrite IH. split; intros H x.
      * intros [D|D]; [congruence|]. apply (H x D).
      * intro D. apply (H x). auto.
Qed.

Lemma set_find_same : forall A k (x : A) m, sorted m -> obj_find k m = Some x -> obj_set k x m = m.
Proof.
  intros A k x m H F. apply sorted_unique.
  - apply set_sorted. assumption.
  - assumption.
  - intros j y. rewrite <- !find_iff, find_set by assumption. destruct (str_eqb j k) eqn:E; [|reflexivity].
    apply str_eqb_iff in E. subst. rewrite F. reflexivity.
Qed.

Lemma in_obj_set : forall A k (v : A) m j x, In (j, x) (obj_set k v m) -> (j, x) = (k, v) \/ In (j, x) m.
Proof.
  intros A k v m j x. induction m as [|[k' v'] m IH]; cbn [obj_set In].
  - intuition.
  - destruct (str_ltb k k'); [cbn [In]; intuition|]. destruct (str_eqb k k') eqn:E; cbn [In]; intuition.
    apply str_eqb_iff in E. subst. left. congruence.
Qed.

Lemma in_emplace : forall A k (v : A) m j x, In (j, x) (obj_emplace k v m) -> (j, x) = (k, v) \/ In (j, x) m.
Proof.
  intros A k v m j x. induction m as [|[k' v'] m IH]; cbn [obj_emplace In].
  - intuition.
  - destruct (str_ltb k k'); [cbn [In]; intuition|]. destruct (str_eqb k k'); cbn [In]; intuition.
Qed.

(** ** Everything stays ordered *)
Lemma ordered_find : forall k x m, ordered (VObj m) -> obj_find k m = Some x -> ordered x.
Proof. intros k x m H F. inversion H; subst. eapply H2. apply find_in'. eassumption. Qed.

Lemma in_elem_ordered : forall R i (f : value -> res R) l, (forall x, ordered x -> ordered (fst (f x))) ->
  ordered (VArr l) -> ordered (fst (in_elem i f l)).
Proof.
  intros R i f l Hf H. unfold in_elem. destruct (nth_error l (N.to_nat i)) as [x|] eqn:E; [|exact H].
  inversion H as [| | | | |? Hl|]; subst. specialize (Hf x (Hl x (nth_error_In _ _ E))).
  destruct (f x) as [x' o]. cbn [fst] in *. constructor. intros y Hy. apply in_set_nth in Hy. destruct Hy; [subst; assumption|auto].
Qed.

Lemma in_member_ordered : forall R k (f : value -> res R) m, (forall x, ordered x -> ordered (fst (f x))) ->
  ordered (VObj m) -> ordered (fst (in_member k f m)).
Proof.
  intros R k f m Hf H. unfold in_member. destruct (obj_find k m) as [x|] eqn:E; [|exact H].
  specialize (Hf x (ordered_find _ _ _ H E)). inversion H as [| | | | | |? Hs Hm]; subst.
  destruct (f x) as [x' o]. cbn [fst] in *. constructor; [apply set_sorted; assumption|].
  intros j y Hy. apply in_obj_set in Hy. destruct Hy as [D|D]; [injection D as -> ->; assumption|eapply Hm; eassumption].
Qed.

Lemma via1_ordered : forall R a (f : value -> res R), (forall x, ordered x -> ordered (fst (f x))) ->
  forall v, ordered v -> ordered (fst (via1 a f v)).
Proof.
  intros R a f Hf v H. destruct a as [i|k|i|k]; cbn [via1].
  - unfold via_at_idx. destruct v; try exact H. destruct (len l <=? i); [exact H|]. apply in_elem_ordered; assumption.
  - unfold via_at_key. destruct v; try exact H. destruct (obj_find k m); [|exact H]. apply in_member_ordered; assumption.
  - assert (A : forall l, ordered (VArr l) -> ordered (fst (in_elem i f (if len l <=? i
               then l ++ repeat VNull (N.to_nat (u64 (i + 18446744073709551616 - len l + 1))) else l)))).
    { intros l Hl. destruct (len l <=? i); apply in_elem_ordered; auto. inversion Hl; subst.
      constructor. intros x Hx. apply in_app_or in Hx. destruct Hx as [Hx|Hx]; [auto|].
      apply repeat_spec in Hx. subst. constructor. }
    unfold via_idx. destruct v; try exact H; apply A; [constructor; contradiction|assumption].
  - assert (A : forall m, ordered (VObj m) -> ordered (fst (in_member k f (obj_emplace k VNull m)))).
    { intros m Hm. apply in_member_ordered; auto. inversion Hm; subst. constructor; [apply emplace_sorted; assumption|].
      intros j x Hx. apply in_emplace in Hx. destruct Hx as [D|D]; [injection D as -> ->; constructor|eauto]. }
    unfold via_key. destruct v; try exact H; apply A; [constructor; [constructor|contradiction]|assumption].
Qed.

Lemma via_ordered : forall R p (f : value -> res R), (forall x, ordered x -> ordered (fst (f x))) ->
  forall v, ordered v -> ordered (fst (via p f v)).
Proof.
  intros R p f Hf. induction p as [|a p IH]; cbn [via]; [assumption|]. apply via1_ordered. assumption.
Qed.

Lemma run_op_ordered : forall o v, (forall x, In x (carried o) -> ordered x) -> ordered v -> ordered (fst (run_op o v)).
Proof.
  intros o v Hc H. destruct o as [x| |x|k|i| | | |k]; cbn [run_op fst rmap carried] in *; auto.
  - apply Hc. left. reflexivity.
  - destruct v; cbn [v_push fst]; try exact H.
    + constructor. intros y [<-|[]]. apply Hc. left. reflexivity.
    + inversion H; subst. constructor. intros y Hy. apply in_app_or in Hy. destruct Hy as [Hy|[<-|[]]]; auto.
      apply Hc. left. reflexivity.
  - destruct v; cbn [v_erase_key fst]; try exact H. inversion H; subst. constructor; [apply erase_sorted; assumption|].
    intros j y Hy. apply erase_keys in Hy. eauto.
  - destruct v; cbn [v_erase_idx fst]; try exact H. destruct (i <? len l); cbn [fst]; [|exact H].
    inversion H; subst. constructor. intros y Hy. apply in_remove in Hy. auto.
  - destruct v; cbn [v_clear]; constructor; try contradiction. constructor.
Qed.

Lemma run_ordered : forall p o v, (forall x, In x (carried o) -> ordered x) -> ordered v -> ordered (fst (run p o v)).
Proof. intros p o v Hc H. unfold run. apply via_ordered; [|assumption]. intros x Hx. apply run_op_ordered; assumption. Qed.

Lemma make_object_ordered : forall l, (forall k x, In (k, x) l -> ordered x) -> ordered (make_object l).
Proof.
  intros l H. unfold make_object. change (ordered (VObj (emplace_all l []))).
  assert (G : forall l m, (forall k x, In (k, x) l -> ordered x) -> sorted m -> (forall k x, In (k, x) m -> ordered x) ->
            ordered (VObj (emplace_all l m))).
  { clear. induction l as [|[k0 x0] l IH]; intros m Hl Hs Hm; cbn [emplace_all fold_left fst snd].
    - constructor; assumption.
    - apply IH.
      + intros k x Hi. eapply Hl. right. eassumption.
      + apply emplace_sorted. assumption.
      + intros k x Hi. apply in_emplace in Hi. destruct Hi as [D|D]; [injection D as -> ->; eapply Hl; left; reflexivity|eauto]. }
  apply G; [assumption|constructor|contradiction].
Qed.

(** ** Objects are finite maps *)
Lemma is_map_find : forall l m, is_map l m <-> sorted l /\ forall k, obj_find k l = m k.
Proof.
  intros l m. unfold is_map. split; intros [Hs H]; (split; [assumption|]).
  - intro k. destruct (m k) as [x|] eqn:E.
    + apply find_in; [assumption|]. apply H. assumption.
    + apply find_no. intros x Hx. apply H in Hx. congruence.
  - intros k x. rewrite <- (find_in _ k x l Hs), H. reflexivity.
Qed.

Lemma obj_step : forall o l m, is_map l m ->
  exists l' m' r, run_oop o (VObj l) = (VObj l', r) /\ is_map l' m' /\ fm_step o m m' r.
Proof.
  intros o l m H. apply is_map_find in H. destruct H as [Hs H].
  assert (G : forall l' r, run_oop o (VObj l) = (VObj l', r) -> sorted l' -> fm_step o m (fun k => obj_find k l') r ->
     exists l' m' r, run_oop o (VObj l) = (VObj l', r) /\ is_map l' m' /\ fm_step o m m' r).
  { intros l' r E S F. exists l', (fun k => obj_find k l'), r. split; [assumption|]. split; [|assumption].
    apply is_map_find. auto. }
  destruct o as [k f|k|].
  - set (x := value_or_null (m k)). destruct (f x) as [x' r] eqn:Ef.
    assert (F : obj_find k (obj_emplace k VNull l) = Some x).
    { rewrite find_emplace by assumption. unfold x, value_or_null. rewrite H, str_eqb_refl. destruct (m k); reflexivity. }
    apply (G (obj_set k x' (obj_emplace k VNull l)) r).
    + cbn [run_oop]. unfold via_key, in_member. rewrite F, Ef. reflexivity.
    + apply set_sorted, emplace_sorted. assumption.
    + cbn [fm_step]. fold x. rewrite Ef. cbn [fst snd].
      split; [rewrite find_set by (apply emplace_sorted; assumption); rewrite str_eqb_refl; reflexivity|].
      split; [reflexivity|]. intros j Hj. apply str_eqb_neq in Hj.
      rewrite find_set by (apply emplace_sorted; assumption). rewrite Hj, find_emplace by assumption.
      rewrite H, Hj. destruct (m j); reflexivity.
  - apply (G (obj_erase k l) (Ret (RNum (match obj_find k l with Some _ => 1 | None => 0 end)))).
    + reflexivity.
    + apply erase_sorted. assumption.
    + cbn [fm_step]. split; [rewrite find_erase by assumption; rewrite str_eqb_refl; reflexivity|].
      split; [|rewrite H; reflexivity]. intros j Hj. apply str_eqb_neq in Hj.
      rewrite find_erase by assumption. rewrite Hj. apply H.
  - apply (G [] (Ret RUnit)); [reflexivity|constructor|]. split; reflexivity.
Qed.

Lemma obj_hist : forall os l m, Forall oop_safe os -> is_map l m ->
  exists l' m' rs, run_all run_oop os (VObj l) = (VObj l', rs) /\ is_map l' m' /\ fm_hist os m m' rs.
Proof.
  induction os as [|o os IH]; intros l m F H.
  - exists l, m, []. split; [reflexivity|]. split; [assumption|]. constructor. reflexivity.
  - inversion F as [|? ? Fo Fs]; subst. destruct (obj_step o l m H) as (l1 & m1 & r & E & H1 & S1).
    destruct (IH l1 m1 Fs H1) as (l2 & m2 & rs & E2 & H2 & S2).
    exists l2, m2, (r :: rs). split; [|split; [assumption|econstructor; eassumption]].
    cbn [run_all]. rewrite E, E2.
    assert (N : r <> UB).
    { destruct o as [k f|k|]; cbn [fm_step oop_safe] in *.
      - destruct S1 as (_ & -> & _). apply Fo.
      - destruct S1 as (_ & _ & ->). discriminate.
      - destruct S1 as (_ & ->). discriminate. }
    destruct r; try reflexivity. contradiction.
Qed.

Lemma map_size : forall l m, is_map l m ->
  exists ks, v_size (VObj l) = N.of_nat (length ks) /\ NoDup ks /\ (forall k, In k ks <-> m k <> None).
Proof.
  intros l m [Hs H]. exists (map fst l). split; [cbn [v_size]; unfold len; rewrite map_length; reflexivity|]. split.
  - clear H. induction Hs as [|k v l F S IH]; cbn [map fst]; constructor; [|assumption].
    intro Hi. rewrite Forall_fst in F. apply F in Hi. eapply key_lt_irrefl. eassumption.
  - intro k. rewrite in_map_iff. split.
    + intros ([k' x] & <- & Hi). apply H in Hi. cbn [fst]. congruence.
    + intro N. destruct (m k) as [x|] eqn:E; [|contradiction]. exists (k, x). split; [reflexivity|]. apply H. assumption.
Qed.

Lemma map_at : forall l m k R (f : value -> res R), is_map l m ->
  match m k with
  | Some x => snd (via_at_key k f (VObj l)) = snd (f x) /\ v_count k (VObj l) = 1
  | None => via_at_key k f (VObj l) = (VObj l, Throw (EOutOfRange "operator[] key out of range")) /\ v_count k (VObj l) = 0
  end.
Proof.
  intros l m k R f H. apply is_map_find in H. destruct H as [Hs H]. unfold via_at_key, in_member, v_count.
  rewrite H. destruct (m k) as [x|].
  - destruct (f x) as [x' o]. auto.
  - split; reflexivity.
Qed.

Lemma make_object_map : forall l, exists m f, make_object l = VObj m /\ is_map m f /\
  forall k x, f k = Some x <-> assoc k x l.
Proof.
  intro l. unfold make_object. change (fold_left _ l []) with (emplace_all l []).
  exists (emplace_all l []), (fun k => obj_find k (emplace_all l [])). split; [reflexivity|]. split.
  - apply is_map_find. split; [|reflexivity]. apply emplace_all_sorted. constructor.
  - intros k x. rewrite emplace_all_find by constructor. cbn [obj_find]. apply find_iff.
Qed.

(** ** Arrays are sequences *)
Lemma seq_of : forall l, is_seq l (N.of_nat (length l), fun i => nth_error l (N.to_nat i)).
Proof.
  intro l. split; [reflexivity|]. cbn [fst snd]. split; [reflexivity|].
  intros i Hi. apply nth_error_None. lia.
Qed.

Lemma is_seq_nth : forall l s, is_seq l s -> forall i, snd s i = nth_error l (N.to_nat i).
Proof.
  intros l [n g] (H1 & H2 & H3) i. cbn [fst snd] in *. destruct (N.lt_ge_cases i n) as [L|L].
  - symmetry. apply H2. assumption.
  - rewrite H3 by assumption. symmetry. apply nth_error_None. lia.
Qed.

Lemma grown : forall (l : list value) i, i < 18446744073709551615 ->
  (if len l <=? i then l ++ repeat VNull (N.to_nat (u64 (i + 18446744073709551616 - len l + 1))) else l)
  = l ++ repeat VNull (N.to_nat (i + 1 - len l)).
Proof.
  intros l i Hi. destruct (N.leb_spec (len l) i) as [L|L].
  - do 3 f_equal. unfold u64.
    replace (i + 18446744073709551616 - len l + 1) with ((i + 1 - len l) + 1 * 18446744073709551616) by lia.
    rewrite N.mod_add by lia. apply N.mod_small. lia.
  - replace (i + 1 - len l) with 0 by lia. cbn [N.to_nat repeat]. symmetry. apply app_nil_r.
Qed.

Lemma nth_grown : forall (l : list value) i j,
  nth_error (l ++ repeat VNull (N.to_nat (i + 1 - len l))) (N.to_nat j) =
  if j <? len l then nth_error l (N.to_nat j) else if j <=? i then Some VNull else None.
Proof.
  intros l i j. unfold len in *. destruct (N.ltb_spec j (N.of_nat (length l))) as [L|L].
  - apply nth_error_app1. lia.
  - rewrite nth_error_app2 by lia. destruct (N.leb_spec j i) as [L2|L2].
    + apply nth_error_repeat. lia.
    + apply nth_error_None. rewrite repeat_length. lia.
Qed.

Lemma arr_step : forall o l s, idx_ok o -> is_seq l s ->
  exists l' s' r, run_aop o (VArr l) = (VArr l', r) /\ is_seq l' s' /\ seq_step o s s' r.
Proof.
  intros o l s Ho H. pose proof (is_seq_nth l s H) as Hn. destruct s as [n g]. cbn [snd] in Hn.
  assert (Hlen : len l = n) by (apply H).
  assert (G : forall l' r, run_aop o (VArr l) = (VArr l', r) ->
     seq_step o (n, g) (N.of_nat (length l'), fun i => nth_error l' (N.to_nat i)) r ->
     exists l' s' r, run_aop o (VArr l) = (VArr l', r) /\ is_seq l' s' /\ seq_step o (n, g) s' r).
  { intros l' r E F. exists l', (N.of_nat (length l'), fun i => nth_error l' (N.to_nat i)), r.
    split; [assumption|]. split; [|assumption]. apply seq_of. }
  destruct o as [i f|i|x|]; cbn [idx_ok] in Ho.
  - set (l1 := l ++ repeat VNull (N.to_nat (i + 1 - len l))).
    assert (F : nth_error l1 (N.to_nat i) = Some (value_or_null (g i))).
    { unfold l1. rewrite nth_grown, Hn. destruct (N.ltb_spec i (len l)) as [L|L].
      - destruct (nth_error l (N.to_nat i)) eqn:E; [reflexivity|]. apply nth_error_None in E. unfold len in L. lia.
      - replace (nth_error l (N.to_nat i)) with (@None value); [|symmetry; apply nth_error_None; unfold len in L; lia].
        cbn [value_or_null]. destruct (N.leb_spec i i); [reflexivity|lia]. }
    assert (L1 : N.of_nat (length l1) = N.max n (i + 1)).
    { unfold l1. rewrite app_length, repeat_length. unfold len in *. lia. }
    destruct (f (value_or_null (g i))) as [x' r] eqn:Ef.
    apply (G (set_nth (N.to_nat i) x' l1) r).
    + cbn [run_aop]. unfold via_idx. rewrite grown by assumption. fold l1. unfold in_elem. rewrite F, Ef. reflexivity.
    + cbn [seq_step]. rewrite Ef. cbn [fst snd]. rewrite length_set.
      assert (B : (N.to_nat i < length l1)%nat) by lia.
      split; [assumption|]. split; [rewrite nth_set, Nat.eqb_refl by assumption; reflexivity|]. split; [reflexivity|].
      split; intros j Hj Hj2; rewrite nth_set by assumption; destruct (Nat.eqb_spec (N.to_nat j) (N.to_nat i)); try lia;
        unfold l1; rewrite nth_grown.
      * destruct (N.ltb_spec j (len l)); [symmetry; apply Hn|lia].
      * destruct (N.ltb_spec j (len l)); [lia|]. destruct (N.leb_spec j i); [reflexivity|lia].
  - destruct (N.ltb_spec i (len l)) as [L|L].
    + apply (G (remove_nth (N.to_nat i) l) (Ret RUnit)).
      * cbn [run_aop run_op v_erase_idx]. destruct (N.ltb_spec i (len l)); [reflexivity|lia].
      * cbn [seq_step]. left. assert (B : (N.to_nat i < length l)%nat) by (unfold len in L; lia).
        pose proof (length_remove _ l _ B) as B2. unfold len in *. split; [lia|]. split; [reflexivity|]. split; [lia|].
        split; intros j Hj; rewrite nth_remove by assumption; destruct (Nat.ltb_spec (N.to_nat j) (N.to_nat i)); try lia;
          rewrite Hn; [reflexivity|]. f_equal. lia.
    + apply (G l UB).
      * cbn [run_aop run_op v_erase_idx]. destruct (N.ltb_spec i (len l)); [lia|reflexivity].
      * cbn [seq_step]. right. split; [lia|reflexivity].
  - apply (G (l ++ [x]) (Ret RUnit)); [reflexivity|]. cbn [seq_step]. rewrite app_length. cbn [length].
    unfold len in *. split; [lia|]. split; [reflexivity|]. split.
    + rewrite nth_error_app2 by lia. replace (N.to_nat n - length l)%nat with O by lia. reflexivity.
    + intros j Hj. rewrite nth_error_app1 by lia. symmetry. apply Hn.
  - apply (G [] (Ret RUnit)); [reflexivity|]. split; reflexivity.
Qed.

Lemma outcome_ub : forall A (r : outcome A), r = UB \/ r <> UB.
Proof. intros A []; auto; right; discriminate. Qed.

Lemma arr_hist : forall os l s, Forall idx_ok os -> is_seq l s ->
  exists l' s' rs, run_all run_aop os (VArr l) = (VArr l', rs) /\ is_seq l' s' /\ seq_hist os s s' rs.
Proof.
  induction os as [|o os IH]; intros l s F H.
  - exists l, s, []. split; [reflexivity|]. split; [assumption|]. constructor.
  - inversion F as [|? ? Fo Fs]; subst. destruct (arr_step o l s Fo H) as (l1 & s1 & r & E & H1 & S1).
    destruct (outcome_ub _ r) as [->|N].
    + exists l1, s1, [UB]. cbn [run_all]. rewrite E. split; [reflexivity|]. split; [assumption|]. apply sh_ub. assumption.
    + destruct (IH l1 s1 Fs H1) as (l2 & s2 & rs & E2 & H2 & S2).
      exists l2, s2, (r :: rs). split; [|split; [assumption|econstructor; eassumption]].
      cbn [run_all]. rewrite E, E2. destruct r; try reflexivity. contradiction.
Qed.

Lemma seq_at : forall l s i R (f : value -> res R), is_seq l s ->
  v_size (VArr l) = fst s /\
  match snd s i with
  | Some x => snd (via_at_idx i f (VArr l)) = snd (f x)
  | None => via_at_idx i f (VArr l) = (VArr l, Throw (EOutOfRange "operator[] index out of range"))
  end.
Proof.
  intros l s i R f H. split; [apply H|]. rewrite (is_seq_nth l s H). unfold via_at_idx, in_elem.
  destruct (nth_error l (N.to_nat i)) as [x|] eqn:E.
  - assert (B : (N.to_nat i < length l)%nat) by (apply nth_error_Some; congruence).
    destruct (N.leb_spec (len l) i) as [L|L]; [unfold len in L; lia|]. destruct (f x). reflexivity.
  - apply nth_error_None in E. destruct (N.leb_spec (len l) i) as [L|L]; [reflexivity|unfold len in L; lia].
Qed.

(** ** Misuse *)
Lemma run_op_cases : forall o v,
  (exists e, misuse o v e /\ run_op o v = (v, Throw e)) \/
  ((forall c, ~ misuse o v c) /\
   ((exists v' r, run_op o v = (v', Ret r)) \/
    (exists i l, o = EraseIdx i /\ v = VArr l /\ N.of_nat (length l) <= i /\ snd (run_op o v) = UB))).
Proof.
  intros o v.
  assert (G : (forall c, ~ misuse o v c) -> (exists v' r, run_op o v = (v', Ret r)) ->
     (exists e, misuse o v e /\ run_op o v = (v, Throw e)) \/
     ((forall c, ~ misuse o v c) /\
      ((exists v' r, run_op o v = (v', Ret r)) \/
       (exists i l, o = EraseIdx i /\ v = VArr l /\ N.of_nat (length l) <= i /\ snd (run_op o v) = UB)))).
  { intros A B. right. split; [assumption|]. left. assumption. }
  destruct o as [x| |x|k|i| | | |k]; try (apply G; [intros c H; inversion H|do 2 eexists; reflexivity]).
  - destruct v; try (left; eexists; split; [constructor; discriminate|reflexivity]);
      apply G; try (do 2 eexists; reflexivity); intros c H; inversion H; subst; cbn [type_of] in *; congruence.
  - destruct v; try (left; eexists; split; [constructor; discriminate|reflexivity]).
    apply G; [intros c H; inversion H; subst; cbn [type_of] in *; congruence|do 2 eexists; reflexivity].
  - destruct v; try (left; eexists; split; [constructor; discriminate|reflexivity]).
    right. split; [intros c H; inversion H; subst; cbn [type_of] in *; congruence|].
    cbn [run_op v_erase_idx]. destruct (N.ltb_spec i (len l)) as [L|L].
    + left. do 2 eexists. reflexivity.
    + right. exists i, l. repeat split. assumption.
Qed.

Lemma via1_cases : forall R a (f : value -> res R) v, ordered v ->
  (match a with RefIdx i => i < 18446744073709551615 | _ => True end) ->
  (exists e, bad_subscript a v e /\ via1 a f v = (v, Throw e)) \/
  ((forall c, ~ bad_subscript a v c) /\ exists x, element a v x /\ snd (via1 a f v) = snd (f x)).
Proof.
  intros R a f v Ho Hi. destruct a as [i|k|i|k]; cbn [via1].
  - destruct v; try (left; eexists; split; [constructor; discriminate|reflexivity]).
    unfold via_at_idx. destruct (N.leb_spec (len l) i) as [L|L].
    + left. eexists. split; [constructor; exact L|reflexivity].
    + right. split.
      * intros c H. inversion H; subst; [cbn [type_of] in *; congruence|]. unfold len in L. lia.
      * unfold in_elem. destruct (nth_error l (N.to_nat i)) as [x|] eqn:E.
        -- exists x. split; [constructor; assumption|]. destruct (f x). reflexivity.
        -- apply nth_error_None in E. unfold len in L. lia.
  - destruct v; try (left; eexists; split; [constructor; discriminate|reflexivity]).
    unfold via_at_key, in_member. destruct (obj_find k m) as [x|] eqn:E.
    + right. apply find_in' in E. split.
      * intros c H. inversion H as [| | |? ? N1| |? ? N1]; subst; [cbn [type_of] in *; congruence|]. apply (N1 x). assumption.
      * exists x. split; [constructor; assumption|]. destruct (f x). reflexivity.
    + left. eexists. split; [constructor; apply find_no; exact E|reflexivity].
  - assert (A : forall l, snd (in_elem i f (if len l <=? i
               then l ++ repeat VNull (N.to_nat (u64 (i + 18446744073709551616 - len l + 1))) else l))
            = snd (f (value_or_null (nth_error l (N.to_nat i))))).
    { intro l. rewrite grown by assumption. unfold in_elem. rewrite nth_grown.
      destruct (N.ltb_spec i (len l)) as [L|L].
      - destruct (nth_error l (N.to_nat i)) as [x|] eqn:E; [cbn [value_or_null]; destruct (f x); reflexivity|].
        apply nth_error_None in E. unfold len in L. lia.
      - destruct (N.leb_spec i i); [|lia]. replace (nth_error l (N.to_nat i)) with (@None value).
        + cbn [value_or_null]. destruct (f VNull). reflexivity.
        + symmetry. apply nth_error_None. unfold len in L. lia. }
    destruct v; try (left; eexists; split; [constructor; discriminate|reflexivity]).
    + right. split; [intros c H; inversion H; subst; cbn [type_of] in *; congruence|].
      exists VNull. split; [constructor|]. etransitivity; [exact (A [])|]. destruct (N.to_nat i); reflexivity.
    + right. split; [intros c H; inversion H; subst; cbn [type_of] in *; congruence|].
      exists (value_or_null (nth_error l (N.to_nat i))). split; [|apply A].
      destruct (nth_error l (N.to_nat i)) as [x|] eqn:E; [constructor; assumption|].
      apply nth_error_None in E. apply el_new_idx. lia.
  - assert (A : forall m, sorted m -> snd (in_member k f (obj_emplace k VNull m)) = snd (f (value_or_null (obj_find k m)))).
    { intros m Hm. unfold in_member. rewrite find_emplace, str_eqb_refl by assumption.
      destruct (obj_find k m) as [x|]; cbn [value_or_null]; [destruct (f x)|destruct (f VNull)]; reflexivity. }
    destruct v; try (left; eexists; split; [constructor; discriminate|reflexivity]).
    + right. split; [intros c H; inversion H; subst; cbn [type_of] in *; congruence|].
      exists VNull. split; [constructor|]. etransitivity; [exact (A [] (so_nil))|]. reflexivity.
    + right. split; [intros c H; inversion H; subst; cbn [type_of] in *; congruence|].
      inversion Ho; subst. exists (value_or_null (obj_find k m)). split; [|apply A; assumption].
      destruct (obj_find k m) as [x|] eqn:E; [constructor; apply find_in'; assumption|].
      apply el_new_key. apply find_no. assumption.
Qed.

(** an exception through a chain of at() leaves the whole tree as it was *)
Lemma at_unchanged : forall p o v e, Forall only_at p -> ordered v -> snd (run p o v) = Throw e -> fst (run p o v) = v.
Proof.
  intros p o v e Hp. unfold run. revert v. induction p as [|a p IH]; intros v Ho H; cbn [via] in *.
  - destruct (run_op_cases o v) as [(e' & _ & E)|(_ & [(v' & r & E)|(i & l & _ & _ & _ & E)])].
    + rewrite E. reflexivity.
    + rewrite E in H. discriminate.
    + rewrite E in H. discriminate.
  - inversion Hp as [|? ? Ha Hp']; subst. specialize (IH Hp'). destruct a as [i|k|i|k]; try contradiction; cbn [via1] in *.
    + unfold via_at_idx in *. destruct v; try reflexivity. destruct (len l <=? i); [reflexivity|].
      unfold in_elem in *. destruct (nth_error l (N.to_nat i)) as [x|] eqn:E; [|reflexivity].
      inversion Ho as [| | | | |? Hl|]; subst. specialize (IH x (Hl x (nth_error_In _ _ E))).
      destruct (via p (run_op o) x) as [x' r]. cbn [fst snd] in *. rewrite (IH H). rewrite set_same; auto.
    + unfold via_at_key in *. destruct v; try reflexivity. unfold in_member in *. destruct (obj_find k m) as [x|] eqn:E; [|reflexivity].
      specialize (IH x (ordered_find _ _ _ Ho E)). inversion Ho; subst.
      destruct (via p (run_op o) x) as [x' r]. cbn [fst snd] in *. rewrite (IH H). rewrite set_find_same; auto.
Qed.

(** null stands for an empty container where one is needed *)
Lemma null_container : forall R i k (f : value -> res R) x,
  via_idx i f VNull = via_idx i f (VArr []) /\ via_key k f VNull = via_key k f (VObj []) /\ v_push x VNull = v_push x (VArr []).
Proof. intros. repeat split; reflexivity. Qed.

Lemma size_empty : forall v, v_empty v = true <-> v_size v = 0.
Proof. intros [| | | |[|]|[|]|]; cbn [v_empty v_size]; unfold len; cbn [length]; split; intro; try discriminate; try reflexivity; lia. Qed.

Lemma clear_default : forall v, type_of (v_clear v) = type_of v /\ v_clear v = of_type (type_of v).
Proof. intros []; split; reflexivity. Qed.
