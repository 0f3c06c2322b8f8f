(** from_value reads exactly as specified. *)
From Coq Require Import Sorted Permutation Floats.SpecFloat Lia ZifyBool ZifyNat ZifyN.
From Verif Require Import Base Value Compare ValueOps Iterator SpecGrammar SpecText ObjFacts SpecValue ValueProofs SpecIter IterProofs
  SpecCompare CompareProofs Cpp Convert SpecConv ConvOrder ConvFloat ConvTo.
Open Scope N_scope.

(** ** Loops *)
Section Scan.
Context {A B : Type} (g : A -> outcome B).
Fixpoint scan (l : list A) : list B * outcome unit :=
  match l with
  | [] => ([], Ret tt)
  | a :: l' => match g a with
               | Ret b => (b :: fst (scan l'), snd (scan l'))
               | o => ([], void o)
               end
  end.

Lemma scan_ret : forall l ys, scan l = (ys, Ret tt) <-> Forall2 (fun a b => g a = Ret b) l ys.
Proof.
  induction l as [|a l IH]; intro ys; cbn [scan].
  - split; intro H; [injection H as <-; constructor|inversion H; reflexivity].
  - destruct (g a) as [b|er| | |] eqn:G; cbn [void bind]; try (split; intro H; [discriminate|inversion H; congruence]).
    destruct (scan l) as [bs o] eqn:E. cbn [fst snd]. split; intro H.
    + injection H as <- ->. constructor; [assumption|]. apply IH. reflexivity.
    + inversion H as [|? b' ? bs' Hb Hl]; subst. apply IH in Hl. congruence.
Qed.

Lemma scan_stop : forall l ys er, scan l = (ys, Throw er) <->
  exists l1 a l2, l = l1 ++ a :: l2 /\ Forall2 (fun a b => g a = Ret b) l1 ys /\ g a = Throw er.
Proof.
  induction l as [|a l IH]; intros ys er; cbn [scan].
  - split; [discriminate|]. intros (l1 & a & l2 & E & _). destruct l1; discriminate.
  - split.
    + destruct (g a) as [b|er'| | |] eqn:G; cbn [void bind]; try discriminate.
      * destruct (scan l) as [bs o] eqn:E. cbn [fst snd]. intro H. injection H as <- ->.
        destruct (proj1 (IH bs er) eq_refl) as (l1 & a' & l2 & -> & F & X).
        exists (a :: l1), a', l2. split; [reflexivity|]. split; [constructor; assumption|assumption].
      * intro H. injection H as <- <-. exists [], a, l. split; [reflexivity|]. split; [constructor|assumption].
    + intros (l1 & a' & l2 & E & F & X). destruct F as [|a1 b l1 bs Hb F].
      * injection E as -> ->. rewrite X. reflexivity.
      * injection E as -> ->. rewrite Hb. rewrite (proj2 (IH bs er)); [reflexivity|]. exists l1, a', l2. auto.
Qed.

Lemma scan_split : forall l, (forall a, In a l -> exists o, g a = o /\ (match o with Ret _ | Throw _ => True | _ => False end)) ->
  exists ys, scan l = (ys, Ret tt) \/ exists er, scan l = (ys, Throw er).
Proof.
  induction l as [|a l IH]; intro H; cbn [scan]; [exists []; auto|].
  destruct (H a (or_introl eq_refl)) as (o & -> & O). destruct o; try contradiction.
  - destruct (IH (fun x Hx => H x (or_intror Hx))) as (ys & [->|(er & ->)]); cbn [fst snd]; eauto.
  - cbn [void bind]. eauto.
Qed.
End Scan.

Section Upds.
Context {X B : Type} (upd : N -> X -> B -> X).
Fixpoint upds (i : N) (ys : list B) (s : X) : X :=
  match ys with
  | [] => s
  | y :: ys' => upds (i + 1) ys' (upd i s y)
  end.
End Upds.

Lemma loop_scan : forall A B X (g : A -> outcome B) (G : N -> outcome B) (upd : N -> X -> B -> X) cond l i s fuel,
  (length l < fuel)%nat ->
  (forall j a, nth_error l j = Some a -> cond (i + N.of_nat j) = true /\ G (i + N.of_nat j) = g a) ->
  cond (i + N.of_nat (length l)) = false ->
  for_loop fuel cond (fun i s => assign s (G i) (upd i s)) i s = (upds upd i (fst (scan g l)) s, snd (scan g l)).
Proof.
  intros A B X g G upd cond l. induction l as [|a l IH]; intros i s [|fuel] L H C; try (cbn in L; lia); cbn [for_loop scan].
  - cbn [length] in C. rewrite N.add_0_r in C. rewrite C. reflexivity.
  - destruct (H 0%nat a eq_refl) as [C0 G0]. cbn [N.of_nat] in C0, G0. rewrite N.add_0_r in C0, G0. rewrite C0, G0.
    destruct (g a) as [b|er| | |]; cbn [assign seq_ void bind]; try reflexivity.
    rewrite IH; [reflexivity|cbn [length] in L; lia| |].
    + intros j a' Hj. specialize (H (S j) a' Hj). replace (i + 1 + N.of_nat j) with (i + N.of_nat (S j)) by lia. assumption.
    + cbn [length] in C. replace (i + 1 + N.of_nat (length l)) with (i + N.of_nat (S (length l))) by lia. assumption.
Qed.

Lemma loop_stop : forall X fuel cond (body : N -> X -> X * outcome unit) i s er, cond i = true -> body i s = (s, Throw er) ->
  for_loop (S fuel) cond body i s = (s, Throw er).
Proof. intros X fuel cond body i s er C E. cbn [for_loop]. rewrite C, E. reflexivity. Qed.
Lemma loop_none : forall X fuel cond (body : N -> X -> X * outcome unit) i s, cond i = false ->
  for_loop (S fuel) cond body i s = (s, Ret tt).
Proof. intros X fuel cond body i s C. cbn [for_loop]. rewrite C. reflexivity. Qed.

Lemma upds_set : forall (ys a b : list cval), (length ys <= length b)%nat ->
  upds (fun i l y => set_nth (N.to_nat i) y l) (len a) ys (a ++ b) = a ++ ys ++ skipn (length ys) b.
Proof.
  induction ys as [|y ys IH]; intros a b L; [reflexivity|]. destruct b as [|z b]; [cbn in L; lia|].
  cbn [upds length skipn]. replace (len a + 1) with (len (a ++ [y])) by (unfold len; rewrite app_length; cbn [length]; lia).
  replace (set_nth (N.to_nat (len a)) y (a ++ z :: b)) with ((a ++ [y]) ++ b).
  - rewrite IH by (cbn [length] in L; lia). rewrite <- app_assoc. reflexivity.
  - unfold len. rewrite Nat2N.id. rewrite <- app_assoc. cbn [app]. clear. induction a as [|x a IH]; [reflexivity|]. cbn [app length set_nth]. rewrite IH. reflexivity.
Qed.
Lemma upds_set0 : forall (ys l : list cval), (length ys <= length l)%nat ->
  upds (fun i l y => set_nth (N.to_nat i) y l) 0 ys l = ys ++ skipn (length ys) l.
Proof. intros ys l L. exact (upds_set ys [] l L). Qed.
Lemma upds_back : forall ys i (s : list cval), upds (fun _ l y => l ++ [y]) i ys s = s ++ ys.
Proof. induction ys as [|y ys IH]; intros i s; cbn [upds]; [symmetry; apply app_nil_r|]. rewrite IH, <- app_assoc. reflexivity. Qed.
Lemma upds_front : forall ys i (s : list cval), upds (fun _ l y => y :: l) i ys s = rev ys ++ s.
Proof. induction ys as [|y ys IH]; intros i s; cbn [upds rev]; [reflexivity|]. rewrite IH, <- app_assoc. reflexivity. Qed.
Lemma upds_insert : forall ys i (s : list cval), upds (fun _ l y => set_insert y l) i ys s = insert_all ys s.
Proof. induction ys as [|y ys IH]; intros i s; cbn [upds]; [reflexivity|]. rewrite IH. reflexivity. Qed.

Lemma insert_assign : forall s o, insert s o = assign s (let* y := o in if ceqb y y then Ret y else UB) (fun y => set_insert y s).
Proof. intros s [y|er| | |]; cbn [insert assign bind void]; try reflexivity. destruct (ceqb y y); reflexivity. Qed.
Lemma loop_ext : forall X fuel cond (b1 b2 : N -> X -> X * outcome unit) i s, (forall i s, b1 i s = b2 i s) ->
  for_loop fuel cond b1 i s = for_loop fuel cond b2 i s.
Proof.
  intros X fuel cond b1 b2 i s H. revert i s. induction fuel as [|fuel IH]; intros i s; cbn [for_loop]; [reflexivity|].
  destruct (cond i); [|reflexivity]. rewrite H. destruct (b2 i s) as [s' [[]|er| | |]]; cbn [seq_]; try reflexivity. apply IH.
Qed.

(** ** Elements *)
Lemma at_idx_arr : forall l j x, nth_error l j = Some x -> at_idx (N.of_nat j) (VArr l) = Ret x.
Proof.
  intros l j x H. unfold at_idx, via_at_idx, len. assert (j < length l)%nat by (apply nth_error_Some; congruence).
  replace (N.of_nat (length l) <=? N.of_nat j) with false by lia. unfold in_elem. rewrite Nat2N.id, H. reflexivity.
Qed.
Lemma no_items_at : forall v i, no_seq_items v -> at_idx i v = Throw not_array.
Proof.
  intros v i H. unfold at_idx, via_at_idx. destruct v as [|z|f|s|l|m|b]; try reflexivity.
  destruct (H l). constructor.
Qed.
Lemma no_items_size : forall v, no_seq_items v -> 0 < v_size v.
Proof.
  intros v H. destruct v as [|z|f|s|l|m|b]; cbn [v_size]; try lia.
  - destruct (H [] is_null).
  - destruct (H l). constructor.
  - destruct m as [|p m]; [destruct (H [] is_obj0)|]. unfold len. cbn [length]. lia.
Qed.
Lemma items_dec : forall v, (exists vs, seq_items v vs) \/ no_seq_items v.
Proof.
  intros [|z|f|s|l|[|p m]|b]; try (right; intros l' H; inversion H; fail); left; eexists; constructor.
Qed.
Lemma items_size : forall v vs, seq_items v vs -> v_size v = len vs.
Proof. intros v vs H. destruct H; reflexivity. Qed.
Lemma items_at : forall v vs j x, seq_items v vs -> nth_error vs j = Some x -> at_idx (N.of_nat j) v = Ret x.
Proof. intros v vs j x H E. destruct H; [apply at_idx_arr; assumption|destruct j; discriminate|destruct j; discriminate]. Qed.
Lemma items_ordered : forall v vs, seq_items v vs -> ordered v -> forall x, In x vs -> ordered x.
Proof.
  intros v vs H O x Hx. destruct H; [|destruct Hx|destruct Hx]. inversion O; subst. auto.
Qed.
Lemma items_det : forall v a b, seq_items v a -> seq_items v b -> a = b.
Proof. intros v a b A B. destruct A; inversion B; reflexivity. Qed.

(** ** Iterating over members *)
Section Each.
Variable c : value.
Let mem : addr -> value := fun _ => c.

Lemma each_scan : forall A B X (g : A -> outcome B) (P : iter -> outcome B) (upd : X -> B -> X) l n it s fuel,
  at_pos mem 0 n it -> N.of_nat (n + length l) = v_size c -> (length l < fuel)%nat ->
  (forall j a jt, nth_error l j = Some a -> at_pos mem 0 (n + j) jt -> P jt = g a) ->
  each fuel c (fun it s => assign s (P it) (upd s)) it s = (fold_left upd (fst (scan g l)) s, snd (scan g l)).
Proof.
  intros A B X g P upd l. induction l as [|a l IH]; intros n it s [|fuel] At Sz L H; try (cbn in L; lia); cbn [each scan]; change (fun _ : addr => c) with mem.
  - destruct (end_pos mem 0) as (en & -> & En). cbn [bind]. cbn [length] in Sz. rewrite Nat.add_0_r in Sz.
    change (v_size (mem 0)) with (v_size c) in En. rewrite <- Sz, Nat2N.id in En.
    rewrite (eq_pos mem 0 n n it en At En) by auto. rewrite Nat.eqb_refl. reflexivity.
  - destruct (end_pos mem 0) as (en & -> & En). cbn [bind]. change (v_size (mem 0)) with (v_size c) in En. rewrite <- Sz, Nat2N.id in En.
    assert (Nn : type_of (mem 0) = TNull -> n = (n + length (a :: l))%nat).
    { intro T. change (mem 0) with c in T. destruct c; try discriminate. cbn [v_size] in Sz. lia. }
    rewrite (eq_pos mem 0 n _ it en At En Nn). replace (Nat.eqb n _) with false by (symmetry; apply Nat.eqb_neq; cbn [length]; lia).
    rewrite (H 0%nat a it eq_refl) by (rewrite Nat.add_0_r; assumption).
    destruct (g a) as [b|er| | |]; cbn [assign seq_ void bind]; try reflexivity.
    destruct (incr_pos mem 0 n it At) as (jt & -> & Jt); [change (v_size (mem 0)) with (v_size c); cbn [length] in Sz; lia|].
    rewrite (IH (S n) jt (upd s b) fuel Jt); [reflexivity|cbn [length] in Sz; lia|cbn [length] in L; lia|].
    intros j a' jt' Hj At'. apply (H (S j) a' jt' Hj). replace (n + S j)%nat with (S n + j)%nat by lia. assumption.
Qed.

Lemma each_stop : forall X (body : iter -> X -> X * outcome unit) it s fuel er, at_pos mem 0 0 it -> 0 < v_size c ->
  body it s = (s, Throw er) -> each (S fuel) c body it s = (s, Throw er).
Proof.
  intros X body it s fuel er At Sz E. cbn [each]. change (fun _ : addr => c) with mem. destruct (end_pos mem 0) as (en & -> & En). cbn [bind].
  change (v_size (mem 0)) with (v_size c) in En.
  rewrite (eq_pos mem 0 0 _ it en At En).
  - replace (Nat.eqb 0 _) with false by (symmetry; apply Nat.eqb_neq; lia). rewrite E. reflexivity.
  - intro T. change (mem 0) with c in T. destruct c; try discriminate.
Qed.
End Each.

Definition emplaces (ps m : list (str * cval)) : list (str * cval) := fold_left (fun m p => obj_emplace (fst p) (snd p) m) ps m.
Lemma emplaces_sorted : forall ps m, sorted m -> sorted (emplaces ps m).
Proof.
  induction ps as [|[k v] ps IH]; intros m H; [assumption|]. cbn [emplaces fold_left]. apply IH. apply emplace_sorted. assumption.
Qed.
Lemma find_app : forall A k (a b : list (str * A)), obj_find k (a ++ b) = match obj_find k a with Some x => Some x | None => obj_find k b end.
Proof. induction a as [|[j x] a IH]; intro b; cbn [app obj_find]; [reflexivity|]. destruct (str_eqb k j); [reflexivity|apply IH]. Qed.
Lemma emplaces_find : forall ps m k, sorted m -> obj_find k (emplaces ps m) = obj_find k (m ++ ps).
Proof.
  induction ps as [|[k0 v0] ps IH]; intros m k H; rewrite find_app.
  - destruct (obj_find k m) eqn:E; cbn [emplaces fold_left]; rewrite E; reflexivity.
  - cbn [emplaces fold_left fst snd obj_find]. change (fold_left _ ps ?x) with (emplaces ps x).
    rewrite IH by (apply emplace_sorted; assumption). rewrite find_app, find_emplace by assumption.
    destruct (obj_find k m); [reflexivity|]. destruct (str_eqb k k0); reflexivity.
Qed.
Lemma emplaces_iff : forall m ps m', sorted m -> (map_of (m ++ ps) m' <-> m' = emplaces ps m).
Proof.
  intros m ps m' H.
  assert (O : map_of (m ++ ps) (emplaces ps m)).
  { split; [apply emplaces_sorted; assumption|]. intros k v. rewrite <- !find_iff. rewrite emplaces_find by assumption. reflexivity. }
  split; [|intros ->; exact O]. intros [S1 E1]. destruct O as [S2 E2]. apply sorted_unique; [assumption|assumption|].
  intros k v. rewrite <- E1, <- E2. reflexivity.
Qed.

(** ** Defaults *)
Lemma dflt_typed : forall t, wf_ty t -> typed t (dflt t).
Proof.
  induction t as [|w sg| | | | |raw|t IH|n t IH|k t IH|h t IH|fs IH] using cty_deep; intro W; cbn [dflt]; try (constructor; fail).
  - constructor. inversion W as [|? ? Hw| | | | | | | | | |]; subst. cbn [In] in Hw.
    destruct Hw as [<-|[<-|[<-|[<-|[]]]]]; destruct sg; cbn; lia.
  - constructor. reflexivity.
  - constructor. constructor.
  - destruct raw; constructor; constructor; try (apply Sorted.Sorted_nil); try (constructor; fail); intros; contradiction.
  - inversion W; subst. constructor; [apply repeat_length|]. apply Forall_forall. intros x Hx. apply repeat_spec in Hx. subst. auto.
  - constructor; [constructor|]. intros _. split; constructor.
  - constructor; constructor.
  - inversion W as [| | | | | | | | | | |? Nd Wf]; subst. constructor. clear W Nd. induction fs as [|f fs IHfs]; cbn [map]; constructor.
    + inversion IH; inversion Wf; subst. auto.
    + inversion IH; inversion Wf; subst. auto.
Qed.

Lemma wf_width : forall w sg, wf_ty (TyInt w sg) -> 0 < w.
Proof. intros w sg W. inversion W as [|? ? H| | | | | | | | | |]; subst. cbn [In] in H. lia. Qed.

Lemma stored_wrap : forall w sg z y, 0 < w -> (stored w sg z y <-> y = wrap w sg z).
Proof.
  intros w sg z y W. split.
  - intros [R [k E]]. destruct (wrap_cong w sg z W) as [k' E']. 
    apply (range_unique w sg y (wrap w sg z) (k' - k)%Z W R (wrap_range w sg z W)). nia.
  - intros ->. split; [apply wrap_range|apply wrap_cong]; assumption.
Qed.
