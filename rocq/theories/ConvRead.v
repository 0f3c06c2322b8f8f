(** Reading: the model against the specification. *)
From Coq Require Import Sorted Permutation Floats.SpecFloat Lia ZifyBool ZifyNat ZifyN.
From Verif Require Import Base Value Compare ValueOps Iterator SpecGrammar SpecText ObjFacts SpecValue ValueProofs SpecIter IterProofs
  SpecCompare CompareProofs Cpp Convert SpecConv ConvOrder ConvFloat ConvTo ConvFrom.
Open Scope N_scope.

Section Env.
Variable e : env.

Lemma get_fresh : forall t v, fresh (from_val e t v (dflt t)) = get e t v.
Proof. reflexivity. Qed.
Lemma get_ret : forall t v y, get e t v = Ret y <-> from_val e t v (dflt t) = (y, Ret tt).
Proof.
  intros t v y. unfold get, fresh. destruct (from_val e t v (dflt t)) as [x [[]|er| | |]]; cbn [bind]; split; intro H; try discriminate; congruence.
Qed.
Lemma get_throw : forall t v er, get e t v = Throw er <-> exists y, from_val e t v (dflt t) = (y, Throw er).
Proof.
  intros t v er. unfold get, fresh. destruct (from_val e t v (dflt t)) as [x [[]|er'| | |]]; cbn [bind]; split; intro H;
    try discriminate; try (destruct H; discriminate).
  - injection H as <-. eauto.
  - destruct H as [y H]. congruence.
Qed.

Definition get_cmp (t : cty) (v : value) : outcome cval := let* y := get e t v in if ceqb y y then Ret y else UB.
Lemma get_cmp_ret : forall t v y, get_cmp t v = Ret y <-> get e t v = Ret y /\ ceqb y y = true.
Proof.
  intros t v y. unfold get_cmp. destruct (get e t v) as [x|er| | |]; cbn [bind]; try (split; [discriminate|intros [H _]; discriminate]).
  destruct (ceqb x x) eqn:E; split; intro H; try discriminate.
  - injection H as <-. auto.
  - destruct H; congruence.
  - destruct H as [H H']. congruence.
Qed.
Lemma get_cmp_throw : forall t v er, get_cmp t v = Throw er <-> get e t v = Throw er.
Proof.
  intros t v er. unfold get_cmp. destruct (get e t v) as [x|er'| | |]; cbn [bind]; try (split; discriminate); [|reflexivity].
  destruct (ceqb x x); split; discriminate.
Qed.

Lemma scan_len : forall A B (g : A -> outcome B) l, (length (fst (scan g l)) <= length l)%nat.
Proof. induction l as [|a l IH]; cbn [scan]; [cbn; lia|]. destruct (g a); cbn [fst length]; lia. Qed.

Lemma resize_length : forall d n l, length (resize d n l) = n.
Proof. intros d n l. unfold resize. rewrite app_length, firstn_length, repeat_length. lia. Qed.

Lemma nth_rev : forall A (l : list A) j a, nth_error (rev l) j = Some a -> (j < length l)%nat /\ nth_error l (length l - j - 1) = Some a.
Proof.
  intros A l j a H. assert (L : (j < length l)%nat) by (rewrite <- rev_length; apply nth_error_Some; congruence).
  split; [assumption|]. rewrite (nth_error_nth' _ a) by lia. f_equal.
  apply nth_error_nth with (d := a) in H. rewrite rev_nth in H by assumption.
  replace (length l - j - 1)%nat with (length l - S j)%nat by lia. exact H.
Qed.

Definition seq_read (k : seqk) (t : cty) (vs : list value) (l : list cval) : list cval * outcome unit :=
  match k with
  | KVector | KDeque => let '(ys, o) := scan (get e t) vs in (ys ++ skipn (length ys) (resize (dflt t) (length vs) l), o)
  | KList => scan (get e t) vs
  | KForward => let '(ys, o) := scan (get e t) (rev vs) in (rev ys, o)
  | KSet | KUSet => let '(ys, o) := scan (get_cmp t) vs in (insert_all ys [], o)
  end.

Lemma from_seq : forall k t v vs l, seq_items v vs ->
  from_val e (TySeq k t) v (CSeq l) = (CSeq (fst (seq_read k t vs l)), snd (seq_read k t vs l)).
Proof.
  intros k t v vs l I. pose proof (items_size v vs I) as Sz.
  assert (L : (length vs < S (N.to_nat (v_size v)))%nat) by (rewrite Sz; unfold len; lia).
  assert (C : (0 + N.of_nat (length vs) <? v_size v) = false) by (rewrite Sz; unfold len; lia).
  assert (H : forall j a, nth_error vs j = Some a ->
    (0 + N.of_nat j <? v_size v) = true /\ (let* v := at_idx (0 + N.of_nat j) v in fresh (from_val e t v (dflt t))) = get e t a).
  { intros j a Hj. rewrite N.add_0_l, (items_at v vs j a I Hj). split; [|reflexivity].
    assert (j < length vs)%nat by (apply nth_error_Some; congruence). rewrite Sz. unfold len. lia. }
  assert (V : forall K, K = KVector \/ K = KDeque -> from_val e (TySeq K t) v (CSeq l) = (CSeq (fst (seq_read K t vs l)), snd (seq_read K t vs l))).
  { intros K HK. transitivity (let '(l', o) :=
      for_loop (S (N.to_nat (v_size v))) (fun i => i <? v_size v)
        (fun i l => assign l (let* v := at_idx i v in fresh (from_val e t v (dflt t))) (fun y => set_nth (N.to_nat i) y l)) 0
        (resize (dflt t) (N.to_nat (v_size v)) l) in (CSeq l', o)); [destruct HK as [->| ->]; reflexivity|].
    rewrite (loop_scan value cval (list cval) (get e t) _ (fun i l y => set_nth (N.to_nat i) y l) _ vs 0 _ _ L H C).
    pose proof (scan_len _ _ (get e t) vs) as SL.
    destruct HK as [->| ->]; cbn [seq_read]; destruct (scan (get e t) vs) as [ys o]; cbn [fst snd] in *;
      rewrite upds_set0 by (rewrite resize_length, Sz; unfold len; lia); rewrite Sz; unfold len; rewrite Nat2N.id; reflexivity. }
  assert (T : forall K, K = KSet \/ K = KUSet -> from_val e (TySeq K t) v (CSeq l) = (CSeq (fst (seq_read K t vs l)), snd (seq_read K t vs l))).
  { intros K HK. transitivity (let '(l', o) :=
      for_loop (S (N.to_nat (v_size v))) (fun i => i <? v_size v)
        (fun i l => insert l (let* v := at_idx i v in fresh (from_val e t v (dflt t)))) 0 [] in (CSeq l', o)); [destruct HK as [->| ->]; reflexivity|].
    rewrite (loop_ext _ _ _ _ (fun i l => assign l (let* y := (let* v := at_idx i v in fresh (from_val e t v (dflt t))) in if ceqb y y then Ret y else UB)
      (fun y => set_insert y l))) by (intros; apply insert_assign).
    rewrite (loop_scan value cval (list cval) (get_cmp t) _ (fun i l y => set_insert y l) _ vs 0 _ _ L).
    - destruct HK as [->| ->]; cbn [seq_read]; destruct (scan (get_cmp t) vs) as [ys o]; cbn [fst snd]; rewrite upds_insert; reflexivity.
    - intros j a Hj. destruct (H j a Hj) as [H1 H2]. split; [assumption|]. rewrite H2. reflexivity.
    - assumption. }
  destruct k; auto.
  - cbn [from_val]. rewrite (loop_scan value cval (list cval) (get e t) _ (fun i l y => l ++ [y]) _ vs 0 _ _ L H C).
    cbn [seq_read]. rewrite upds_back. reflexivity.
  - cbn [from_val]. rewrite (loop_scan value cval (list cval) (get e t) (fun i => let* v := at_idx (v_size v - i - 1) v in fresh (from_val e t v (dflt t)))
      (fun i l y => y :: l) _ (rev vs) 0).
    + cbn [seq_read]. destruct (scan (get e t) (rev vs)) as [ys o]. cbn [fst snd]. rewrite upds_front, app_nil_r. reflexivity.
    + rewrite rev_length. assumption.
    + intros j a Hj. apply nth_rev in Hj. destruct Hj as [Lj Hj]. rewrite N.add_0_l, Sz. unfold len.
      replace (N.of_nat (length vs) - N.of_nat j - 1) with (N.of_nat (length vs - j - 1)) by lia.
      rewrite (items_at v vs _ a I Hj). split; [lia|reflexivity].
    + rewrite rev_length. assumption.
Qed.

Lemma from_seq_kind : forall k t v l, no_seq_items v ->
  from_val e (TySeq k t) v (CSeq l) =
  (CSeq (match k with KVector | KDeque => resize (dflt t) (N.to_nat (v_size v)) l | _ => [] end), Throw not_array).
Proof.
  intros k t v l N0. pose proof (no_items_size v N0) as P.
  destruct k; cbn [from_val]; erewrite loop_stop; try reflexivity; try lia; rewrite no_items_at by assumption; reflexivity.
Qed.

Lemma from_array : forall n t v vs l, seq_items v vs -> length l = n ->
  from_val e (TyArray n t) v (CSeq l) =
  let '(ys, o) := scan (get e t) (firstn n vs) in (CSeq (ys ++ skipn (length ys) l), o).
Proof.
  intros n t v vs l I Ln. pose proof (items_size v vs I) as Sz. cbn [from_val].
  rewrite (loop_scan value cval (list cval) (get e t) _ (fun i l y => set_nth (N.to_nat i) y l) _ (firstn n vs) 0).
  - pose proof (scan_len _ _ (get e t) (firstn n vs)) as SL. rewrite firstn_length in SL.
    destruct (scan (get e t) (firstn n vs)) as [ys o]. cbn [fst snd] in *. rewrite upds_set0 by lia. reflexivity.
  - rewrite firstn_length. lia.
  - intros j a Hj. assert (Lj : (j < length (firstn n vs))%nat) by (apply nth_error_Some; congruence). rewrite firstn_length in Lj.
    assert (Hj' : nth_error vs j = Some a).
    { rewrite <- (firstn_skipn n vs). rewrite nth_error_app1 by (rewrite firstn_length; lia). assumption. }
    rewrite N.add_0_l, (items_at v vs j a I Hj'), Sz. unfold len. split; [lia|reflexivity].
  - rewrite firstn_length, Sz. unfold len. lia.
Qed.

Lemma from_array_kind : forall n t v l, no_seq_items v -> n <> O -> from_val e (TyArray n t) v (CSeq l) = (CSeq l, Throw not_array).
Proof.
  intros n t v l N0 Nn. pose proof (no_items_size v N0) as P. cbn [from_val].
  erewrite loop_stop; try reflexivity; [lia|rewrite no_items_at by assumption; reflexivity].
Qed.
Lemma from_array0 : forall t v l, from_val e (TyArray 0 t) v (CSeq l) = (CSeq l, Ret tt).
Proof. intros t v l. cbn [from_val]. rewrite loop_none by lia. reflexivity. Qed.

(** maps *)
Definition pair_get (t : cty) (q : str * value) : outcome (str * cval) := let* y := get e t (snd q) in Ret (fst q, y).

Lemma from_map : forall h t o m, ordered (VObj o) ->
  from_val e (TyMap h t) (VObj o) (CMap m) = (CMap (emplaces (fst (scan (pair_get t) o)) m), snd (scan (pair_get t) o)).
Proof.
  intros h t o m Od. cbn [from_val].
  destruct (begin_pos (fun _ => VObj o) 0) as (it & -> & At).
  rewrite (each_scan (VObj o) (str * value) (str * cval) (list (str * cval)) (pair_get t) _ (fun m p => obj_emplace (fst p) (snd p) m) o 0 it).
  - reflexivity.
  - assumption.
  - reflexivity.
  - cbn [v_size]. unfold len. lia.
  - intros j [k w] jt Hj Aj.
    destruct (read_pos (fun _ => VObj o) 0 j jt (map (fun p => (Some (fst p), snd p)) o) (Some k) w Od Aj) as [R [K _]].
    + constructor.
    + rewrite nth_error_map, Hj. reflexivity.
    + cbn beta in R, K. rewrite R, K. cbn [bind]. rewrite get_fresh. unfold pair_get. cbn [fst snd].
      destruct (e_key1 e); destruct (get e t w); reflexivity.
Qed.
Lemma from_map_none : forall h t v m, seq_items v [] -> from_val e (TyMap h t) v (CMap m) = (CMap m, Ret tt).
Proof.
  intros h t v m I. pose proof (items_size v [] I) as Sz. change (len (@nil value)) with 0 in Sz. cbn [from_val].
  destruct (begin_pos (fun _ => v) 0) as (it & -> & At).
  rewrite (each_scan v unit (str * cval) (list (str * cval)) (fun _ => UB) _ (fun m p => obj_emplace (fst p) (snd p) m) [] 0 it).
  - reflexivity.
  - assumption.
  - rewrite Sz. reflexivity.
  - cbn [length]. lia.
  - intros j a jt Hj. destruct j; discriminate.
Qed.
Lemma from_map_kind : forall h t v m, ordered v -> type_of v <> TObject -> ~ seq_items v [] ->
  exists w es, elements v ((None, w) :: es) /\
    (from_val e (TyMap h t) v (CMap m) = (CMap m, Throw no_key) \/
     (from_val e (TyMap h t) v (CMap m) = (CMap m, void (get e t w)) /\ forall y, get e t w <> Ret y)).
Proof.
  intros h t v m Od Ty Ni.
  assert (El : exists w es, elements v ((None, w) :: es)).
  { destruct v as [|z|f|s|l|o|b]; try (eexists; eexists; constructor; fail).
    - destruct Ni. constructor.
    - destruct l as [|x l]; [destruct Ni; constructor|]. exists x, (map (fun x => (None, x)) l). apply (es_arr (x :: l)).
    - destruct Ty. reflexivity. }
  destruct El as (w & es & El). exists w, es. split; [assumption|].
  assert (Sz : 0 < v_size v) by (rewrite <- (elements_size _ _ El); cbn [length]; lia).
  cbn [from_val]. destruct (begin_pos (fun _ => v) 0) as (it & -> & At).
  destruct (read_pos (fun _ => v) 0 0 it ((None, w) :: es) None w Od At El eq_refl) as [R [K _]].
  destruct (N.to_nat (v_size v)) as [|n] eqn:En; [lia|]. cbn [each].
  destruct (end_pos (fun _ => v) 0) as (en & -> & Pe). cbn [bind]. cbn beta in Pe. rewrite En in Pe.
  rewrite (eq_pos (fun _ => v) 0 0 (S n) it en At Pe) by (intro T; destruct v; try discriminate; cbn in En; discriminate).
  cbn [Nat.eqb]. rewrite R, K. cbn [bind]. rewrite get_fresh.
  destruct (e_key1 e).
  - left. reflexivity.
  - destruct (get e t w) as [y|er'| | |] eqn:G; cbn [bind assign void seq_]; [left; reflexivity|right..]; (split; [reflexivity|discriminate]).
Qed.

Lemma value_null_dec : forall v, v = VNull \/ v <> VNull.
Proof. intros []; (left; reflexivity) || (right; discriminate). Qed.

(** the model reads as specified *)
Definition fwd (t : cty) : Prop := forall v x, ordered v -> typed t x ->
  (forall y, from_val e t v x = (y, Ret tt) -> reads t v x y) /\
  (forall y er, from_val e t v x = (y, Throw er) -> breaks t v x y er).

Lemma Forall2_in : forall A B (R Q : A -> B -> Prop) l m, Forall2 R l m -> (forall a b, In a l -> R a b -> Q a b) -> Forall2 Q l m.
Proof.
  intros A B R Q l m F. induction F as [|a b l m H F IH]; intro I; constructor.
  - apply I; [left; reflexivity|assumption].
  - apply IH. intros a' b' Ha. apply I. right. assumption.
Qed.
Lemma Forall2_len : forall A B (R : A -> B -> Prop) l m, Forall2 R l m -> length l = length m.
Proof. intros A B R l m F. induction F; cbn [length]; lia. Qed.
Lemma Forall2_rev' : forall A B (R : A -> B -> Prop) l m, Forall2 R l m -> Forall2 R (rev l) (rev m).
Proof. intros A B R l m F. induction F as [|a b l m H F IH]; [constructor|]. cbn [rev]. apply Forall2_app; [assumption|]. repeat constructor. assumption. Qed.

Section Fwd.
Variable t : cty.
Hypothesis W : wf_ty t.
Hypothesis R : fwd t.

Lemma fwd_get : forall v, ordered v ->
  (forall y, get e t v = Ret y -> reads t v (dflt t) y) /\
  (forall er, get e t v = Throw er -> exists y, breaks t v (dflt t) y er).
Proof.
  intros v O. destruct (R v (dflt t) O (dflt_typed t W)) as (R1 & R2). split.
  - intros y H. apply R1, get_ret, H.
  - intros er H. apply get_throw in H. destruct H as [y H]. eauto.
Qed.
Lemma fwd_all : forall vs ys, (forall x, In x vs -> ordered x) -> Forall2 (fun v y => get e t v = Ret y) vs ys ->
  Forall2 (fun v y => reads t v (dflt t) y) vs ys.
Proof. intros vs ys O F. eapply Forall2_in; [exact F|]. intros a b Ha H. apply (fwd_get a (O a Ha)). exact H. Qed.
Lemma fwd_stop : forall vs ys er, (forall x, In x vs -> ordered x) -> scan (get e t) vs = (ys, Throw er) ->
  exists vs1 w vs2 y, vs = vs1 ++ w :: vs2 /\ Forall2 (fun v y => reads t v (dflt t) y) vs1 ys /\ breaks t w (dflt t) y er.
Proof.
  intros vs ys er O H. apply scan_stop in H. destruct H as (vs1 & w & vs2 & -> & F & G).
  destruct (fwd_get w) as (_ & G2); [apply O, in_or_app; right; left; reflexivity|].
  destruct (G2 er G) as (y & B). exists vs1, w, vs2, y. repeat split; try assumption.
  apply fwd_all; [|assumption]. intros x Hx. apply O, in_or_app. left. assumption.
Qed.
Lemma cmp_forall : forall vs ys, Forall2 (fun a b => get_cmp t a = Ret b) vs ys <-> Forall2 (fun a b => get e t a = Ret b) vs ys /\ Forall (fun y => ceqb y y = true) ys.
Proof.
  intros vs ys. split.
  - intro F. induction F as [|a b l m H F IH]; [split; constructor|]. apply get_cmp_ret in H. destruct IH. split; constructor; tauto.
  - intros [F C]. induction F as [|a b l m H F IH]; constructor; inversion C; subst; [apply get_cmp_ret; tauto|auto].
Qed.
Lemma fwd_stop_cmp : forall vs ys er, (forall x, In x vs -> ordered x) -> scan (get_cmp t) vs = (ys, Throw er) ->
  exists vs1 w vs2 y, vs = vs1 ++ w :: vs2 /\ Forall2 (fun v y => reads t v (dflt t) y) vs1 ys /\
    Forall (fun y => ceqb y y = true) ys /\ breaks t w (dflt t) y er.
Proof.
  intros vs ys er O H. apply scan_stop in H. destruct H as (vs1 & w & vs2 & -> & F & G). apply cmp_forall in F. destruct F as [F C].
  apply get_cmp_throw in G. destruct (fwd_stop (vs1 ++ w :: vs2) ys er O) as (a & b & c & y & E & F' & Y).
  { apply scan_stop. exists vs1, w, vs2. auto. }
  exists a, b, c, y. auto.
Qed.
Lemma pair_ret : forall q p, pair_get t q = Ret p <-> fst p = fst q /\ get e t (snd q) = Ret (snd p).
Proof.
  intros [k w] [k' y]. unfold pair_get. cbn [fst snd]. destruct (get e t w) as [z|er| | |]; cbn [bind]; split; intro H; try discriminate; try (destruct H; discriminate).
  - injection H as <- <-. auto.
  - destruct H as [-> H]. congruence.
Qed.
Lemma pair_throw : forall q er, pair_get t q = Throw er <-> get e t (snd q) = Throw er.
Proof. intros [k w] er. unfold pair_get. cbn [fst snd]. destruct (get e t w) as [z|er'| | |]; cbn [bind]; split; congruence. Qed.
Lemma fwd_pairs : forall o ps, (forall k x, In (k, x) o -> ordered x) -> Forall2 (fun q p => pair_get t q = Ret p) o ps ->
  Forall2 (fun q p => fst p = fst q /\ reads t (snd q) (dflt t) (snd p)) o ps.
Proof.
  intros o ps O F. eapply Forall2_in; [exact F|]. intros [k a] b Ha H. apply pair_ret in H. destruct H as [H1 H2].
  split; [assumption|]. apply (fwd_get a (O k a Ha)). exact H2.
Qed.
End Fwd.

Lemma vec_all : forall k (ys l : list cval) (vs : list value) t, (k = KVector \/ k = KDeque) -> length ys = length vs ->
  ys ++ skipn (length ys) (resize (dflt t) (length vs) l) = ys.
Proof. intros k ys l vs t _ L. rewrite skipn_all2, app_nil_r by (rewrite resize_length; lia). reflexivity. Qed.

Lemma fwd_seq : forall k t, wf_ty t -> fwd t -> fwd (TySeq k t).
Proof.
  intros k t W R v x O T. inversion T as [| | | | | | | | | | |k' t' l Tl Ts| |]; subst.
  destruct (items_dec v) as [[vs I]|N0].
  - pose proof (items_ordered v vs I O) as Ov. rewrite (from_seq k t v vs l I).
    assert (V : k = KVector \/ k = KDeque ->
      (forall y, (CSeq (fst (seq_read k t vs l)), snd (seq_read k t vs l)) = (y, Ret tt) -> reads (TySeq k t) v (CSeq l) y) /\
      (forall y er, (CSeq (fst (seq_read k t vs l)), snd (seq_read k t vs l)) = (y, Throw er) -> breaks (TySeq k t) v (CSeq l) y er)).
    { intro K. assert (Es : seq_read k t vs l = let '(ys, o) := scan (get e t) vs in (ys ++ skipn (length ys) (resize (dflt t) (length vs) l), o))
        by (destruct K as [->| ->]; reflexivity).
      rewrite Es. destruct (scan (get e t) vs) as [ys o] eqn:Sc. cbn [fst snd]. split.
      - intros y H. injection H as <- ->. apply scan_ret in Sc. pose proof (Forall2_len _ _ _ _ _ Sc) as Ln.
        rewrite (vec_all k) by (assumption || lia). eapply rd_seq; try eassumption; try (destruct K as [->| ->]; discriminate).
        apply fwd_all; assumption.
      - intros y er H. injection H as <- ->. destruct (fwd_stop t W R vs ys er Ov Sc) as (a & w & b & y' & -> & F & B).
        eapply br_vec; eassumption. }
    assert (Z : k = KSet \/ k = KUSet ->
      (forall y, (CSeq (fst (seq_read k t vs l)), snd (seq_read k t vs l)) = (y, Ret tt) -> reads (TySeq k t) v (CSeq l) y) /\
      (forall y er, (CSeq (fst (seq_read k t vs l)), snd (seq_read k t vs l)) = (y, Throw er) -> breaks (TySeq k t) v (CSeq l) y er)).
    { intro K. assert (Es : seq_read k t vs l = let '(ys, o) := scan (get_cmp t) vs in (insert_all ys [], o))
        by (destruct K as [->| ->]; reflexivity).
      rewrite Es. destruct (scan (get_cmp t) vs) as [ys o] eqn:Sc. cbn [fst snd]. split.
      - intros y H. injection H as <- ->. apply scan_ret, cmp_forall in Sc. destruct Sc as [F C].
        eapply rd_set; try eassumption. apply fwd_all; assumption.
      - intros y er H. injection H as <- ->. destruct (fwd_stop_cmp t W R vs ys er Ov Sc) as (a & w & b & y' & -> & F & C & B).
        eapply br_set; eassumption. }
    destruct k; auto; clear V Z; cbn [seq_read].
    + destruct (scan (get e t) vs) as [ys o] eqn:Sc. cbn [fst snd]. split.
      * intros y H. injection H as <- ->. apply scan_ret in Sc. eapply rd_seq; try eassumption; try discriminate. apply fwd_all; assumption.
      * intros y er H. injection H as <- ->. destruct (fwd_stop t W R vs ys er Ov Sc) as (a & w & b & y' & -> & F & B).
        eapply br_list; eassumption.
    + assert (Or : forall x, In x (rev vs) -> ordered x) by (intros x Hx; apply Ov, in_rev, Hx).
      destruct (scan (get e t) (rev vs)) as [ys o] eqn:Sc. cbn [fst snd]. split.
      * intros y H. injection H as <- ->. apply scan_ret in Sc. eapply rd_seq; try eassumption; try discriminate.
        apply (fwd_all t W R) in Sc; [|assumption]. apply Forall2_rev' in Sc. rewrite rev_involutive in Sc. assumption.
      * intros y er H. injection H as <- ->. destruct (fwd_stop t W R (rev vs) ys er Or Sc) as (a & w & b & y' & E & F & B).
        apply (f_equal (@rev value)) in E. rewrite rev_involutive, rev_app_distr in E. cbn [rev] in E.
        rewrite <- app_assoc in E. cbn [app] in E. subst vs. apply Forall2_rev' in F. eapply br_forward; eassumption.
  - rewrite (from_seq_kind k t v l N0). split; [intros; discriminate|].
    intros y er H. injection H as <- <-.
    destruct k; [apply br_vec_kind; auto|apply br_vec_kind; auto|apply br_list_kind; auto; discriminate..].
Qed.

Lemma fwd_array : forall n t, wf_ty t -> fwd t -> fwd (TyArray n t).
Proof.
  intros n t W R v x O T. inversion T as [| | | | | | | | | |n' t' l Ln Tl| | |]; subst n' t' x.
  destruct (items_dec v) as [[vs I]|N0].
  - pose proof (items_ordered v vs I O) as Ov. rewrite (from_array n t v vs l I Ln).
    assert (Of : forall x, In x (firstn n vs) -> ordered x).
    { intros x Hx. apply Ov. rewrite <- (firstn_skipn n vs). apply in_or_app. left. assumption. }
    destruct (scan (get e t) (firstn n vs)) as [ys o] eqn:Sc. split.
    + intros y H. injection H as <- ->. apply scan_ret in Sc. eapply rd_array; [eassumption|]. apply fwd_all; assumption.
    + intros y er H. injection H as <- ->. destruct (fwd_stop t W R (firstn n vs) ys er Of Sc) as (a & w & b & y' & E & F & B).
      apply (br_array n t v a w (b ++ skipn n vs) ys l y' er); try assumption.
      * rewrite app_comm_cons, app_assoc, <- E, firstn_skipn. assumption.
      * pose proof (f_equal (@length value) E) as E'. rewrite firstn_length, app_length in E'. cbn [length] in E'. lia.
  - destruct n as [|n].
    + rewrite from_array0. split; [|intros; discriminate]. intros y H. injection H as <-. apply rd_array0.
    + rewrite (from_array_kind (S n) t v l N0) by discriminate. split; [intros; discriminate|].
      intros y er H. injection H as <- <-. apply br_array_kind; [assumption|discriminate].
Qed.

Lemma obj_or_not : forall v, (exists o, v = VObj o) \/ type_of v <> TObject.
Proof. intros []; try (right; discriminate). left. eauto. Qed.

Lemma elem_ordered : forall v es, elements v es -> ordered v -> forall k x, In (k, x) es -> ordered x.
Proof.
  intros v es El O k x I. destruct El; cbn [In] in I; try contradiction; try (destruct I as [I|[]]; injection I as _ <-; assumption).
  - apply in_map_iff in I. destruct I as (y & E & I). injection E as _ <-. inversion O; auto.
  - apply in_map_iff in I. destruct I as ([j y] & E & I). injection E as _ <-. inversion O; subst. eauto.
Qed.

Lemma fwd_map : forall h t, wf_ty t -> fwd t -> fwd (TyMap h t).
Proof.
  intros h t W R v x O T. inversion T as [| | | | | | | | | | | |h' t' m Tm Ts|]; subst. apply ss_sorted in Ts.
  destruct (obj_or_not v) as [[o ->]|Ty].
  - assert (Oo : forall k x, In (k, x) o -> ordered x) by (inversion O; assumption).
    rewrite (from_map h t o m O). destruct (scan (pair_get t) o) as [ps out] eqn:Sc. cbn [fst snd]. split.
    + intros y H. injection H as <- ->. apply scan_ret in Sc. eapply rd_map; [left; reflexivity|apply fwd_pairs; eassumption|].
      apply emplaces_iff; [assumption|reflexivity].
    + intros y er H. injection H as <- ->. apply scan_stop in Sc. destruct Sc as (o1 & [k w] & o2 & -> & F & G).
      apply pair_throw in G. cbn [snd] in G.
      destruct (fwd_get t W R w) as (_ & G2); [apply (Oo k), in_or_app; right; left; reflexivity|].
      destruct (G2 er G) as (y & B). 
      eapply br_map; [|eassumption|apply emplaces_iff; [assumption|reflexivity]].
      apply fwd_pairs; try assumption. intros k' x Hx. apply (Oo k'), in_or_app. left. assumption.
  - destruct (items_dec v) as [[vs I]|N0]; [destruct vs as [|v1 vs]|].
    + rewrite (from_map_none h t v m I). split; [|intros; discriminate]. intros y H. injection H as <-.
      eapply rd_map; [right; auto|constructor|]. apply emplaces_iff; [assumption|reflexivity].
    + assert (Ni : ~ seq_items v []) by (intro X; pose proof (items_det _ _ _ I X); discriminate).
      destruct (from_map_kind h t v m O Ty Ni) as (w & es & El & [E|[E G]]); rewrite E.
      * split; [intros; discriminate|]. intros y er H. injection H as <- <-. apply br_map_kind; assumption.
      * destruct (get e t w) as [y'|er'| | |] eqn:Gw; cbn [void bind]; split; try (intros; discriminate).
        { destruct (G y'). reflexivity. }
        intros y er H. injection H as <- <-.
        destruct (fwd_get t W R w) as (_ & G2).
        { apply (elem_ordered v _ El O None). left. reflexivity. }
        destruct (G2 er' Gw) as (y1 & B). eapply br_map_first; eassumption.
    + assert (Ni : ~ seq_items v []) by apply N0.
      destruct (from_map_kind h t v m O Ty Ni) as (w & es & El & [E|[E G]]); rewrite E.
      * split; [intros; discriminate|]. intros y er H. injection H as <- <-. apply br_map_kind; assumption.
      * destruct (get e t w) as [y'|er'| | |] eqn:Gw; cbn [void bind]; split; try (intros; discriminate).
        { destruct (G y'). reflexivity. }
        intros y er H. injection H as <- <-.
        destruct (fwd_get t W R w) as (_ & G2).
        { apply (elem_ordered v _ El O None). left. reflexivity. }
        destruct (G2 er' Gw) as (y1 & B). eapply br_map_first; eassumption.
Qed.

(** structs *)
Definition fields_of := fix fields (c : value) (fs : list (str * bool * cty)) (l : list cval) {struct fs} : list cval * outcome unit :=
  match fs, l with
  | (n, req, t') :: fs', y :: l' =>
      if req || (0 <? v_count n c) then
        match at_key n c with
        | Ret v =>
            match from_val e t' v y with
            | (y', Ret _) | (y', Throw _) => let '(r, o) := fields c fs' l' in (y' :: r, o)
            | (y', o) => (y' :: l', o)
            end
        | o => (l, void o)
        end
      else let '(r, o) := fields c fs' l' in (y :: r, o)
  | _, _ => (l, Ret tt)
  end.
Lemma from_struct : forall fs v l, from_val e (TyStruct fs) v (CRec l) = (CRec (fst (fields_of v fs l)), snd (fields_of v fs l)).
Proof.
  intros fs v l. assert (E : forall l, (fix fields (fs : list (str * bool * cty)) (l : list cval) : list cval * outcome unit :=
               match fs, l with
               | (n, req, t') :: fs', y :: l' =>
                   if req || (0 <? v_count n v) then
                     match at_key n v with
                     | Ret w =>
                         match from_val e t' w y with
                         | (y', Ret _) | (y', Throw _) => let '(r, o) := fields fs' l' in (y' :: r, o)
                         | (y', o) => (y' :: l', o)
                         end
                     | o => (l, void o)
                     end
                   else let '(r, o) := fields fs' l' in (y :: r, o)
               | _, _ => (l, Ret tt)
               end) fs l = fields_of v fs l).
  { clear l. induction fs as [|[[n req] t'] fs IH]; intros [|y l]; try reflexivity. cbn [fields_of]. rewrite IH. reflexivity. }
  cbn [from_val]. rewrite E. destruct (fields_of v fs l). reflexivity.
Qed.

Lemma at_key_obj : forall n o w, obj_find n o = Some w -> at_key n (VObj o) = Ret w.
Proof. intros n o w H. unfold at_key, via_at_key, in_member. rewrite H. reflexivity. Qed.
Lemma at_key_missing : forall n o, obj_find n o = None -> at_key n (VObj o) = Throw no_member.
Proof. intros n o H. unfold at_key, via_at_key. rewrite H. reflexivity. Qed.
Lemma at_key_kind : forall n v, type_of v <> TObject -> at_key n v = Throw not_object.
Proof. intros n v H. destruct v; try reflexivity. destruct H. reflexivity. Qed.
Lemma count_kind : forall n v, type_of v <> TObject -> v_count n v = 0.
Proof. intros n v H. destruct v; try reflexivity. destruct H. reflexivity. Qed.

Lemma fwd_fields : forall fs, Forall (fun f => wf_ty (snd f)) fs -> Forall (fun f => fwd (snd f)) fs ->
  forall v l, ordered v -> Forall2 (fun f x => typed (snd f) x) fs l ->
  (forall l', fields_of v fs l = (l', Ret tt) -> read_fields v fs l l') /\
  (forall l' er, fields_of v fs l = (l', Throw er) -> break_fields v fs l l' er).
Proof.
  induction fs as [|[[n req] t] fs IH]; intros Wf Rf v l O T; inversion T as [|? x ? l0 Tx Tl]; subst.
  - split; intros; cbn [fields_of] in *; [|discriminate]. injection H as <-. constructor.
  - inversion Wf as [|? ? Wt Wfs]; inversion Rf as [|? ? Rt Rfs]; subst. cbn [snd] in *.
    destruct (IH Wfs Rfs v l0 O Tl) as [I1 I2]. clear IH.
    assert (Skip : (forall o w, v = VObj o -> ~ In (n, w) o) -> req = false ->
      (forall l', (let '(r, o) := fields_of v fs l0 in (x :: r, o)) = (l', Ret tt) -> read_fields v ((n, req, t) :: fs) (x :: l0) l') /\
      (forall l' er, (let '(r, o) := fields_of v fs l0 in (x :: r, o)) = (l', Throw er) ->
        break_fields v ((n, req, t) :: fs) (x :: l0) l' er)).
    { intros Ab ->. destruct (fields_of v fs l0) as [r o] eqn:Er. split.
      - intros l' H. injection H as <- ->. apply rf_absent; auto.
      - intros l' er H. injection H as <- ->. pose proof (I2 r er eq_refl) as B. apply bf_absent; auto. }
    cbn [fields_of]. destruct (obj_or_not v) as [[o ->]|Ty].
    + destruct (obj_find n o) as [w|] eqn:Fn.
      * assert (Cn : req || (0 <? v_count n (VObj o)) = true) by (cbn [v_count]; rewrite Fn; destruct req; reflexivity).
        rewrite Cn, (at_key_obj _ _ _ Fn). clear Cn Skip.
        pose proof (ordered_find _ _ _ O Fn) as Ow. apply find_in' in Fn.
        destruct (Rt w x Ow Tx) as [R1 R2].
        destruct (from_val e t w x) as [x' [[]|er'| | |]] eqn:Ex; try (split; intros; discriminate).
        -- specialize (R1 x' eq_refl). destruct (fields_of (VObj o) fs l0) as [r out] eqn:Er. split.
           ++ intros l' H. injection H as <- ->. eapply rf_read; eauto.
           ++ intros l' er H. injection H as <- ->. pose proof (I2 r er eq_refl) as B. eapply bf_read; eauto.
        -- pose proof (R2 x' er' eq_refl) as B'. destruct (fields_of (VObj o) fs l0) as [r out] eqn:Er. split.
           ++ intros l' H. injection H as <- ->. eapply rf_left; eauto.
           ++ intros l' er H. injection H as <- ->. pose proof (I2 r er eq_refl) as B. eapply bf_left; eauto.
      * assert (Ab : forall w, ~ In (n, w) o) by (apply find_no; assumption).
        destruct req.
        -- cbn [orb]. rewrite (at_key_missing _ _ Fn). cbn [void bind]. split; [intros; discriminate|].
           intros l' er H. injection H as <- <-. apply bf_missing. assumption.
        -- cbn [orb v_count]. rewrite Fn. cbn [N.ltb N.compare]. apply Skip; [|reflexivity]. intros o' w E. injection E as <-. apply Ab.
    + destruct req.
      * cbn [orb]. rewrite (at_key_kind n v Ty). cbn [void bind]. split; [intros; discriminate|].
        intros l' er H. injection H as <- <-. apply bf_kind. assumption.
      * cbn [orb]. rewrite (count_kind n v Ty). cbn [N.ltb N.compare]. apply Skip; [|reflexivity]. intros o' w ->. destruct Ty. reflexivity.
Qed.

Theorem fwd_ok : forall t, wf_ty t -> fwd t.
Proof.
  induction t as [|w sg| | | | |raw|t IH|n t IH|k t IH|h t IH|fs IH] using cty_deep; intro W.
  - intros v x O T. split; [intros y H|intros y er H]; destruct v; cbn [from_val] in H; try discriminate; try (injection H as <- <-); try (injection H as <-);
      try (constructor; fail); try (econstructor; discriminate).
  - intros v x O T. split; [intros y H|intros y er H]; destruct v; cbn [from_val] in H; try discriminate; try (injection H as <- <-);
      try (econstructor; discriminate).
    injection H as <-. constructor. apply stored_wrap; [eapply wf_width; eassumption|reflexivity].
  - intros v x O T. split; [intros y H|intros y er H]; destruct v; cbn [from_val] in H; try discriminate; try (injection H as <- <-); try (injection H as <-);
      try (constructor; fail); try (econstructor; discriminate).
  - intros v x O T. split; [intros y H|intros y er H]; destruct v; cbn [from_val] in H; try discriminate; try (injection H as <- <-); try (injection H as <-);
      try (constructor; fail); try (econstructor; discriminate).
  - intros v x O T. split; [intros y H|intros y er H]; destruct v; cbn [from_val] in H; try discriminate; try (injection H as <- <-); try (injection H as <-);
      try (constructor; fail); try (econstructor; discriminate).
  - intros v x O T. split; [intros y H|intros y er H]; cbn [from_val] in H; [|discriminate]. injection H as <-. constructor.
  - intros v x O T. split; [intros y H|intros y er H]; destruct raw, v; cbn [from_val dflt] in H; try discriminate; try (injection H as <- <-); try (injection H as <-);
      try (constructor; discriminate); try (constructor; fail).
  - inversion W; subst. intros v x O T. destruct (value_null_dec v) as [->|Nv].
    + split; intros; cbn [from_val] in *; [|discriminate]. injection H as <-. constructor.
    + assert (E : from_val e (TyPtr t) v x = assign x (get e t v) (fun y => CPtr (Some y))) by (destruct v; try reflexivity; destruct Nv; reflexivity).
      rewrite E. destruct (fwd_get t H0 (IH H0) v O) as [G1 G2].
      destruct (get e t v) as [y|er| | |]; cbn [assign void bind]; split; try (intros; discriminate).
      * intros z H. injection H as <-. constructor; auto.
      * intros z er' H. injection H as <- <-. destruct (G2 er eq_refl) as (y & B). eapply br_ptr; eauto.
  - inversion W; subst. apply fwd_array; auto.
  - inversion W; subst. apply fwd_seq; auto.
  - inversion W; subst. apply fwd_map; auto.
  - inversion W as [| | | | | | | | | | |fs' Nd Wf]; subst. intros v x O T. inversion T; subst.
    destruct (fwd_fields fs Wf) with (v := v) (l := l) as [F1 F2]; try assumption.
    { clear - IH Wf. induction IH; constructor; inversion Wf; subst; auto. }
    rewrite from_struct. destruct (fields_of v fs l) as [r o] eqn:Er. cbn [fst snd]. split.
    + intros y H. injection H as <- ->. constructor. auto.
    + intros y er H. injection H as <- ->. pose proof (F2 r er eq_refl) as B. constructor. assumption.
Qed.
End Env.
