(** Facts about C++ objects: induction, comparison, sets, and casts. *)
From Coq Require Import Floats.SpecFloat Sorted Permutation Lia ZifyBool ZifyNat ZifyN.
From Verif Require Import Base Value Compare SpecGrammar SpecText ObjFacts SpecCompare FloatFacts CompareProofs Cpp SpecConv.

(** ** Induction *)
Section TyInd.
Variable P : cty -> Prop.
Hypothesis Hbool : P TyBool.
Hypothesis Hint : forall w sg, P (TyInt w sg).
Hypothesis Hdouble : P TyDouble.
Hypothesis Hfloat : P TyFloat.
Hypothesis Hstring : P TyString.
Hypothesis Hjson : P TyJson.
Hypothesis Hraw : forall raw, P (TyRaw raw).
Hypothesis Hptr : forall t, P t -> P (TyPtr t).
Hypothesis Harray : forall n t, P t -> P (TyArray n t).
Hypothesis Hseq : forall k t, P t -> P (TySeq k t).
Hypothesis Hmap : forall h t, P t -> P (TyMap h t).
Hypothesis Hstruct : forall fs, Forall (fun f => P (snd f)) fs -> P (TyStruct fs).
Fixpoint cty_deep (t : cty) : P t.
Proof.
  destruct t as [|w sg| | | | |raw|t|n t|k t|h t|fs].
  - apply Hbool.
  - apply Hint.
  - apply Hdouble.
  - apply Hfloat.
  - apply Hstring.
  - apply Hjson.
  - apply Hraw.
  - apply Hptr, cty_deep.
  - apply Harray, cty_deep.
  - apply Hseq, cty_deep.
  - apply Hmap, cty_deep.
  - apply Hstruct. induction fs as [|[f t] fs IH]; constructor; [apply cty_deep|exact IH].
Qed.
End TyInd.

Section CvInd.
Variable P : cval -> Prop.
Hypothesis Hbool : forall b, P (CBool b).
Hypothesis Hint : forall z, P (CInt z).
Hypothesis Hdbl : forall f, P (CDbl f).
Hypothesis Hflt : forall f, P (CFlt f).
Hypothesis Hstr : forall s, P (CStr s).
Hypothesis Hjson : forall v, P (CJson v).
Hypothesis Hnull : P (CPtr None).
Hypothesis Hptr : forall x, P x -> P (CPtr (Some x)).
Hypothesis Hseq : forall l, Forall P l -> P (CSeq l).
Hypothesis Hmap : forall m, Forall (fun p => P (snd p)) m -> P (CMap m).
Hypothesis Hrec : forall l, Forall P l -> P (CRec l).
Fixpoint cval_deep (x : cval) : P x.
Proof.
  destruct x as [b|z|f|f|s|v|[x|]|l|m|l].
  - apply Hbool.
  - apply Hint.
  - apply Hdbl.
  - apply Hflt.
  - apply Hstr.
  - apply Hjson.
  - apply Hptr, cval_deep.
  - apply Hnull.
  - apply Hseq. induction l as [|y l IH]; constructor; [apply cval_deep|exact IH].
  - apply Hmap. induction m as [|[k y] m IH]; constructor; [apply cval_deep|exact IH].
  - apply Hrec. induction l as [|y l IH]; constructor; [apply cval_deep|exact IH].
Qed.
End CvInd.

(** ** The order *)
Lemma ccmp_swap : forall a b, ccmp b a = (snd (ccmp a b), fst (ccmp a b)).
Proof.
  induction a as [p|z|f|f|s|v| |x IH|l IH|m IH|l IH] using cval_deep; intros [q|z'|g|g|s'|v'|[y|]|l'|m'|l']; cbn [ccmp fst snd]; try reflexivity.
  - apply cmp_swap.
  - revert l'. induction IH as [|x l Hx _ IHl]; intros [|y l']; try reflexivity.
    rewrite (Hx y). specialize (IHl l'). destruct (ccmp x y) as [lt gt]. cbn [fst snd].
    rewrite IHl. match goal with |- context [snd ?p] => destruct p as [lt' gt'] end. reflexivity.
Qed.

Lemma cmp_not_both : forall a b, v_cmp a b <> (true, true).
Proof.
  assert (P : forall lt gt lt' gt' : bool, (lt, gt) <> (true, true) -> (lt', gt') <> (true, true) ->
    ((if lt then true else if gt then false else lt', if gt then true else if lt then false else gt') : bool * bool) <> (true, true)).
  { intros [] [] [] []; intros; congruence. }
  induction a as [|z|f|s|b|l IH|m IH] using ValueProofs.value_deep; intros [|z'|g|s'|l'|m'|b']; cbn [v_cmp]; try discriminate.
  - intro E. injection E. intros. apply Z.ltb_lt in H, H0. lia.
  - intro E. injection E. intros. apply fltb_asym in H. congruence.
  - intro E. injection E. intros. apply fltb_asym in H. congruence.
  - intro E. injection E. intros. apply fltb_asym in H. congruence.
  - intro E. injection E as A B. apply str_ltb_iff in A, B. exact (key_lt_irrefl _ (key_lt_trans _ _ _ A B)).
  - destruct b, b'; discriminate.
  - revert l'. induction l as [|x l IHl]; intros [|y l']; try discriminate.
    pose proof (IH x (or_introl eq_refl) y) as Hx. specialize (IHl (fun z Hz => IH z (or_intror Hz)) l').
    destruct (v_cmp x y) as [lt gt]. match goal with |- context [let '(_, _) := ?p in _] => destruct p as [lt' gt'] end. apply P; assumption.
  - revert m'. induction m as [|[k x] m IHm]; intros [|[k' y] m']; try discriminate.
    pose proof (IH k x (or_introl eq_refl) y) as Hx. specialize (IHm (fun k z Hz => IH k z (or_intror Hz)) m').
    destruct (v_cmp x y) as [lt gt]. match goal with |- context [let '(_, _) := ?p in _] => destruct p as [lt' gt'] end.
    apply P; [|assumption]. destruct (str_ltb k k') eqn:A, (str_ltb k' k) eqn:B; try (cbn [orb andb negb]; congruence).
    apply str_ltb_iff in A, B. exfalso. exact (key_lt_irrefl _ (key_lt_trans _ _ _ A B)).
Qed.

Lemma ccmp_not_both : forall a b, ccmp a b <> (true, true).
Proof.
  induction a as [p|z|f|f|s|v| |x IH|l IH|m IH|l IH] using cval_deep; intros [q|z'|g|g|s'|v'|[y|]|l'|m'|l']; cbn [ccmp]; try discriminate.
  - destruct p, q; discriminate.
  - intro E. injection E as A B. lia.
  - intro E. injection E as A B. apply fltb_asym in A. congruence.
  - intro E. injection E as A B. apply fltb_asym in A. congruence.
  - intro E. injection E as A B. apply str_ltb_iff in A, B. exact (key_lt_irrefl _ (key_lt_trans _ _ _ A B)).
  - apply cmp_not_both.
  - revert l'. induction IH as [|x l Hx _ IHl]; intros [|y l']; try discriminate.
    specialize (Hx y). specialize (IHl l'). destruct (ccmp x y) as [lt gt].
    match goal with |- context [let '(_, _) := ?p in _] => destruct p as [lt' gt'] end.
    destruct lt, gt, lt', gt'; congruence.
Qed.

Lemma clt_asym : forall a b, clt a b = true -> clt b a = false.
Proof.
  intros a b H. unfold clt in *. rewrite ccmp_swap. cbn [fst]. pose proof (ccmp_not_both a b) as N.
  destruct (ccmp a b) as [lt gt]. cbn [fst snd] in *. destruct gt; [congruence|reflexivity].
Qed.
Lemma clt_snd : forall a b, snd (ccmp a b) = clt b a.
Proof. intros. unfold clt. rewrite (ccmp_swap a b). reflexivity. Qed.

Lemma clt_cons : forall x l y l', clt (CSeq (x :: l)) (CSeq (y :: l')) =
  if clt x y then true else if clt y x then false else clt (CSeq l) (CSeq l').
Proof.
  intros. unfold clt at 1 4. cbn [ccmp].
  match goal with |- fst (let '(_, _) := _ in let '(_, _) := ?p in _) = _ => destruct p as [lt' gt'] end.
  rewrite <- (clt_snd x y). unfold clt. destruct (ccmp x y) as [lt gt]. reflexivity.
Qed.

(** floating-point numbers other than NaN are ordered as triples *)
Definition frank (f : spec_float) : Z * Z * Z :=
  match f with
  | S754_zero _ => (0, 0, 0)%Z
  | S754_infinity s => (if s then -2 else 2, 0, 0)%Z
  | S754_nan => (0, 0, 0)%Z
  | S754_finite s m e => if s then (-1, - e, - Z.pos m)%Z else (1, e, Z.pos m)%Z
  end.
Definition lex3 (a b : Z * Z * Z) : Prop :=
  let '(x, y, z) := a in let '(x', y', z') := b in
  (x < x' \/ (x = x' /\ (y < y' \/ (y = y' /\ z < z'))))%Z.
Lemma fltb_rank : forall f g, f <> S754_nan -> g <> S754_nan -> (SFltb f g = true <-> lex3 (frank f) (frank g)).
Proof.
  intros f g Nf Ng. unfold SFltb. destruct f as [s|s| |s m e]; destruct g as [t|t| |t n d]; try congruence; clear Nf Ng;
    cbn [SFcompare frank];
    try (destruct s; try destruct t; cbn [lex3]; split; intro H; (discriminate H || lia || reflexivity));
    try (destruct t; cbn [lex3]; split; intro H; (discriminate H || lia || reflexivity)).
  change (Pos.compare_cont Eq m n) with (Pos.compare m n).
  destruct s, t; cbn [lex3]; try (split; intro H; (discriminate H || lia || reflexivity)).
  - destruct (Z.compare_spec e d); try (split; intro H'; (discriminate H' || lia || reflexivity)).
    destruct (Pos.compare_spec m n); cbn [CompOpp]; split; intro H'; (discriminate H' || lia || reflexivity).
  - destruct (Z.compare_spec e d); try (split; intro H'; (discriminate H' || lia || reflexivity)).
    destruct (Pos.compare_spec m n); split; intro H'; (discriminate H' || lia || reflexivity).
Qed.

Lemma fltb_negtrans : forall f g h, f <> S754_nan -> g <> S754_nan -> h <> S754_nan ->
  SFltb f g = false -> SFltb g h = false -> SFltb f h = false.
Proof.
  intros f g h Nf Ng Nh A B. destruct (SFltb f h) eqn:C; [|reflexivity]. exfalso.
  apply (fltb_rank f h Nf Nh) in C.
  assert (A' : ~ lex3 (frank f) (frank g)) by (intro X; apply (fltb_rank f g Nf Ng) in X; congruence).
  assert (B' : ~ lex3 (frank g) (frank h)) by (intro X; apply (fltb_rank g h Ng Nh) in X; congruence).
  destruct (frank f) as [[a b] c], (frank g) as [[a' b'] c'], (frank h) as [[a'' b''] c'']. cbn [lex3] in *. lia.
Qed.

Lemma feqb_nan : forall f, SFeqb f f = true -> f <> S754_nan.
Proof. intros f H ->. discriminate H. Qed.

Lemma ceqb_seq : forall x l, ceqb (CSeq (x :: l)) (CSeq (x :: l)) = true -> ceqb x x = true /\ ceqb (CSeq l) (CSeq l) = true.
Proof. intros x l H. cbn [ceqb] in *. apply andb_prop in H. exact H. Qed.

Lemma clt_negtrans : forall t, ordered_ty t -> forall a b c, typed t a -> typed t b -> typed t c ->
  ceqb a a = true -> ceqb b b = true -> ceqb c c = true ->
  clt a b = false -> clt b c = false -> clt a c = false.
Proof.
  intros t O.
  assert (L : forall t, ordered_ty t ->
    (forall a b c, typed t a -> typed t b -> typed t c -> ceqb a a = true -> ceqb b b = true -> ceqb c c = true ->
       clt a b = false -> clt b c = false -> clt a c = false) ->
    forall a b c, Forall (typed t) a -> Forall (typed t) b -> Forall (typed t) c ->
      ceqb (CSeq a) (CSeq a) = true -> ceqb (CSeq b) (CSeq b) = true -> ceqb (CSeq c) (CSeq c) = true ->
      clt (CSeq a) (CSeq b) = false -> clt (CSeq b) (CSeq c) = false -> clt (CSeq a) (CSeq c) = false).
  { clear. intros t _ N. induction a as [|x a IH]; intros [|y b] [|z c] Ta Tb Tc Ea Eb Ec A B; try reflexivity; try discriminate.
    rewrite clt_cons in A, B |- *. inversion Ta; inversion Tb; inversion Tc; subst.
    apply ceqb_seq in Ea, Eb, Ec. destruct Ea as [Ex Ea], Eb as [Ey Eb], Ec as [Ez Ec].
    destruct (clt x y) eqn:XY; [discriminate|]. destruct (clt y z) eqn:YZ; [discriminate|].
    rewrite (N x y z) by assumption.
    destruct (clt z x) eqn:ZX; [reflexivity|].
    destruct (clt y x) eqn:YX.
    { rewrite (N y z x) in YX; try assumption. discriminate. }
    destruct (clt z y) eqn:ZY.
    { rewrite (N z x y) in ZY; try assumption. discriminate. }
    eapply IH with (b := b); assumption. }
  induction O as [|w sg| | | |n t O IH|k t K O IH]; intros a b c Ta Tb Tc Ea Eb Ec A B;
    inversion Ta; inversion Tb; inversion Tc; subst; unfold clt in *; cbn [ccmp fst ceqb] in *.
  - destruct b0, b1, b2; cbn [negb andb] in *; congruence.
  - lia.
  - eapply fltb_negtrans with (g := f0); try apply feqb_nan; assumption.
  - eapply fltb_negtrans with (g := f0); try apply feqb_nan; assumption.
  - apply str_ltb_false. apply str_ltb_false in A, B. intro C.
    destruct (key_lt_trich s s0) as [X|[->|X]]; try contradiction.
    apply B. exact (key_lt_trans _ _ _ X C).
  - eapply L with (b := l0); eassumption.
  - eapply L with (b := l0); eassumption.
Qed.

Lemma clt_trans : forall t, ordered_ty t -> forall a b c, typed t a -> typed t b -> typed t c ->
  ceqb a a = true -> ceqb b b = true -> ceqb c c = true ->
  clt a b = true -> clt b c = true -> clt a c = true.
Proof.
  intros t O a b c Ta Tb Tc Ea Eb Ec A B. destruct (clt a c) eqn:C; [reflexivity|].
  rewrite (clt_negtrans t O a c b) in A; try assumption. apply clt_asym. assumption.
Qed.

Lemma hashed_ordered : forall t, hashed_ty t -> ordered_ty t.
Proof. destruct 1; constructor. Qed.
Lemma hashed_refl : forall t x, hashed_ty t -> typed t x -> ceqb x x = true.
Proof.
  intros t x H T. destruct H; inversion T; subst; cbn [ceqb]; [destruct b; reflexivity|apply Z.eqb_refl|apply str_eqb_refl].
Qed.
Lemma hashed_total : forall t a b, hashed_ty t -> typed t a -> typed t b -> clt a b = false -> clt b a = false -> a = b.
Proof.
  intros t a b H Ta Tb A B. destruct H; inversion Ta; inversion Tb; subst; unfold clt in *; cbn [ccmp fst] in *.
  - destruct b0, b1; cbn [negb andb] in *; congruence.
  - f_equal. lia.
  - f_equal. apply str_ltb_false in A, B. destruct (key_lt_trich s s0) as [X|[X|X]]; tauto.
Qed.

(** ** Sets *)
Definition before (x y : cval) : Prop := clt x y = true.
Definition insert_all (ys s : list cval) : list cval := fold_left (fun s y => set_insert y s) ys s.

Lemma insert_end : forall s x, Forall (fun y => before y x) s -> set_insert x s = s ++ [x].
Proof.
  induction 1 as [|y s H _ IH]; [reflexivity|]. cbn [set_insert app]. unfold before in H.
  rewrite (clt_asym _ _ H), H, IH. reflexivity.
Qed.

Lemma insert_sorted_all : forall ys s, StronglySorted before (s ++ ys) -> insert_all ys s = s ++ ys.
Proof.
  induction ys as [|y ys IH]; intros s H; [cbn; rewrite app_nil_r; reflexivity|].
  cbn [insert_all fold_left]. rewrite insert_end.
  - change (fold_left (fun s y => set_insert y s) ys (s ++ [y])) with (insert_all ys (s ++ [y])).
    rewrite IH; rewrite <- app_assoc; [reflexivity|exact H].
  - clear IH. induction s as [|z s IHs]; constructor.
    + apply StronglySorted_inv in H. destruct H as [_ F]. rewrite Forall_forall in F. apply F. apply in_or_app. right. left. reflexivity.
    + apply IHs. cbn [app] in H. apply StronglySorted_inv in H. tauto.
Qed.

Lemma in_insert : forall x s y, In y (set_insert x s) -> y = x \/ In y s.
Proof.
  induction s as [|z s IH]; intros y H; cbn [set_insert] in H.
  - destruct H as [<-|[]]. left. reflexivity.
  - destruct (clt x z); [destruct H as [<-|H]; auto|]. destruct (clt z x).
    + destruct H as [<-|H]; [right; left; reflexivity|]. destruct (IH y H); auto. right. right. assumption.
    + auto.
Qed.
Lemma in_insert_old : forall x s y, In y s -> In y (set_insert x s).
Proof.
  induction s as [|z s IH]; intros y []; cbn [set_insert].
  - subst. destruct (clt x y); [right; left; reflexivity|]. destruct (clt y x); left; reflexivity.
  - destruct (clt x z); [right; right; assumption|]. destruct (clt z x); right; auto.
Qed.

Definition members_of (t : cty) (s : list cval) : Prop := Forall (typed t) s /\ Forall (fun x => ceqb x x = true) s.

Lemma insert_keeps : forall t x s, ordered_ty t -> typed t x -> ceqb x x = true ->
  members_of t s -> StronglySorted before s -> members_of t (set_insert x s) /\ StronglySorted before (set_insert x s).
Proof.
  intros t x s O Tx Ex M H.
  assert (M' : members_of t (set_insert x s)).
  { destruct M as [M1 M2]. rewrite Forall_forall in M1, M2. split; apply Forall_forall; intros y Hy; apply in_insert in Hy;
      destruct Hy as [->|Hy]; auto. }
  split; [assumption|]. clear M'. destruct M as [M1 M2]. induction H as [|y s H IH F]; [repeat constructor|].
  cbn [set_insert]. inversion M1 as [|? ? Ty M1']; inversion M2 as [|? ? Ey M2']; subst. specialize (IH M1' M2').
  destruct (clt x y) eqn:XY.
  - constructor; [constructor; assumption|]. constructor; [exact XY|].
    rewrite Forall_forall in F, M1', M2' |- *. intros z Hz. unfold before. eapply (clt_trans t) with (b := y); eauto. apply F. assumption.
  - destruct (clt y x) eqn:YX; [|constructor; assumption]. constructor; [assumption|].
    apply Forall_forall. intros z Hz. apply in_insert in Hz. destruct Hz as [->|Hz]; [exact YX|].
    rewrite Forall_forall in F. apply F. assumption.
Qed.

Lemma insert_all_keeps : forall t ys s, ordered_ty t -> members_of t ys ->
  members_of t s -> StronglySorted before s -> members_of t (insert_all ys s) /\ StronglySorted before (insert_all ys s).
Proof.
  intros t ys s O [M1 M2]. revert s. induction M1 as [|y ys Ty M1 IH]; intros s M H; [split; assumption|].
  inversion M2; subst. cbn [insert_all fold_left]. destruct (insert_keeps t y s) as [A B]; try assumption.
  apply IH; assumption.
Qed.

Lemma sorted_same : forall t a b, ordered_ty t -> members_of t a -> members_of t b ->
  StronglySorted before a -> StronglySorted before b -> (forall x, In x a <-> In x b) -> a = b.
Proof.
  intros t a b O Ma Mb Ha. revert b Mb. induction Ha as [|x a Ha IH F]; intros b Mb Hb E.
  - destruct b as [|y b]; [reflexivity|]. destruct (proj2 (E y)). left. reflexivity.
  - destruct Hb as [|y b Hb G]; [destruct (proj1 (E x)); left; reflexivity|].
    assert (X : x = y).
    { destruct (proj1 (E x)) as [X|X]; [left; reflexivity|congruence|].
      destruct (proj2 (E y)) as [Y|Y]; [left; reflexivity|congruence|].
      rewrite Forall_forall in F, G. specialize (F y Y). specialize (G x X). unfold before in *.
      apply clt_asym in F. congruence. }
    subst y. f_equal. destruct Ma as [Ma1 Ma2], Mb as [Mb1 Mb2]. inversion Ma1; inversion Ma2; inversion Mb1; inversion Mb2; subst.
    apply IH; [split; assumption|split; assumption|assumption|]. 
    assert (I : clt x x = true -> False) by (intro X; pose proof (clt_asym _ _ X); congruence).
    rewrite Forall_forall in F, G. intro z. split; intro Hz.
    + destruct (proj1 (E z)) as [->|Hz']; [right; assumption| |assumption]. destruct (I (F z Hz)).
    + destruct (proj2 (E z)) as [->|Hz']; [right; assumption| |assumption]. destruct (I (G z Hz)).
Qed.

Lemma insert_new : forall t x s, hashed_ty t -> typed t x -> Forall (typed t) s -> In x (set_insert x s).
Proof.
  intros t x s Ht Tx. induction 1 as [|y s Ty _ IH]; cbn [set_insert]; [left; reflexivity|].
  destruct (clt x y) eqn:XY; [left; reflexivity|]. destruct (clt y x) eqn:YX; [right; assumption|].
  left. symmetry. eapply hashed_total; eassumption.
Qed.

(** a set of hashable elements comes back whatever the order of insertion *)
Lemma insert_perm : forall t l l', hashed_ty t -> Forall (typed t) l -> StronglySorted before l -> Permutation l l' ->
  insert_all l' [] = l.
Proof.
  intros t l l' Ht T H Pm. pose proof (hashed_ordered t Ht) as O.
  assert (R : forall l, Forall (typed t) l -> members_of t l).
  { intros l0 F. split; [assumption|]. eapply Forall_impl; [|exact F]. intros x Hx. eapply hashed_refl; eassumption. }
  assert (T' : Forall (typed t) l').
  { rewrite Forall_forall in *. intros x Hx. apply T. eapply Permutation_in; [apply Permutation_sym; eassumption|assumption]. }
  assert (IN : forall ys s, Forall (typed t) ys -> Forall (typed t) s -> forall x, In x (insert_all ys s) <-> In x ys \/ In x s).
  { clear - Ht. induction ys as [|y ys IH]; intros s Ty Ts x; cbn [insert_all fold_left]; [cbn [In]; tauto|].
    inversion Ty; subst.
    assert (Ts' : Forall (typed t) (set_insert y s)).
    { rewrite Forall_forall in Ts |- *. intros z Hz. apply in_insert in Hz. destruct Hz as [->|Hz]; auto. }
    change (fold_left (fun s y => set_insert y s) ys (set_insert y s)) with (insert_all ys (set_insert y s)).
    rewrite (IH _ H2 Ts' x). cbn [In]. split.
    - intros [A|A]; [tauto|]. apply in_insert in A. destruct A as [->|A]; tauto.
    - intros [[->|A]|A]; [right; eapply insert_new; eassumption|tauto|right; apply in_insert_old; assumption]. }
  destruct (insert_all_keeps t l' [] O (R _ T')) as [A B]; [split; constructor|constructor|].
  apply (sorted_same t); auto. intro x. rewrite IN by (assumption || constructor). cbn [In]. split.
  - intros [X|[]]. eapply Permutation_in; [apply Permutation_sym|]; eassumption.
  - intro X. left. eapply Permutation_in; eassumption.
Qed.

(** ** Integers *)
Lemma pow_half : forall w, (0 < w)%N -> (2 ^ Z.of_N w = 2 * 2 ^ (Z.of_N w - 1))%Z.
Proof. intros w H. rewrite <- Z.pow_succ_r by lia. f_equal. lia. Qed.

Lemma wrap_range : forall w sg z, (0 < w)%N -> int_range w sg (wrap w sg z).
Proof.
  intros w sg z H. unfold int_range, wrap. pose proof (pow_half w H) as E.
  assert (P : (0 < 2 ^ (Z.of_N w - 1))%Z) by (apply Z.pow_pos_nonneg; lia).
  pose proof (Z.mod_pos_bound z (2 ^ Z.of_N w) ltac:(lia)) as M.
  destruct sg; cbn [andb]; [|assumption]. destruct (Z.leb_spec (2 ^ (Z.of_N w - 1)) (z mod 2 ^ Z.of_N w)); lia.
Qed.
Lemma wrap_cong : forall w sg z, (0 < w)%N -> exists k, z = (wrap w sg z + k * 2 ^ Z.of_N w)%Z.
Proof.
  intros w sg z H. unfold wrap. pose proof (Z.div_mod z (2 ^ Z.of_N w)) as D.
  assert (P : (0 < 2 ^ Z.of_N w)%Z) by (apply Z.pow_pos_nonneg; lia). specialize (D ltac:(lia)).
  destruct (sg && _); [exists (z / 2 ^ Z.of_N w + 1)%Z|exists (z / 2 ^ Z.of_N w)%Z]; lia.
Qed.
Lemma range_unique : forall w sg a b k, (0 < w)%N -> int_range w sg a -> int_range w sg b -> (a = b + k * 2 ^ Z.of_N w)%Z -> a = b.
Proof.
  intros w sg a b k H A B E. unfold int_range in *. pose proof (pow_half w H).
  assert (P : (0 < 2 ^ (Z.of_N w - 1))%Z) by (apply Z.pow_pos_nonneg; lia).
  assert (k = 0)%Z; [|subst; lia]. destruct sg; nia.
Qed.
