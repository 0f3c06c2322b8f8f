(** Facts on value-initialisation, comparison and sets. *)
From Coq Require Import Lia ZifyBool ZifyNat ZifyN Sorted Floats.SpecFloat.
From Verif Require Import Base Value ValueOps Compare ObjFacts SpecGrammar SpecText SpecValue SpecIter SpecCompare CompareProofs CompareOrder CompareMore
  Cpp Convert SpecConv ConvOrder ConvMain ConvThm SpecCpp.
Open Scope N_scope.

Section CvalInd.
Variable P : cval -> Prop.
Hypothesis Hb : forall b, P (CBool b).
Hypothesis Hi : forall z, P (CInt z).
Hypothesis Hd : forall f, P (CDbl f).
Hypothesis Hf : forall f, P (CFlt f).
Hypothesis Hs : forall s, P (CStr s).
Hypothesis Hj : forall v, P (CJson v).
Hypothesis Hn : P (CPtr None).
Hypothesis Hp : forall x, P x -> P (CPtr (Some x)).
Hypothesis Hl : forall l, Forall P l -> P (CSeq l).
Hypothesis Hm : forall m, Forall (fun p => P (snd p)) m -> P (CMap m).
Hypothesis Hr : forall l, Forall P l -> P (CRec l).
Fixpoint cval_ind2 (x : cval) : P x :=
  let all := fix all (l : list cval) : Forall P l := match l with [] => Forall_nil _ | y :: r => Forall_cons y (cval_ind2 y) (all r) end in
  match x with
  | CBool b => Hb b | CInt z => Hi z | CDbl f => Hd f | CFlt f => Hf f | CStr s => Hs s | CJson v => Hj v
  | CPtr None => Hn | CPtr (Some y) => Hp y (cval_ind2 y)
  | CSeq l => Hl l (all l) | CRec l => Hr l (all l)
  | CMap m => Hm m ((fix go (m : list (str * cval)) : Forall (fun p => P (snd p)) m :=
      match m with [] => Forall_nil _ | y :: r => Forall_cons y (cval_ind2 (snd y)) (go r) end) m)
  end.
End CvalInd.
Section CtyInd.
Variable P : cty -> Prop.
Hypothesis Hb : P TyBool.
Hypothesis Hi : forall w sg, P (TyInt w sg).
Hypothesis Hd : P TyDouble.
Hypothesis Hf : P TyFloat.
Hypothesis Hs : P TyString.
Hypothesis Hj : P TyJson.
Hypothesis Hw : forall raw, P (TyRaw raw).
Hypothesis Hp : forall t, P t -> P (TyPtr t).
Hypothesis Ha : forall n t, P t -> P (TyArray n t).
Hypothesis Hl : forall k t, P t -> P (TySeq k t).
Hypothesis Hm : forall h t, P t -> P (TyMap h t).
Hypothesis Hr : forall fs, Forall (fun f => P (snd f)) fs -> P (TyStruct fs).
Fixpoint cty_ind2 (t : cty) : P t :=
  match t with
  | TyBool => Hb | TyInt w sg => Hi w sg | TyDouble => Hd | TyFloat => Hf | TyString => Hs | TyJson => Hj | TyRaw raw => Hw raw
  | TyPtr t => Hp t (cty_ind2 t) | TyArray n t => Ha n t (cty_ind2 t) | TySeq k t => Hl k t (cty_ind2 t) | TyMap h t => Hm h t (cty_ind2 t)
  | TyStruct fs => Hr fs ((fix go (fs : list (str * bool * cty)) : Forall (fun f => P (snd f)) fs :=
      match fs with [] => Forall_nil _ | f :: r => Forall_cons f (cty_ind2 (snd f)) (go r) end) fs)
  end.
End CtyInd.

Lemma feq_compare : forall f g, SFeqb f g = true <-> SFcompare f g = Some Eq.
Proof. intros f g. unfold SFeqb. destruct (SFcompare f g) as [[]|]; split; congruence. Qed.
Lemma flt_compare : forall f g, SFltb f g = true <-> SFcompare f g = Some Lt.
Proof. intros f g. unfold SFltb. destruct (SFcompare f g) as [[]|]; split; congruence. Qed.

(** ** == *)
Lemma equals_iff : forall x y, ceqb x y = true <-> equals x y.
Proof.
  assert (S : forall l, Forall (fun x => forall y, ceqb x y = true <-> equals x y) l ->
    forall l', (fix go (l l' : list cval) : bool :=
         match l, l' with
         | [], [] => true
         | x :: t, y :: t' => ceqb x y && go t t'
         | _, _ => false
         end) l l' = true <-> Forall2 equals l l').
  { induction 1 as [|x l H _ IH]; intros [|y l'].
    - split; [constructor|reflexivity].
    - split; [discriminate|intro X; inversion X].
    - split; [discriminate|intro X; inversion X].
    - rewrite andb_true_iff, IH, H. split; [intros []; constructor; assumption|intro X; inversion X; auto]. }
  induction x as [b|z|f|f|s|v| |x IH|l IH|m IH|l IH] using cval_ind2; intros [b'|z'|f'|f'|s'|v'|p'|l'|m'|l'];
    try (split; [discriminate|intro X; inversion X; fail]); cbn [ceqb].
  - rewrite Bool.eqb_true_iff. split; [intros <-; constructor|intro X; inversion X; reflexivity].
  - rewrite Z.eqb_eq. split; [intros <-; constructor|intro X; inversion X; reflexivity].
  - rewrite feq_compare. split; [intro; constructor; assumption|intro X; inversion X; assumption].
  - rewrite feq_compare. split; [intro; constructor; assumption|intro X; inversion X; assumption].
  - rewrite str_eqb_iff. split; [intros <-; constructor|intro X; inversion X; reflexivity].
  - split; [intro; constructor; assumption|intro X; inversion X; assumption].
  - destruct p'.
    + split; [discriminate|intro X; inversion X].
    + split; [intros _; apply cq_null|reflexivity].
  - rewrite (S l IH). split; [intro; constructor; assumption|intro X; inversion X; assumption].
  - transitivity (Forall2 (fun p q => fst p = fst q /\ equals (snd p) (snd q)) m m').
    2: split; [apply cq_map|intro X; inversion X; assumption].
    revert m'. induction IH as [|[k x] m H _ IH]; intros [|[k' y] m'].
    + split; [constructor|reflexivity].
    + split; [discriminate|intro X; inversion X].
    + split; [discriminate|intro X; inversion X].
    + cbn [snd] in H. rewrite !andb_true_iff, IH, H, str_eqb_iff.
      split; [intros [[] ]; constructor; auto|intro X; inversion X; subst; cbn [fst snd] in *; tauto].
  - rewrite (S l IH). split; [intro; constructor; assumption|intro X; inversion X; assumption].
Qed.

(** ** T{} *)
Lemma initial_iff : forall t x, initial t x <-> x = dflt t.
Proof.
  induction t as [|w sg| | | | |raw|t IH|n t IH|k t IH|h t IH|fs IH] using cty_ind2; intro x; cbn [dflt];
    try (split; [intro H; inversion H; reflexivity|intros ->; constructor]).
  - destruct raw; (split; [intro H; inversion H; reflexivity|intros ->; constructor]).
  - split.
    + intro H. inversion H as [| | | | | | | | |n' t' l L F| | |]; subst. f_equal. clear H. induction F as [|y l H F IHl]; [reflexivity|]. cbn [length repeat]. f_equal; [apply IH; assumption|assumption].
    + intros ->. constructor; [apply repeat_length|]. apply Forall_forall. intros y Hy. apply repeat_spec in Hy. apply IH. assumption.
  - split.
    + intro H. inversion H as [| | | | | | | | | | | |fs' l F]; subst. f_equal. clear H. induction F as [|f y fs l H F IHl]; [reflexivity|].
      inversion IH; subst. cbn [map]. f_equal; [apply H2; assumption|auto].
    + intros ->. constructor. induction IH as [|f fs H _ IHf]; [constructor|]. constructor; [apply H; reflexivity|assumption].
Qed.

(** ** < *)
Lemma earlier_iff : forall t, ordered_ty t -> forall x y, typed t x -> typed t y -> (clt x y = true <-> earlier t x y).
Proof.
  assert (L : forall t, (forall x y, typed t x -> typed t y -> (clt x y = true <-> earlier t x y)) -> forall l l', Forall (typed t) l -> Forall (typed t) l' ->
    (clt (CSeq l) (CSeq l') = true <-> lex (earlier t) (fun x y => ~ earlier t x y /\ ~ earlier t y x) l l')).
  { intros t H l l' Tl. revert l'. induction Tl as [|x l Tx Tl IH]; intros l' [|y l2 Ty Tl'].
    - split; [discriminate|]. intro X. apply lex_nil in X. congruence.
    - split; [|reflexivity]. intros _. apply (lx_prefix _ _ [] []). constructor.
    - split; [discriminate|]. intro X. apply lex_nil in X. congruence.
    - rewrite clt_cons. pose proof (H x y Tx Ty) as H1. pose proof (H y x Ty Tx) as H2. destruct (clt x y) eqn:E1; [|destruct (clt y x) eqn:E2].
      + split; [|reflexivity]. intros _. apply (lx_here _ _ [] x l [] y l2); [constructor|]. apply H1. reflexivity.
      + split; [discriminate|]. intro X. exfalso. apply lex_cons in X. destruct X as [X|[[_ X] _]]; [apply H1 in X; discriminate|]. apply X. apply H2. reflexivity.
      + rewrite (IH l2 Tl'). assert (U : ~ earlier t x y /\ ~ earlier t y x) by (split; intro X; [apply H1 in X|apply H2 in X]; discriminate). split; intro X.
        * destruct X as [p x0 r p' y0 r' F Lt|l p y0 r F].
          -- apply (lx_here _ _ (x :: p) x0 r (y :: p') y0 r'); [constructor; assumption|assumption].
          -- apply (lx_prefix _ _ (x :: l) (y :: p)). constructor; assumption.
        * apply lex_cons in X. destruct X as [X|[_ X]]; [|assumption]. destruct U. contradiction. }
  induction 1 as [|w sg| | | |n t O IH|k t K O IH]; intros x y Tx Ty; inversion Tx; inversion Ty; subst; cbn [earlier].
  - unfold clt. cbn. destruct b, b0; cbn; split; intros; try discriminate; try tauto; destruct H; discriminate.
  - unfold clt. cbn [ccmp fst]. apply Z.ltb_lt.
  - unfold clt. cbn [ccmp fst]. apply flt_compare.
  - unfold clt. cbn [ccmp fst]. apply flt_compare.
  - unfold clt. cbn [ccmp fst]. apply str_ltb_iff.
  - apply L; assumption.
  - apply L; assumption.
Qed.

(** ** Sets *)
Section Sets.
Variable t : cty.
Hypothesis O : ordered_ty t.
Definition apart (x y : cval) : Prop := clt x y = true \/ clt y x = true.
Lemma apart_dec : forall x y, apart x y \/ (clt x y = false /\ clt y x = false).
Proof. intros x y. unfold apart. destruct (clt x y), (clt y x); auto. Qed.
Lemma not_apart : forall x y, clt x y = false -> clt y x = false -> ~ apart x y.
Proof. intros x y A B [C|C]; congruence. Qed.

Definition good (x : cval) : Prop := typed t x /\ ceqb x x = true.
Lemma insert_in : forall x s y, good x -> Forall good s -> StronglySorted before s ->
  (In y (set_insert x s) <-> In y s \/ (y = x /\ Forall (apart x) s)).
Proof.
  intros x s y [Tx Ex] G H. induction H as [|z s H IH F]; cbn [set_insert].
  - split; [intros [<-|[]]; right; auto|intros [[]|[-> _]]; left; reflexivity].
  - inversion G as [|? ? [Tz Ez] G']; subst. specialize (IH G'). destruct (clt x z) eqn:XZ; [|destruct (clt z x) eqn:ZX].
    + assert (A : Forall (apart x) (z :: s)).
      { constructor; [left; assumption|]. rewrite Forall_forall in F, G' |- *. intros u Hu. destruct (G' u Hu) as [Tu Eu]. left. eapply (clt_trans t O x z u); try assumption. apply F. assumption. }
      cbn [In]. split; [intros [->|X]; auto|intros [X|[-> _]]; auto].
    + cbn [In]. rewrite IH. split.
      * intros [X|[X|[-> A]]]; auto. right. split; [reflexivity|]. constructor; [right; assumption|assumption].
      * intros [[X|X]|[-> A]]; auto. inversion A; subst. auto.
    + split; [auto|]. intros [X|[-> A]]; [assumption|]. inversion A; subst. exfalso. eapply not_apart; [| |eassumption]; assumption.
Qed.

Definition first_in (ys : list cval) (y : cval) : Prop := exists a b, ys = a ++ y :: b /\ Forall (fun x => apart x y) a.
Lemma apart_sym : forall x y, apart x y -> apart y x.
Proof. intros x y [H|H]; [right|left]; assumption. Qed.

Lemma first_snoc : forall ys x y, first_in (ys ++ [x]) y <-> first_in ys y \/ (y = x /\ Forall (fun z => apart z x) ys).
Proof.
  intros ys x y. split.
  - intros (a & b & E & F). destruct b as [|z b] using rev_ind.
    + apply app_inj_tail in E. destruct E as [-> ->]. right. auto.
    + clear IHb. assert (E' : ys ++ [x] = (a ++ y :: b) ++ [z]) by (rewrite <- app_assoc; exact E). apply app_inj_tail in E'. destruct E' as [-> _]. left. exists a, b. auto.
  - intros [(a & b & -> & F)|[-> F]]; [exists a, (b ++ [x])|exists ys, []]; split; auto. rewrite <- app_assoc. reflexivity.
Qed.

Lemma rep : forall ys, Forall good ys -> let s := insert_all ys [] in
  (Forall good s /\ StronglySorted before s) /\ (forall y, In y s <-> first_in ys y) /\ (forall x, good x -> (Forall (apart x) s <-> Forall (fun z => apart z x) ys)).
Proof.
  induction ys as [|x ys IH] using rev_ind; intro G; cbv zeta.
  - cbn [insert_all fold_left]. split; [split; constructor|]. split; [|intros; split; constructor].
    intro y. split; [intros []|]. intros (a & b & E & _). destruct a; discriminate.
  - apply Forall_app in G. destruct G as [G Gx]. inversion Gx as [|? ? Gx' _]; subst. destruct (IH G) as ((Gs & So) & M & A). clear IH. cbv zeta in *.
    replace (insert_all (ys ++ [x]) []) with (set_insert x (insert_all ys [])) by (unfold insert_all; rewrite fold_left_app; reflexivity).
    set (s := insert_all ys []) in *.
    assert (Ms : members_of t s). { split; eapply Forall_impl; try exact Gs; intros z [Tz Ez]; assumption. }
    destruct (insert_keeps t x s O (proj1 Gx') (proj2 Gx') Ms So) as [[M1 M2] So'].
    assert (Gs' : Forall good (set_insert x s)). { rewrite Forall_forall in *. intros z Hz. split; auto. }
    split; [split; assumption|]. split.
    + intro y. rewrite (insert_in x s y Gx' Gs So), first_snoc, M, (A x Gx'). reflexivity.
    + intros z Gz. split; intro H.
      * apply Forall_app. assert (H0 : Forall (apart z) s). { rewrite Forall_forall in H |- *. intros u Hu. apply H. apply insert_in; auto. }
        split; [apply A; assumption|]. constructor; [|constructor].
        destruct (apart_dec x z) as [X|[X1 X2]]; [assumption|]. exfalso.
        (* x equivalent to z: x itself or its representative is in the set *)
        assert (Ax : Forall (apart x) s).
        { rewrite Forall_forall in H0, Gs |- *. intros u Hu. specialize (H0 u Hu). destruct (Gs u Hu) as [Tu Eu]. destruct Gx' as [Tx Ex], Gz as [Tz Ez].
          destruct (apart_dec x u) as [Y|[Y1 Y2]]; [assumption|]. exfalso.
          destruct H0 as [H0|H0].
          - rewrite (clt_negtrans t O z x u) in H0; try assumption. discriminate.
          - rewrite (clt_negtrans t O u x z) in H0; try assumption. discriminate. }
        assert (I : In x (set_insert x s)) by (apply insert_in; auto). rewrite Forall_forall in H. specialize (H x I). eapply not_apart; [| |apply apart_sym; exact H]; assumption.
      * apply Forall_app in H. destruct H as [H1 H2]. inversion H2; subst. apply (A z Gz) in H1. apply Forall_forall. intros u Hu. apply insert_in in Hu; try assumption.
        destruct Hu as [Hu|[-> _]]; [rewrite Forall_forall in H1; auto|]. apply apart_sym. assumption.
Qed.
End Sets.

Lemma sorted_ext : forall A (R S : A -> A -> Prop) l, (forall x y, In x l -> In y l -> (R x y <-> S x y)) -> (StronglySorted R l <-> StronglySorted S l).
Proof.
  intros A R S l. induction l as [|x l IH]; intro H; [split; constructor|]. split; intro X; inversion X as [|? ? X1 X2]; subst.
  - constructor; [apply IH; [intros; apply H; right; assumption|assumption]|]. rewrite Forall_forall in *. intros y Hy. apply H; [left; reflexivity|right; assumption|auto].
  - constructor; [apply IH; [intros; apply H; right; assumption|assumption]|]. rewrite Forall_forall in *. intros y Hy. apply H; [left; reflexivity|right; assumption|auto].
Qed.

Lemma set_of_iff : forall t ys s, ordered_ty t -> Forall (fun y => typed t y /\ ceqb y y = true) ys ->
  (s = fold_left (fun s y => set_insert y s) ys [] <-> set_of t ys s).
Proof.
  intros t ys s O G. change (fold_left (fun s y => set_insert y s) ys []) with (insert_all ys []).
  destruct (rep t O ys G) as ((Gs & So) & M & _). cbv zeta in *. set (s0 := insert_all ys []) in *.
  assert (In_ys : forall y, (exists a b, ys = a ++ y :: b /\ Forall (fun x => earlier t x y \/ earlier t y x) a) <-> first_in ys y).
  { intro y. split; intros (a & b & E & F); exists a, b; (split; [assumption|]).
    - subst ys. apply Forall_app in G. destruct G as [G1 G2]. inversion G2 as [|? ? [Ty _] _]; subst. rewrite Forall_forall in *. intros x Hx. destruct (G1 x Hx) as [Tx _].
      destruct (F x Hx) as [Z|Z]; [left|right]; apply earlier_iff with (t := t); assumption.
    - subst ys. apply Forall_app in G. destruct G as [G1 G2]. inversion G2 as [|? ? [Ty _] _]; subst. rewrite Forall_forall in *. intros x Hx. destruct (G1 x Hx) as [Tx _].
      destruct (F x Hx) as [Z|Z]; [left|right]; apply earlier_iff with (t := t); assumption. }
  assert (Srt : forall s, Forall (typed t) s -> (StronglySorted (earlier t) s <-> StronglySorted before s)).
  { intros s' T. apply sorted_ext. rewrite Forall_forall in T. intros x y Hx Hy. symmetry. apply earlier_iff; auto. }
  assert (Ts0 : Forall (typed t) s0) by (eapply Forall_impl; [|exact Gs]; intros ? []; assumption).
  split.
  - intros ->. split; [apply Srt; assumption|]. intro y. rewrite In_ys. apply M.
  - intros [S1 S2]. assert (Es : forall x, In x s <-> In x s0) by (intro x; rewrite S2, In_ys, M; reflexivity).
    assert (Ms0 : members_of t s0). { split; [assumption|]. eapply Forall_impl; [|exact Gs]; intros ? []; assumption. }
    assert (Ms : members_of t s). { destruct Ms0 as [M1 M2]. rewrite Forall_forall in M1, M2. split; apply Forall_forall; intros x Hx; apply Es in Hx; auto. }
    apply (sorted_same t); try assumption. apply Srt; [apply Ms|assumption].
Qed.

(** ** The members of a bound struct *)
Lemma members_in : forall fs l ws, members fs l ws -> forall n w, In (n, w) ws -> In n (map (fun f => fst (fst f)) fs).
Proof.
  fix IH 4. intros fs l ws [|n req t fs0 x l0 v ws0 H I M|n t fs0 x l0 ws0 H M] k w K; [destruct K| |].
  - destruct K as [K|K]; [injection K as -> ->; left; reflexivity|]. right. exact (IH _ _ _ M _ _ K).
  - right. exact (IH _ _ _ M _ _ K).
Qed.
Lemma members_nth : forall fs l ws, members fs l ws -> NoDup (map (fun f => fst (fst f)) fs) ->
  forall i n req t x, nth_error fs i = Some (n, req, t) -> nth_error l i = Some x ->
  ((exists w, In (n, w) ws) <-> req = true \/ ceqb x (dflt t) = false).
Proof.
  fix IH 4. intros fs l ws [|n0 req0 t0 fs0 x0 l0 v0 ws0 H I M|n0 t0 fs0 x0 l0 ws0 H M] N i n req t x Hf Hx.
  - destruct i; discriminate.
  - inversion N as [|? ? N1 N2]; subst. destruct i as [|i]; cbn [nth_error] in *.
    + injection Hf as -> -> ->. injection Hx as ->. split; [intros _; assumption|intros _; eexists; left; reflexivity].
    + rewrite <- (IH _ _ _ M N2 i n req t x Hf Hx). split; [intros [w [K|K]]; [|eauto]|intros [w K]; exists w; right; assumption].
      injection K as -> ->. exfalso. apply N1. apply nth_error_In in Hf. apply (in_map (fun f : str * bool * cty => fst (fst f))) in Hf. exact Hf.
  - inversion N as [|? ? N1 N2]; subst. destruct i as [|i]; cbn [nth_error] in *.
    + injection Hf as -> <- ->. injection Hx as ->. split; [intros [w K]|intros [K|K]; congruence].
      exfalso. apply N1. exact (members_in _ _ _ M _ _ K).
    + exact (IH _ _ _ M N2 i n req t x Hf Hx).
Qed.
Lemma in_assoc : forall A k (w : A) m, In (k, w) m -> exists w', assoc k w' m.
Proof.
  induction m as [|[k0 w0] m IH]; intro H; [destruct H|]. destruct (list_eq_dec N.eq_dec k0 k) as [->|Ne]; [eexists; constructor|].
  destruct H as [H|H]; [congruence|]. destruct (IH H) as [w' A']. exists w'. constructor; assumption.
Qed.
Lemma written_iff : forall e fs l v, fair e -> wf_ty (TyStruct fs) -> typed (TyStruct fs) (CRec l) -> of_cpp e (TyStruct fs) (CRec l) = Ret v ->
  forall i n req t x, nth_error fs i = Some (n, req, t) -> nth_error l i = Some x ->
  (absent n v <-> req = false /\ exists d, initial t d /\ equals x d).
Proof.
  intros e fs l v Fe W Ty E i n req t x Hf Hx. destruct (to_value_image e _ _ Fe W Ty) as (v' & E' & Im). rewrite E in E'. injection E' as <-.
  inversion W as [| | | | | | | | | | |? Nd _]; subst. inversion Im as [| | | | | | | | | | | | | |? ? ws ? M V0 V1]; subst.
  assert (D : (exists d, initial t d /\ equals x d) <-> ceqb x (dflt t) = true).
  { rewrite equals_iff. split; [intros (d & I & Q); apply initial_iff in I; subst d; assumption|intro Q; exists (dflt t); split; [apply initial_iff; reflexivity|assumption]]. }
  rewrite D. pose proof (members_nth _ _ _ M Nd i n req t x Hf Hx) as K.
  assert (A : absent n v <-> ~ exists w, In (n, w) ws).
  { destruct ws as [|p ws].
    - rewrite (V0 eq_refl). split; [intros _ [w []]|intros _ o w X; discriminate].
    - destruct (V1 ltac:(discriminate)) as (o & -> & So & As). split.
      + intros Ab [w Hw]. apply in_assoc in Hw. destruct Hw as [w' Hw]. apply As in Hw. apply assoc_in in Hw. exact (Ab o w' eq_refl Hw).
      + intros No o' w X Hw. injection X as <-. apply No. apply (sorted_in_assoc _ _ _ _ So) in Hw. apply As in Hw. apply assoc_in in Hw. eauto. }
  rewrite A, K. destruct req, (ceqb x (dflt t)); intuition congruence.
Qed.
