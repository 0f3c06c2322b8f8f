(** Integer types: wrapping, overflow, and literals that fit. *)
From Coq Require Import Lia ZifyBool ZifyNat ZifyN.
From Verif Require Import Base Stream Encoding Value Token Message Parser EncodingProofs Feeds SpecUnicode SpecGrammar ObjFacts NumType SpecNumType NumLex NumParse NumParam.
Open Scope Z_scope.

Definition sound_ity (t : ity) : Prop := (1 <= t_bits t)%N.

Section Ity.
Variable t : ity.
Hypothesis Hb : sound_ity t.

Lemma mod_pos : 0 < t_mod t /\ t_mod t = 2 * (t_mod t / 2).
Proof.
  unfold t_mod, sound_ity in *. assert (E : Z.of_N (t_bits t) = Z.succ (Z.of_N (t_bits t - 1))) by lia. rewrite E, Z.pow_succ_r by lia.
  rewrite Z.mul_comm, Z_div_mult by lia. pose proof (Z.pow_pos_nonneg 2 (Z.of_N (t_bits t - 1)) ltac:(lia) ltac:(lia)). lia.
Qed.
Lemma wrap_range : forall z, t_min t <= t_wrap t z <= t_max t.
Proof.
  intro z. destruct mod_pos as [M1 M2]. pose proof (Z.mod_pos_bound z (t_mod t) M1) as B. unfold t_wrap.
  set (r := z mod t_mod t) in *. unfold t_min, t_max. destruct (t_signed t); destruct (Z.leb_spec r (t_mod t / 2 - 1)); destruct (Z.leb_spec r (t_mod t - 1)); lia.
Qed.
Lemma wrap_mod : forall z, t_wrap t z mod t_mod t = z mod t_mod t.
Proof.
  intro z. destruct mod_pos as [M1 M2]. unfold t_wrap. destruct (_ <=? _).
  - apply Z.mod_mod. lia.
  - rewrite <- (Z.mod_mod z) at 2 by lia. replace (z mod t_mod t - t_mod t) with (z mod t_mod t + (-1) * t_mod t) by lia. rewrite Z_mod_plus_full. reflexivity.
Qed.
Lemma wrap_eq : forall a b, a mod t_mod t = b mod t_mod t -> t_wrap t a = t_wrap t b.
Proof. intros a b E. unfold t_wrap. rewrite E. reflexivity. Qed.
Lemma wrap_id : forall z, t_min t <= z <= t_max t -> t_wrap t z = z.
Proof.
  intros z H. destruct mod_pos as [M1 M2]. unfold t_wrap. unfold t_min, t_max in *.
  destruct (Z.ltb_spec z 0).
  - destruct (t_signed t); [|lia]. assert (E : z mod t_mod t = z + t_mod t).
    { symmetry. apply Z.mod_unique with (-1); lia. } rewrite E. destruct (Z.leb_spec (z + t_mod t) (t_mod t / 2 - 1)); lia.
  - assert (E : z mod t_mod t = z) by (apply Z.mod_small; destruct (t_signed t); lia). rewrite E.
    destruct (t_signed t); match goal with |- context [z <=? ?x] => destruct (Z.leb_spec z x); lia end.
Qed.
Lemma wrap_wrap_add : forall a b, t_wrap t (t_wrap t a + t_wrap t b) = t_wrap t (a + b).
Proof. intros a b. apply wrap_eq. rewrite Z.add_mod by (destruct mod_pos; lia). rewrite !wrap_mod. rewrite <- Z.add_mod by (destruct mod_pos; lia). reflexivity. Qed.
Lemma wrap_mul : forall a b, t_wrap t (t_wrap t a * b) = t_wrap t (a * b).
Proof. intros a b. apply wrap_eq. rewrite Z.mul_mod by (destruct mod_pos; lia). rewrite wrap_mod. rewrite <- Z.mul_mod by (destruct mod_pos; lia). reflexivity. Qed.
Lemma wrap_opp : forall a, t_wrap t (- t_wrap t a) = t_wrap t (- a).
Proof. intro a. replace (- t_wrap t a) with (t_wrap t a * -1) by lia. rewrite wrap_mul. f_equal. lia. Qed.

Definition wideb : bool := t_signed t && (32 <=? t_bits t)%N.
Lemma wide_iff : wide t <-> wideb = true.
Proof. unfold wide, wideb. rewrite Bool.andb_true_iff, N.leb_le. reflexivity. Qed.
Lemma arith_narrow : ~ wide t -> forall z, t_arith t z = Ret (t_wrap t z).
Proof. intros W z. rewrite wide_iff in W. unfold t_arith. fold wideb. destruct wideb; [contradiction W; reflexivity|reflexivity]. Qed.
Lemma arith_wide : wide t -> forall z, t_arith t z = if (t_min t <=? z) && (z <=? t_max t) then Ret z else UB.
Proof. intros W z. apply wide_iff in W. unfold t_arith. fold wideb. rewrite W. reflexivity. Qed.
Lemma arith_in : forall z, t_min t <= z <= t_max t -> t_arith t z = Ret z.
Proof.
  intros z H. unfold t_arith. destruct (_ && _)%bool.
  - destruct (Z.leb_spec (t_min t) z), (Z.leb_spec z (t_max t)); try lia. reflexivity.
  - rewrite wrap_id by assumption. reflexivity.
Qed.
Lemma wide_dec : wide t \/ ~ wide t.
Proof. rewrite wide_iff. destruct wideb; [left; reflexivity|right; discriminate]. Qed.

(** the representative of an arbitrary integer *)
Definition rep (z i : Z) : Prop := i = t_wrap t z.

Lemma narrow_total : ~ wide t -> total (num_of t).
Proof.
  intro W. split; intros; cbn [i_step i_neg num_of]; unfold t_step, t_neg; rewrite ?arith_narrow by assumption; cbn [bind]; rewrite ?arith_narrow by assumption; eauto.
Qed.
Lemma rep_arith : forall a b, b = a \/ t_wrap t b = t_wrap t a -> lead (wide t) rep (Ret a) (t_arith t b) .
Proof.
  intros a b E. assert (E' : t_wrap t b = t_wrap t a) by (destruct E; congruence). destruct wide_dec as [W|W].
  - rewrite arith_wide by assumption. destruct (Z.leb_spec (t_min t) b), (Z.leb_spec b (t_max t)); cbn [andb];
      try (left; split; [assumption|reflexivity]). right. unfold rep. cbn. rewrite <- E', wrap_id by lia. reflexivity.
  - right. rewrite arith_narrow by assumption. cbn. unfold rep. congruence.
Qed.
Lemma rep_step : forall z i d, rep z i -> lead (wide t) rep (i_step num_z z d) (i_step (num_of t) i d).
Proof.
  intros z i d ->. cbn [i_step num_z num_of]. unfold t_step. destruct (rep_arith (z * 10) (t_wrap t z * 10)) as [[W E]|E].
  - right. apply wrap_mul.
  - rewrite E. left. split; [assumption|reflexivity].
  - destruct (t_arith t (t_wrap t z * 10)) as [a| | | |]; cbn [orel] in E; try contradiction. unfold rep in E. subst a. cbn [bind].
    apply rep_arith. right. rewrite <- (wrap_wrap_add (z * 10) (Z.of_N d)). reflexivity.
Qed.
Lemma rep_neg : forall z i, rep z i -> lead (wide t) rep (i_neg num_z z) (i_neg (num_of t) i).
Proof. intros z i ->. cbn [i_neg num_z num_of]. unfold t_neg. apply rep_arith. right. apply wrap_opp. Qed.

Lemma wraps : forall cf h n c c' b, alike rep (fun _ _ => True) c c' ->
  (wide t /\ fst (snd (n_parse_ibuf (num_of t) cf h n c' b)) = UB) \/
  (alike rep (fun _ _ => True) (fst (n_parse_ibuf num_z cf h n c b)) (fst (n_parse_ibuf (num_of t) cf h n c' b)) /\
   snd (n_parse_ibuf num_z cf h n c b) = snd (n_parse_ibuf (num_of t) cf h n c' b)).
Proof.
  intros cf h n c c' b Hc. apply (al_ibuf num_z (num_of t) rep (fun _ _ => True) (wide t)); auto; try (intros; exact Logic.I).
  - intro m. reflexivity.
  - intros z i m R. apply rep_step. assumption.
  - apply rep_neg.
Qed.
End Ity.

(** ** All types with total arithmetic alike *)
Lemma totals : forall T T', total T -> total T' -> forall cf h n c c' b, alike (fun _ _ => True) (fun _ _ => True) c c' ->
  alike (fun _ _ => True) (fun _ _ => True) (fst (n_parse_ibuf T cf h n c b)) (fst (n_parse_ibuf T' cf h n c' b)) /\
  snd (n_parse_ibuf T cf h n c b) = snd (n_parse_ibuf T' cf h n c' b).
Proof.
  intros T T' [A B] [A' B'] cf h n c c' b Hc.
  destruct (al_ibuf T T' (fun _ _ => True) (fun _ _ => True) False) with (cf := cf) (h := h) (n := n) (c := c) (c' := c') (b := b) as [[[] _]|X]; auto.
  - intros i i' d _. destruct (A i d) as [j ->], (A' i' d) as [j' ->]. right. exact Logic.I.
  - intros i i' _. destruct (B i) as [j ->], (B' i') as [j' ->]. right. exact Logic.I.
Qed.

(** ** Literals *)
Lemma z_total : total num_z.
Proof. split; intros; cbn; eauto. Qed.
Lemma z_digits : forall ds z, run_digits num_z z ds = Some (dec z ds).
Proof. induction ds as [|d ds IH]; intro z; [reflexivity|]. cbn [run_digits dec]. cbn [i_step num_z]. apply IH. Qed.
Lemma z_whole : forall x, whole num_z x = Some (decimal x).
Proof. intro x. apply z_digits. Qed.
Lemma z_int : forall x v, l_int x -> (stands num_z x v <-> v = GInt (signed_decimal x)).
Proof.
  intros x v L. unfold signed_decimal. split.
  - intro H. inversion H as [x' i j L' W J|x' i f L' W J]; subst; [|contradiction]. rewrite z_whole in W. injection W as <-.
    destruct (l_neg x); [injection J as <-|subst j]; reflexivity.
  - intros ->. apply st_int with (i := decimal x : nI num_z); [assumption|apply z_whole|]. destruct (l_neg x); reflexivity.
Qed.

Lemma cpp_sound : forall t, cpp_ity t -> sound_ity t.
Proof. unfold cpp_ity, sound_ity. intros t H. lia. Qed.
Lemma cpp_max : forall t, cpp_ity t -> 127 <= t_max t.
Proof. intros t [E|[E|[E|E]]]; unfold t_max, t_mod; rewrite E; destruct (t_signed t); cbn; lia. Qed.
Lemma cpp_min : forall t, t_signed t = true -> sound_ity t -> t_min t = - t_max t - 1.
Proof. intros t E S. unfold t_min, t_max. rewrite E. lia. Qed.
Lemma min_le : forall t, sound_ity t -> t_min t <= 0.
Proof. intros t S. destruct (mod_pos t S) as [A B]. unfold t_min. destruct (t_signed t); lia. Qed.

Lemma dval_ascii : forall c, (48 <= c <= 57)%N -> 0 <= Z.of_N (dval c) <= 9.
Proof.
  intros c H. unfold dval. replace (c + 4294967296 - 48)%N with ((c - 48) + 1 * 4294967296)%N by lia. rewrite N.mod_add by lia. rewrite N.mod_small by lia. lia.
Qed.
Lemma dec_le : forall ds z, 0 <= z -> z <= dec z ds.
Proof. induction ds as [|d ds IH]; intros z H; cbn [dec]; [lia|]. specialize (IH (z * 10 + Z.of_N (dval d)) ltac:(lia)). lia. Qed.

Section Lits.
Variable t : ity.
Hypothesis Hc : cpp_ity t.

Lemma wide_digits : wide t -> forall ds i, 0 <= i <= t_max t -> Forall (fun c => 48 <= c <= 57)%N ds ->
  run_digits (num_of t) i ds = if dec i ds <=? t_max t then Some (dec i ds) else None.
Proof.
  intros W. pose proof (cpp_max t Hc) as M. pose proof (min_le t (cpp_sound t Hc)) as M0.
  induction ds as [|d ds IH]; intros i Hi Hd; cbn [run_digits dec].
  - destruct (Z.leb_spec i (t_max t)); [reflexivity|lia].
  - inversion Hd as [|? ? Hd1 Hd2]; subst. pose proof (dval_ascii d Hd1) as D. cbn [i_step num_of]. unfold t_step.
    rewrite (wrap_id t (cpp_sound t Hc) (Z.of_N (dval d))) by lia. rewrite !(arith_wide t W).
    pose proof (dec_le ds (i * 10 + Z.of_N (dval d)) ltac:(lia)) as G.
    destruct (Z.leb_spec (t_min t) (i * 10)); [|lia]. destruct (Z.leb_spec (i * 10) (t_max t)); cbn [andb bind].
    + rewrite !(arith_wide t W). destruct (Z.leb_spec (t_min t) (i * 10 + Z.of_N (dval d))); [|lia].
      destruct (Z.leb_spec (i * 10 + Z.of_N (dval d)) (t_max t)); cbn [andb]; [apply IH; [lia|assumption]|].
      destruct (Z.leb_spec (dec (i * 10 + Z.of_N (dval d)) ds) (t_max t)); [lia|reflexivity].
    + destruct (Z.leb_spec (dec (i * 10 + Z.of_N (dval d)) ds) (t_max t)); [lia|reflexivity].
Qed.
Lemma wide_whole : wide t -> forall x, ascii_lit x -> whole (num_of t) x = if decimal x <=? t_max t then Some (decimal x) else None.
Proof.
  intros W x A. inversion A as [|? ? A1 A2]; subst. unfold whole. cbn [i_of num_of]. pose proof (dval_ascii _ A1) as D. pose proof (cpp_max t Hc) as M.
  pose proof (min_le t (cpp_sound t Hc)) as M0. rewrite (wrap_id t (cpp_sound t Hc)) by lia. apply wide_digits; [assumption|lia|assumption].
Qed.
Lemma decimal_nonneg : forall x, 0 <= decimal x.
Proof. intro x. unfold decimal. etransitivity; [|apply dec_le]; lia. Qed.
Lemma wide_int : wide t -> forall x v, l_int x -> ascii_lit x ->
  (stands (num_of t) x v <-> decimal x <= t_max t /\ v = GInt (signed_decimal x)).
Proof.
  intros W x v L A. pose proof (wide_whole W x A) as E. pose proof (decimal_nonneg x) as P. pose proof (cpp_min t (proj1 W) (cpp_sound t Hc)) as Mi. split.
  - intro H. inversion H as [x' i j L' Wh J|x' i f L' Wh J]; subst; [|contradiction]. rewrite E in Wh.
    destruct (Z.leb_spec (decimal x) (t_max t)); [|discriminate]. injection Wh as <-. split; [assumption|]. unfold signed_decimal.
    destruct (l_neg x); [|subst j; reflexivity]. cbn [i_neg num_of] in J. unfold t_neg in J. rewrite (arith_in t (cpp_sound t Hc)) in J by lia. injection J as <-. reflexivity.
  - intros [B ->]. apply st_int with (i := decimal x : nI (num_of t)); [assumption|rewrite E; destruct (Z.leb_spec (decimal x) (t_max t)); [reflexivity|lia]|].
    unfold signed_decimal. destruct (l_neg x); [|reflexivity]. cbn [i_neg num_of]. unfold t_neg. apply (arith_in t (cpp_sound t Hc)). lia.
Qed.

Lemma narrow_digits : ~ wide t -> forall ds i, exists j, run_digits (num_of t) i ds = Some j /\ t_wrap t j = t_wrap t (dec i ds) /\ (t_min t <= i <= t_max t -> t_min t <= j <= t_max t).
Proof.
  intros W. pose proof (cpp_sound t Hc) as S. induction ds as [|d ds IH]; intro i; cbn [run_digits dec]; [eauto|].
  cbn [i_step num_of]. unfold t_step. rewrite !(arith_narrow t W). cbn [bind]. rewrite !(arith_narrow t W). rewrite (wrap_wrap_add t S).
  destruct (IH (t_wrap t (i * 10 + Z.of_N (dval d)))) as (j & -> & E & R). exists j. split; [reflexivity|]. split; [|intros _; apply R, wrap_range; assumption].
  rewrite E. clear - S. revert d i. induction ds as [|e ds IH]; intros d i; cbn [dec]; [apply wrap_eq, wrap_mod; assumption|].
  assert (X : forall ds a b, t_wrap t a = t_wrap t b -> t_wrap t (dec a ds) = t_wrap t (dec b ds)).
  { clear - S. induction ds as [|e ds IH]; intros a b E; cbn [dec]; [assumption|]. apply IH. rewrite <- (wrap_wrap_add t S (a * 10)), <- (wrap_wrap_add t S (b * 10)).
    rewrite <- (wrap_mul t S a), <- (wrap_mul t S b), E. reflexivity. }
  apply X. rewrite <- (wrap_wrap_add t S (_ * 10)), <- (wrap_wrap_add t S ((i * 10 + _) * 10)). rewrite (wrap_mul t S). reflexivity.
Qed.
Lemma narrow_whole : ~ wide t -> forall x, whole (num_of t) x = Some (t_wrap t (decimal x)).
Proof.
  intros W x. pose proof (cpp_sound t Hc) as S. unfold whole. cbn [i_of num_of]. destruct (narrow_digits W (l_more x) (t_wrap t (Z.of_N (dval (l_first x))))) as (j & -> & E & R).
  f_equal. specialize (R (wrap_range t S _)). rewrite <- (wrap_id t S j R), E. unfold decimal.
  assert (X : forall ds a b, t_wrap t a = t_wrap t b -> t_wrap t (dec a ds) = t_wrap t (dec b ds)).
  { clear - S. induction ds as [|e ds IH]; intros a b E; cbn [dec]; [assumption|]. apply IH. rewrite <- (wrap_wrap_add t S (a * 10)), <- (wrap_wrap_add t S (b * 10)).
    rewrite <- (wrap_mul t S a), <- (wrap_mul t S b), E. reflexivity. }
  apply X. apply wrap_eq, wrap_mod. assumption.
Qed.
Lemma narrow_int : ~ wide t -> forall x v, l_int x -> (stands (num_of t) x v <-> v = GInt (t_wrap t (signed_decimal x))).
Proof.
  intros W x v L. pose proof (narrow_whole W x) as E. pose proof (cpp_sound t Hc) as S. split.
  - intro H. inversion H as [x' i j L' Wh J|x' i f L' Wh J]; subst; [|contradiction]. rewrite E in Wh. injection Wh as <-. unfold signed_decimal.
    destruct (l_neg x); [|subst j; reflexivity]. cbn [i_neg num_of] in J. unfold t_neg in J. rewrite (arith_narrow t W) in J. injection J as <-. rewrite (wrap_opp t S). reflexivity.
  - intros ->. apply st_int with (i := t_wrap t (decimal x) : nI (num_of t)); [assumption|assumption|].
    unfold signed_decimal. destruct (l_neg x); [|reflexivity]. cbn [i_neg num_of]. unfold t_neg. rewrite (arith_narrow t W), (wrap_opp t S). reflexivity.
Qed.

(** ** Literals that fit *)
Lemma fit_whole : forall x, fits t x -> whole (num_of t) x = Some (decimal x).
Proof.
  intros x (A & B & _). destruct (wide_dec t) as [W|W].
  - rewrite (wide_whole W x A). destruct (Z.leb_spec (decimal x) (t_max t)); [reflexivity|lia].
  - rewrite (narrow_whole W x). f_equal. apply wrap_id; [apply cpp_sound; assumption|]. pose proof (decimal_nonneg x). pose proof (min_le t (cpp_sound t Hc)). lia.
Qed.
Lemma fit_stands : forall x v, fits t x -> stands num_z x v -> stands (num_of t) x v.
Proof.
  intros x v F H. pose proof (fit_whole x F) as E. destruct F as (A & B & C).
  destruct H as [x i j L W J|x i f L W J]; rewrite z_whole in W; injection W as <-.
  - assert (Q : if l_neg x then i_neg (num_of t) (decimal x) = Ret j else j = decimal x); [|exact (st_int (num_of t) x (decimal x) j L E Q)].
    specialize (C L). unfold signed_decimal in C.
    destruct (l_neg x); [|assumption]. cbn [i_neg num_of]. injection J as <-. unfold t_neg. apply arith_in; [apply cpp_sound; assumption|].
    pose proof (decimal_nonneg x). pose proof (cpp_max t Hc). lia.
  - exact (st_float (num_of t) x (decimal x) f L E J).
Qed.

Scheme gives_mut := Minimality for gives Sort Prop
  with gives_all_mut := Minimality for gives_all Sort Prop
  with gives_members_mut := Minimality for gives_members Sort Prop.
Combined Scheme gives_ind3 from gives_mut, gives_all_mut, gives_members_mut.

Lemma fit_gives : forall d v, gives num_z d v -> every (fits t) d -> gives (num_of t) d v.
Proof.
  apply (gives_mut num_z (fun d v => every (fits t) d -> gives (num_of t) d v)
    (fun ds vs => Forall (every (fits t)) ds -> gives_all (num_of t) ds vs)
    (fun ms vs => Forall (fun p => every (fits t) (snd p)) ms -> gives_members (num_of t) ms vs)).
  - intros x v S E. inversion E; subst. exact (gi_num (num_of t) x v (fit_stands x v H0 S)).
  - intros _. exact (gi_true (num_of t)).
  - intros _. exact (gi_false (num_of t)).
  - intros _. exact (gi_null (num_of t)).
  - intros s _. exact (gi_str (num_of t) s).
  - intros ds vs _ IH E. inversion E; subst. exact (gi_arr (num_of t) ds vs (IH H0)).
  - intros ms vs m _ IH O E. inversion E; subst. exact (gi_obj (num_of t) ms vs m (IH H0) O).
  - intros _. exact (ga_nil (num_of t)).
  - intros d v ds vs _ IH _ IHs E. inversion E; subst. exact (ga_cons (num_of t) d v ds vs (IH H1) (IHs H2)).
  - intros _. exact (gm_nil (num_of t)).
  - intros k d v ms vs _ IH _ IHs E. inversion E; subst. exact (gm_cons (num_of t) k d v ms vs (IH H1) (IHs H2)).
Qed.
End Lits.

Lemma says_gives : forall T cf, total T -> forall l d l', says cf l d l' -> exists v, gives T d v.
Proof.
  intros T cf [Ts Tn]. apply (says_mut cf (fun _ d _ => exists v, gives T d v) (fun _ ds _ => exists vs, gives_all T ds vs) (fun _ ms _ => exists vs, gives_members T ms vs)).
  - intros l l1 v l' _ L. destruct L; eexists; constructor.
  - intros l l1 x l' _ _. assert (W : forall ds i, exists j, run_digits T i ds = Some j).
    { induction ds as [|d ds IH]; intro i; cbn [run_digits]; [eauto|]. destruct (Ts i (dval d)) as [j ->]. apply IH. }
    destruct (W (l_more x) (i_of T (dval (l_first x)))) as [i E]. change (whole T x = Some i) in E.
    assert (D : l_int x \/ ~ l_int x).
    { unfold l_int. destruct (l_frac x); [|right; intros [X _]; discriminate]. destruct (l_exp x); [right; intros [_ X]; discriminate|left; auto]. }
    destruct D as [D|D].
    + destruct (Tn i) as [j J]. exists (GInt (if l_neg x then j else i)). apply gi_num. eapply st_int; [assumption|eassumption|]. destruct (l_neg x); [assumption|reflexivity].
    + eexists. apply gi_num. eapply st_float; [assumption|eassumption|reflexivity].
  - intros l l1 s l' _ _. eexists. constructor.
  - intros l l1 ds l' _ _ [vs H]. eexists. apply gi_arr. eassumption.
  - intros l l1 ms l' _ _ [vs H]. eexists. eapply gi_obj; [eassumption|]. apply obj_of_any_iff. reflexivity.
  - intros. eexists. constructor.
  - intros l d l1 l' _ [v H] _. eexists. constructor; [eassumption|constructor].
  - intros l d l1 l2 ds l' _ [v H] _ _ [vs H2]. eexists. constructor; eassumption.
  - intros. eexists. constructor.
  - intros. eexists. constructor.
  - intros l l1 k l2 l3 d l4 l' _ _ _ _ [v H] _. eexists. constructor; [eassumption|constructor].
  - intros l l1 k l2 l3 d l4 l5 ms l' _ _ _ _ [v H] _ _ [vs H2]. eexists. constructor; eassumption.
Qed.
Lemma said_gives : forall T cf, total T -> forall l d l', said cf l d l' -> exists v, gives T d v.
Proof. intros T cf H l d l' S. destruct S; eapply says_gives; eassumption. Qed.

Lemma fits_same : forall t cf s l e d rest, cpp_ity t -> enc_ok (tgt_enc cf) (tgt_ck cf) = true ->
  feeds (src_enc cf) (src_ck cf) (sis s) l e -> said cf l d rest -> (e = TEof \/ rest <> []) -> every (fits t) d ->
  exists v, n_parse_string num_z cf s = Ret v /\ n_parse_string (num_of t) cf s = Ret v.
Proof.
  intros t cf s l e d rest Hc He F S X E. destruct (said_gives num_z cf z_total l d rest S) as [v G]. exists v. split.
  - apply (n_string_iff num_z cf s l e v He F). eauto.
  - apply (n_string_iff (num_of t) cf s l e v He F). exists d, rest. split; [assumption|]. split; [assumption|]. apply fit_gives; assumption.
Qed.
