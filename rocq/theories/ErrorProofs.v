(** What the errors of dumping and converting say: the model's exceptions are
    those of SpecErrors.v. *)
From Coq Require Import List NArith ZArith String Lia ZifyBool ZifyNat ZifyN.
From Verif Require Import Base Stream Encoding Value ValueOps Message Parser Serializer Feeds SpecGrammar SpecText SpecRfc SpecDump SpecMessage
  DumpText DumpProofs DumpFacts RoundTrip DumpFail DumpMore MessageLex MessageFacts
  ObjFacts SpecValue SpecIter IterProofs SpecCompare Cpp Convert SpecConv ConvOrder ConvTo ConvFrom ConvRead ConvSafe ConvMain ConvThm SpecErrors.
Import ListNotations.
Open Scope N_scope.

(** ** Dumping *)
Lemma chars_error : forall cf cps t er, snd (d_chars cf cps t) = Throw er <->
  (exists pre c post, cps = pre ++ c :: post /\ Forall (fun c => ~ unwritable cf c) pre /\ unwritable cf c /\
     er = ESer (with_number "encoding failed with codepoint" c)) \/
  (exists x, t = TBad x /\ Forall (fun c => ~ unwritable cf c) cps /\ er = ESer (with_number "unexpected character" x)).
Proof.
  intros cf cps t er. induction cps as [|c cps IH]; cbn [d_chars].
  - split.
    + destruct t; cbn [dfail snd]; intro H; [discriminate|]. injection H as <-. right. eexists. split; [reflexivity|].
      split; [constructor|]. rewrite with_code_eq. reflexivity.
    + intros [(pre & c & post & E & _)|(x & -> & _ & ->)]; [destruct pre; discriminate|]. cbn [dfail snd]. rewrite with_code_eq. reflexivity.
  - rewrite snd_dthen. destruct (char_out cf c) as [(w & -> & U)|[-> U]]; cbn [txt dfail snd oseq].
    + rewrite IH. split.
      * intros [(pre & c' & post & -> & F & B & E)|(x & -> & F & E)].
        -- left. exists (c :: pre), c', post. split; [reflexivity|]. split; [constructor; assumption|]. split; assumption.
        -- right. exists x. split; [reflexivity|]. split; [constructor; assumption|assumption].
      * intros [(pre & c' & post & E0 & F & B & E)|(x & -> & F & E)].
        -- left. destruct pre as [|a pre]; cbn [app] in E0; injection E0 as <- ->; [contradiction|].
           exists pre, c', post. inversion F; subst. auto.
        -- right. exists x. inversion F; subst. auto.
    + rewrite with_code_eq. split.
      * intro H. injection H as <-. left. exists [], c, cps. split; [reflexivity|]. split; [constructor|]. split; [assumption|reflexivity].
      * intros [(pre & c' & post & E0 & F & B & ->)|(x & _ & F & _)].
        -- destruct pre as [|a pre]; cbn [app] in E0; injection E0 as <- ->; [reflexivity|]. inversion F; subst. contradiction.
        -- inversion F; subst. contradiction.
Qed.

Lemma leaf_error : forall cf s er, leaf_out cf (LStr s) = Throw er <-> exists m, er = ESer m /\ string_error cf s m.
Proof.
  intros cf s er. cbn [leaf_out]. unfold d_string. destruct (feeds_string (val_enc cf) (val_ck cf) s) as (l & tm & F & L).
  rewrite (decs_feeds _ _ _ _ _ F) by lia. rewrite !snd_dthen, !snd_txt, oseq_l, oseq_r, chars_error. split.
  - intros [(pre & c & post & -> & P & B & ->)|(x & -> & P & ->)]; eexists; (split; [reflexivity|]).
    + eapply se_encode; eassumption.
    + eapply se_decode; eassumption.
  - intros (m & -> & H). inversion H as [pre c post t F2 P B E|cps x F2 P E]; subst; destruct (feeds_det _ _ _ _ _ F _ _ F2) as [-> ->].
    + left. exists pre, c, post. auto.
    + right. exists x. auto.
Qed.

Lemma error_bad : forall cf s m, string_error cf s m -> bad_leaf cf (LStr s).
Proof.
  intros cf s m H. inversion H; subst; [eapply bl_encode|eapply bl_decode]; try eassumption.
  apply Exists_exists. eexists. split; [apply in_or_app; right; left; reflexivity|assumption].
Qed.
Lemma good_or_bad : forall cf l, bad_leaf cf l \/ ~ bad_leaf cf l.
Proof. intros cf l. destruct (leaf_cases cf l) as [[_ G]|[B _]]; auto. Qed.
Lemma bad_error : forall cf s, bad_leaf cf (LStr s) -> exists m, string_error cf s m.
Proof.
  intros cf s B. destruct (leaf_cases cf (LStr s)) as [[_ G]|[_ [m E]]]; [contradiction|]. apply leaf_error in E. destruct E as (m' & _ & H). eauto.
Qed.

Section Dump.
Variable cf : scfg.
Hypothesis Hok : enc_ok (out_enc cf) (out_ck cf) = true.

Lemma dump_says : forall v er, dump_string cf v = Throw er <-> exists m, er = ESer m /\ dump_error cf v m.
Proof.
  intros v er. rewrite (dump_out cf Hok). pose proof (val_out cf v 0) as X. destruct (d_val cf 0 v) as [w o]. cbn [snd] in X. split.
  - intro H. assert (E : o = Throw er) by (destruct o; cbn in H; try discriminate; congruence). rewrite E in X. clear H E.
    destruct (first_bad cf (leaves v)) as [F|(pre & x & post & E2 & F & B)].
    + rewrite (first_good cf _ F) in X. discriminate.
    + rewrite E2, map_app, first_app, (first_good cf _ F) in X. cbn [map] in X. rewrite first_cons in X.
      destruct x as [s|f].
      * destruct (bad_error cf s B) as [m M]. assert (L : leaf_out cf (LStr s) = Throw (ESer m)) by (apply leaf_error; eauto).
        rewrite L in X. injection X as ->. exists m. split; [reflexivity|]. econstructor; eassumption.
      * destruct (leaf_cases cf (LFloat f)) as [[_ G]|[_ C]]; [contradiction|]. rewrite C in X. discriminate.
  - intros (m & -> & [pre s post m' E F S]). rewrite E, map_app, first_app, (first_good cf _ F) in X. cbn [map] in X. rewrite first_cons in X.
    assert (L : leaf_out cf (LStr s) = Throw (ESer m')) by (apply leaf_error; eauto). rewrite L in X. subst o. reflexivity.
Qed.

Lemma dump_error_one : forall v m m', dump_error cf v m -> dump_error cf v m' -> m = m'.
Proof.
  intros v m m' H H'. assert (E : dump_string cf v = Throw (ESer m)) by (apply dump_says; eauto).
  assert (E' : dump_string cf v = Throw (ESer m')) by (apply dump_says; eauto). congruence.
Qed.
End Dump.

(** what() of these messages is the message behind its prefix *)
Lemma error_nul : forall cf v m, dump_error cf v m -> nul_free m.
Proof.
  intros cf v m [pre s post m' E F S]. destruct S; apply nul_free_number; cbn; repeat split; discriminate.
Qed.

(** ** Converting *)
Lemma sub_item : forall v vs w, seq_items v vs -> In w vs -> sub w v.
Proof. intros v vs w I Hw. inversion I; subst; try contradiction. eapply sub_arr; [eassumption|constructor]. Qed.
Lemma sub_trans : forall a b, sub a b -> forall c, sub b c -> sub a c.
Proof.
  intros a b H c Hc. induction Hc as [|v l I Hc IH|k v m I Hc IH]; [assumption| |].
  - eapply sub_arr; eassumption.
  - eapply sub_obj; eassumption.
Qed.
Lemma error_part : forall t w er, conversion_error t w er -> forall t' v, (forall u, part u t -> part u t') -> sub w v -> conversion_error t' v er.
Proof.
  intros t w er H t' v P S. destruct H.
  - eapply ce_scalar; [apply P; eassumption|eassumption|eapply (sub_trans _ w); eassumption|assumption].
  - eapply ce_raw; [apply P; eassumption|eapply (sub_trans _ w); eassumption|assumption|assumption].
  - eapply ce_array; [apply P; eassumption|assumption|eapply (sub_trans _ w); eassumption|assumption].
  - eapply ce_map; [apply P; eassumption|eapply (sub_trans _ w); eassumption|assumption].
  - eapply ce_struct; [apply P; eassumption|eassumption|eapply (sub_trans _ w); eassumption|assumption].
  - eapply ce_member; [apply P; eassumption|eassumption|eapply (sub_trans _ w); eassumption|assumption].
Qed.
Lemma no_items_type : forall v, no_seq_items v -> type_of v <> TArray.
Proof. intros v H. destruct v; try discriminate. destruct (H l). constructor. Qed.

Lemma fields_error : forall v fs l l' er, break_fields v fs l l' er ->
  (er = not_object /\ type_of v <> TObject /\ exists n u, In (n, true, u) fs) \/
  (er = no_member /\ exists o n u, v = VObj o /\ In (n, true, u) fs /\ forall x, ~ In (n, x) o).
Proof.
  intros v fs l l' er B. induction B.
  - left. split; [reflexivity|]. split; [assumption|]. exists n, t. left. reflexivity.
  - right. split; [reflexivity|]. exists o, n, t. split; [reflexivity|]. split; [left; reflexivity|assumption].
  - destruct IHB as [(-> & T & n' & u & I)|(-> & o' & n' & u & E & I & A)]; [left|right].
    + split; [reflexivity|]. split; [assumption|]. exists n', u. right. assumption.
    + split; [reflexivity|]. exists o', n', u. split; [assumption|]. split; [right; assumption|assumption].
  - destruct IHB as [(-> & T & n' & u & I)|(-> & o' & n' & u & E & I & A)]; [left|right].
    + split; [reflexivity|]. split; [assumption|]. exists n', u. right. assumption.
    + split; [reflexivity|]. exists o', n', u. split; [assumption|]. split; [right; assumption|assumption].
  - destruct IHB as [(-> & T & n' & u & I)|(-> & o' & n' & u & E & I & A)]; [left|right].
    + split; [reflexivity|]. split; [assumption|]. exists n', u. right. assumption.
    + split; [reflexivity|]. exists o', n', u. split; [assumption|]. split; [right; assumption|assumption].
Qed.

Lemma breaks_error : forall t v x y er, breaks t v x y er -> conversion_error t v er.
Proof.
  induction t as [|w sg| | | | |raw|t IH|n t IH|k t IH|h t IH|fs IH] using cty_deep; intros v x y er B; inversion B; subst;
    try (eapply ce_scalar; [apply pa_here|constructor|constructor|assumption]);
    try (eapply (ce_raw _ _ false); [apply pa_here|constructor|assumption|assumption]);
    try (eapply (ce_raw _ _ true); [apply pa_here|constructor|assumption|assumption]).
  - eapply error_part; [eapply IH; eassumption|intros; constructor; assumption|constructor].
  - eapply ce_array; [apply pa_here|left; eauto|constructor|apply no_items_type; assumption].
  - eapply error_part; [eapply IH; eassumption|intros; constructor; assumption|].
    eapply sub_item; [eassumption|apply in_or_app; right; left; reflexivity].
  - eapply ce_array; [apply pa_here|right; eauto|constructor|apply no_items_type; assumption].
  - eapply error_part; [eapply IH; eassumption|intros; constructor; assumption|].
    eapply sub_item; [eassumption|apply in_or_app; right; left; reflexivity].
  - eapply ce_array; [apply pa_here|right; eauto|constructor|apply no_items_type; assumption].
  - eapply error_part; [eapply IH; eassumption|intros; constructor; assumption|].
    eapply sub_item; [eassumption|apply in_or_app; right; left; reflexivity].
  - eapply error_part; [eapply IH; eassumption|intros; constructor; assumption|].
    eapply sub_item; [eassumption|apply in_or_app; right; left; reflexivity].
  - eapply error_part; [eapply IH; eassumption|intros; constructor; assumption|].
    eapply sub_item; [eassumption|apply in_or_app; right; left; reflexivity].
  - eapply ce_map; [apply pa_here|constructor|assumption].
  - eapply error_part; [eapply IH; eassumption|intros; constructor; assumption|].
    match goal with El : elements v _ |- _ => inversion El; subst; try constructor end.
    + destruct l as [|a l]; [discriminate|]. cbn [map] in *. match goal with E : _ :: _ = _ :: _ |- _ => injection E as <- _ end. eapply sub_arr; [left; reflexivity|constructor].
    + cbn [type_of] in *. congruence.
  - eapply error_part; [eapply IH; eassumption|intros; constructor; assumption|].
    eapply sub_obj; [apply in_or_app; right; left; reflexivity|constructor].
  - match goal with F : break_fields _ _ _ _ _ |- _ => apply fields_error in F; destruct F as [(-> & T & n & u & I)|(-> & o & n & u & -> & I & A)] end.
    + eapply ce_struct; [apply pa_here|eassumption|constructor|assumption].
    + eapply ce_member; [apply pa_here|eassumption|constructor|assumption].
Qed.

Lemma get_error : forall e t v er, wf_ty t -> ordered v -> get e t v = Throw er -> conversion_error t v er.
Proof. intros e t v er W O H. apply get_class in H; try assumption. destruct H as [y B]. eapply breaks_error; eassumption. Qed.

(** the message names the types *)
Lemma misfit_inj : forall v w a b, misfit v a = misfit w b -> type_of v = type_of w /\ a = b.
Proof.
  intros v w a b. unfold misfit. destruct (type_of v), (type_of w), a, b; intro H; first [split; reflexivity|vm_compute in H; discriminate].
Qed.

(** ** One exception, but for the order of evaluation in maps *)
Definition same (a b : exn) : Prop := a = b \/ a = no_key \/ b = no_key.
Lemma first_break : forall t vs w rest us w' rest' ys zs, vs ++ w :: rest = us ++ w' :: rest' ->
  Forall2 (fun v y => reads t v (dflt t) y) vs ys -> Forall2 (fun v y => reads t v (dflt t) y) us zs ->
  forall y er y' er', breaks t w (dflt t) y er -> breaks t w' (dflt t) y' er' -> w = w'.
Proof.
  intros t vs. induction vs as [|v vs IH]; intros w rest [|u us] w' rest' ys zs E F F' y er y' er' B B'; cbn [app] in E.
  - congruence.
  - injection E as -> ->. inversion F'; subst. exfalso. eapply excl; eassumption.
  - injection E as -> <-. inversion F; subst. exfalso. eapply excl; eassumption.
  - injection E as -> E. inversion F; inversion F'; subst. eapply IH; eassumption.
Qed.
Lemma last_break : forall t vs w rest us w' rest' ys zs, vs ++ w :: rest = us ++ w' :: rest' ->
  Forall2 (fun v y => reads t v (dflt t) y) rest ys -> Forall2 (fun v y => reads t v (dflt t) y) rest' zs ->
  forall y er y' er', breaks t w (dflt t) y er -> breaks t w' (dflt t) y' er' -> w = w'.
Proof.
  intros t vs w rest us w' rest' ys zs E F F' y er y' er' B B'. apply (f_equal (@rev value)) in E. rewrite !rev_app_distr in E. cbn [rev] in E.
  rewrite <- !app_assoc in E. cbn [app] in E. apply Forall2_rev' in F. apply Forall2_rev' in F'. eapply first_break; eassumption.
Qed.
Lemma pair_break : forall t vs k w rest us k' w' rest' ys zs, vs ++ (k, w) :: rest = us ++ (k', w') :: rest' ->
  Forall2 (fun (q : str * value) (p : str * cval) => fst p = fst q /\ reads t (snd q) (dflt t) (snd p)) vs ys ->
  Forall2 (fun (q : str * value) (p : str * cval) => fst p = fst q /\ reads t (snd q) (dflt t) (snd p)) us zs ->
  forall y er y' er', breaks t w (dflt t) y er -> breaks t w' (dflt t) y' er' -> w = w'.
Proof.
  intros t vs. induction vs as [|v vs IH]; intros k w rest [|u us] k' w' rest' ys zs E F F' y er y' er' B B'; cbn [app] in E.
  - congruence.
  - injection E as <- ->. inversion F' as [|? ? ? ? [_ R] _]; subst. exfalso. cbn [snd] in R. eapply excl; eassumption.
  - injection E as -> <-. inversion F as [|? ? ? ? [_ R] _]; subst. exfalso. cbn [snd] in R. eapply excl; eassumption.
  - injection E as -> E. inversion F; inversion F'; subst. eapply IH; eassumption.
Qed.
Lemma fields_same : forall v fs l l' k k' er er', break_fields v fs l l' er -> break_fields v fs k k' er' -> er = er'.
Proof.
  intros v fs l l' k k' er er' B B'. apply fields_error in B. apply fields_error in B'.
  destruct B as [(-> & T & _)|(-> & o & _ & _ & E & _)]; destruct B' as [(-> & T' & _)|(-> & o' & _ & _ & E' & _)]; subst; cbn [type_of] in *; congruence.
Qed.
Lemma breaks_same : forall t v x y er, breaks t v x y er -> forall x' y' er', breaks t v x' y' er' -> same er er'.
Proof.
  induction t as [|w sg| | | | |raw|t IH|n t IH|k t IH|h t IH|fs IH] using cty_deep; intros v x y er B x' y' er' B';
    try (inversion B; subst; inversion B'; subst; left; reflexivity).
  - inversion B; subst; inversion B'; subst. eapply IH; eassumption.
  - inversion B; subst; inversion B'; subst; try (left; reflexivity);
      try (exfalso; match goal with N : no_seq_items _, I : seq_items _ _ |- _ => exact (N _ I) end).
    match goal with I : seq_items v ?a, I' : seq_items v ?b |- _ => first [constr_eq a b; fail 1|pose proof (items_det _ _ _ I I') as E] end.
    assert (W : w = w0) by (eapply first_break; eassumption). subst. eapply IH; eassumption.
  - inversion B; subst; inversion B'; subst; try (left; reflexivity);
      try (exfalso; match goal with N : no_seq_items _, I : seq_items _ _ |- _ => exact (N _ I) end);
      try (match goal with K : _ \/ _ |- _ => destruct K; discriminate end);
      match goal with I : seq_items v ?a, I' : seq_items v ?b |- _ => first [constr_eq a b; fail 1|pose proof (items_det _ _ _ I I') as E] end;
      (assert (W : w = w0) by (first [eapply first_break; eassumption|eapply last_break; eassumption])); subst; eapply IH; eassumption.
  - inversion B; subst; inversion B'; subst; try (right; left; reflexivity); try (right; right; reflexivity);
      try (cbn [type_of] in *; congruence).
    + match goal with I : elements v _, I' : elements v _ |- _ => pose proof (elements_det _ _ _ I I') as E end.
      injection E as <- _. eapply IH; eassumption.
    + match goal with H : _ ++ _ = _ ++ _ |- _ => rename H into E end. assert (W : w0 = w) by (eapply pair_break; eassumption). subst. eapply IH; eassumption.
  - inversion B; subst; inversion B'; subst. left. eapply fields_same; eassumption.
Qed.

(** without maps there is exactly one *)
Lemma get_exact : forall e t v er, wf_ty t -> ordered v -> ~ nan_in_set t v -> (forall h u, ~ part (TyMap h u) t) ->
  (get e t v = Throw er <-> exists y, breaks t v (dflt t) y er).
Proof.
  intros e t v er W O S M. split; [apply get_class; assumption|]. intros [y B].
  destruct (proj2 (get_breaks e t v W O S)) as [er' H]; [eauto|]. rewrite H. f_equal.
  destruct (get_class e t v er' W O H) as [y' B'].
  assert (K : forall y, breaks t v (dflt t) y no_key -> False).
  { intros z Bz. apply breaks_error in Bz. inversion Bz; subst. eapply M; eassumption. }
  destruct (breaks_same _ _ _ _ _ B' _ _ _ B) as [E|[E|E]]; subst; [reflexivity|exfalso; eapply K; eassumption..].
Qed.

(** ** what() *)
Lemma conversion_nul : forall t v er, conversion_error t v er -> forall w, what_of er w -> nul_free w.
Proof.
  intros t v er H w Hw. destruct H; cbn [what_of misfit not_array no_key not_object no_member] in Hw; subst w;
    try (cbn; repeat split; discriminate).
  - unfold misfit. destruct (type_of w0), ty; cbn; repeat split; discriminate.
  - unfold misfit. destruct (type_of w0), raw; cbn; repeat split; discriminate.
Qed.
Lemma c_str_free : forall s, nul_free s -> c_str s = s.
Proof.
  induction s as [|c s IH]; intro H; [reflexivity|]. destruct H as [C H]. cbn [c_str].
  destruct (Ascii.eqb_spec c Ascii.zero); [contradiction|]. rewrite IH by assumption. reflexivity.
Qed.
Lemma what_eq : forall er w, what_of er w -> nul_free w -> exn_msg er = w.
Proof.
  intros er w H F. destruct er; cbn [what_of] in H; subst w; unfold exn_msg; apply c_str_free; assumption.
Qed.

Lemma dump_what : forall cf v m, enc_ok (out_enc cf) (out_ck cf) = true -> dump_error cf v m ->
  exn_msg (ESer m) = ("value serialization error: " ++ m)%string /\
  snd (snd (dump_to cf HRecord (mkOs [] false) v)) = ("value serialization error: " ++ m)%string.
Proof.
  intros cf v m Hok H.
  assert (W : exn_msg (ESer m) = ("value serialization error: " ++ m)%string).
  { apply what_eq; [reflexivity|]. apply nul_free_app; [cbn; repeat split; discriminate|]. eapply error_nul; eassumption. }
  split; [exact W|]. rewrite <- W. destruct (dump_policies cf v Hok) as (_ & _ & _ & _ & _ & P). apply P.
  assert (D : dump_string cf v = Throw (ESer m)) by (apply dump_says; eauto). unfold dump_string in D.
  destruct (dump_to cf HNone (mkOs [] false) v) as [out [r rm]]. cbn [fst snd]. destruct r; cbn [bind] in D; try discriminate; congruence.
Qed.

Lemma conversion_what : forall t v er, conversion_error t v er -> forall w, what_of er w -> exn_msg er = w.
Proof. intros t v er H w Hw. apply what_eq; [assumption|]. eapply conversion_nul; eassumption. Qed.
Lemma misuse_what : forall er, (exists o v, misuse o v er) \/ (exists a v, bad_subscript a v er) \/ (exists v, out_of_range v er) ->
  forall w, what_of er w -> exn_msg er = w.
Proof.
  intros er [(o & v & H)|[(a & v & H)|[v H]]] w Hw; destruct H; cbn [what_of] in Hw; subst w; reflexivity.
Qed.

(** the number named need not be a code point *)
Lemma number_refuted : exists cf v m n, enc_ok (out_enc cf) (out_ck cf) = true /\ 1114111 < n /\
  m = with_number "unexpected character" n /\ dump_error cf v m.
Proof.
  exists (ser_cfg C8 C8 fmt_default []), (VStr [255]), (with_number "unexpected character" 1090785343), 1090785343.
  split; [reflexivity|]. split; [reflexivity|]. split; [reflexivity|].
  assert (E : dump_string (ser_cfg C8 C8 fmt_default []) (VStr [255]) = Throw (ESer (with_number "unexpected character" 1090785343)))
    by (vm_compute; reflexivity).
  apply dump_says in E; [|reflexivity]. destruct E as (m & E & H). injection E as E. rewrite E. exact H.
Qed.
(** a missing member is not named *)
Lemma member_refuted : exists t t' v, wf_ty t /\ wf_ty t' /\ ordered v /\
  (exists fs, t = TyStruct fs /\ In (chars "a", true, TyBool) fs /\ absent (chars "a") v) /\
  (exists fs, t' = TyStruct fs /\ In (chars "b", true, TyBool) fs /\ absent (chars "b") v) /\
  forall e, exists er, get e t v = Throw er /\ get e t' v = Throw er.
Proof.
  exists (TyStruct [(chars "a", true, TyBool)]), (TyStruct [(chars "b", true, TyBool)]), (VObj []).
  assert (N : forall s, wf_ty (TyStruct [(chars s, true, TyBool)])).
  { intro s. constructor; [constructor; [intros []|constructor]|repeat constructor]. }
  split; [apply N|]. split; [apply N|]. split; [constructor; [constructor|intros k x []]|].
  split; [eexists; split; [reflexivity|]; split; [left; reflexivity|]; intros o w E; injection E as <-; intros []|].
  split; [eexists; split; [reflexivity|]; split; [left; reflexivity|]; intros o w E; injection E as <-; intros []|].
  intro e. eexists. split; reflexivity.
Qed.
