(** Proofs about serializers that are used more than once. *)
From Coq Require Import Lia ZifyBool ZifyNat ZifyN Floats.SpecFloat.
From Verif Require Import Base Stream Encoding Value Token FloatFmt Message Parser EncodingProofs EncodingFacts Feeds SpecUnicode SpecGrammar
  SpecText SpecRfc ObjFacts GrammarLex GrammarTok GrammarFacts NumberFacts Serializer DumpText DumpProofs SpecDump DumpFacts RoundTrip DumpFail
  Wrapper Reuse SpecReuse.
Ltac Zify.zify_post_hook ::= Z.div_mod_to_equations.
Open Scope N_scope.

Section Ser.
Variable cf : scfg.
Hypothesis Hok : enc_ok (out_enc cf) (out_ck cf) = true.

(** ** Steps that only write *)
Definition wr (s s' : sst) : Prop := exists o, s' = set_os s o /\ os_fail o = os_fail (s_os s).
Lemma wr_refl : forall s, wr s s.
Proof. intros [o b t d n]. exists o. split; reflexivity. Qed.
Lemma wr_trans : forall a b c, wr a b -> wr b c -> wr a c.
Proof. intros a b c (o & -> & E) (o' & -> & E'). exists o'. split; [reflexivity|]. rewrite E', <- E. reflexivity. Qed.
Lemma wr_output : forall w s, wr s (output w s).
Proof. intros w s. eexists. split; [reflexivity|]. unfold os_write. destruct (os_fail (s_os s)) eqn:E; [assumption|reflexivity]. Qed.
Lemma wr_output1 : forall c s, c < 128 -> wr s (output1 cf c s).
Proof.
  intros c s L. eexists. split; [reflexivity|]. unfold os_put. destruct (os_fail (s_os s)) eqn:E; [assumption|].
  replace (Z.of_N c =? eof_int (out_ck cf))%Z with false; [reflexivity|]. destruct (out_ck cf); cbn [eof_int]; lia.
Qed.
Lemma wr_newline : forall s, wr s (output_newline cf s).
Proof. intro s. unfold output_newline. destruct (s_pretty cf); [apply wr_output1; reflexivity|apply wr_refl]. Qed.

Definition safe (D : N) (s : sst) : Prop := s_depth s = u16 D /\ okn cf D (s_ilen s).
Lemma wr_safe : forall D s s', wr s s' -> safe D s -> safe D s'.
Proof. intros D s s' (o & -> & _) H. exact H. Qed.

Lemma wr_indent : forall D D' s, s_depth s = u16 D -> u16 D <= N.min D' 65535 -> okn cf D' (s_ilen s) ->
  exists s', output_indent cf s = (s', Ret tt) /\ wr s s'.
Proof.
  intros D D' s Ed L [O1 O2]. unfold output_indent. destruct (s_pretty cf); [|exists s; split; [reflexivity|apply wr_refl]].
  destruct (N.eqb_spec (s_ichar cf) 0) as [E|E]; cbn [negb andb]; [exists s; split; [reflexivity|apply wr_refl]|].
  specialize (O2 E). destruct ((0 <? s_step cf) && (0 <? s_depth s)); [|exists s; split; [reflexivity|apply wr_refl]].
  unfold ind_write. replace (s_depth s * s_step cf <=? s_ilen s) with true by (rewrite Ed; nia).
  eexists. split; [reflexivity|]. eexists. split; [reflexivity|]. unfold os_write. destruct (os_fail (s_os s)) eqn:F; [assumption|reflexivity].
Qed.
Lemma safe_indent : forall D s, safe D s -> exists s', output_indent cf s = (s', Ret tt) /\ wr s s'.
Proof. intros D s [A B]. exact (wr_indent D D s A (u16_min cf D) B). Qed.

(** ** next() *)
(** the state after next(): began, last token, depth, and the stream's flag *)
Definition went (s s' : sst) (b : bool) (t : token) (D : N) : Prop :=
  safe D s' /\ s_began s' = b /\ s_last s' = t /\ os_fail (s_os s') = os_fail (s_os s).

Lemma wr_fields : forall s s', wr s s' -> s_began s' = s_began s /\ s_last s' = s_last s /\ s_depth s' = s_depth s /\ s_ilen s' = s_ilen s /\
  os_fail (s_os s') = os_fail (s_os s).
Proof. intros s s' (o & -> & E). repeat split; assumption. Qed.

(** the part of next() before the switch *)
Definition head (t : token) (s : sst) : sres :=
  let s := if s_began s then (if starts_value t then output_newline cf (set_began s false) else set_began s false) else s in
  if s_pretty cf && negb (token_eqb (s_last s) Tname_sep) && starts_value t then output_indent cf s else sret s.
Lemma next_head : forall t D s, safe D s ->
  exists s1, head t s = (s1, Ret tt) /\
  s_began s1 = false /\ safe D s1 /\ s_last s1 = s_last s /\ os_fail (s_os s1) = os_fail (s_os s).
Proof.
  intros t D s S. unfold head. set (s0 := if s_began s then _ else s). cbv zeta.
  assert (E : s_began s0 = false /\ safe D s0 /\ s_last s0 = s_last s /\ os_fail (s_os s0) = os_fail (s_os s)).
  { unfold s0. destruct (s_began s) eqn:B; [|auto]. destruct (starts_value t); [|exact (conj eq_refl (conj S (conj eq_refl eq_refl)))].
    pose proof (wr_newline (set_began s false)) as W. destruct (wr_fields _ _ W) as (A1 & A2 & A3 & A4 & A5). rewrite A1, A2, A5.
    exact (conj eq_refl (conj (wr_safe D _ _ W S) (conj eq_refl eq_refl))). }
  destruct E as (E1 & E2 & E3 & E4).
  destruct (s_pretty cf && negb (token_eqb (s_last s0) Tname_sep) && starts_value t).
  - destruct (safe_indent D s0 E2) as (s1 & Eq & W). rewrite Eq. exists s1. split; [reflexivity|].
    destruct (wr_fields _ _ W) as (A1 & A2 & A3 & A4 & A5). rewrite A1, A2, A5. split; [assumption|]. split; [eapply wr_safe; eassumption|]. auto.
  - exists s0. split; [reflexivity|]. auto.
Qed.

Lemma next_eq : forall t s s1, head t s = (s1, Ret tt) ->
  next cf t s = (do* s := match t with
           | Ttrue => sret (output lit_true s1)
           | Tfalse => sret (output lit_false s1)
           | Tnull => sret (output lit_null s1)
           | Tbegin_arr => sret (ind_inc cf (set_began (output1 cf c_lbrack s1) true))
           | Tbegin_obj => sret (ind_inc cf (set_began (output1 cf c_lbrace s1) true))
           | Tend_arr =>
               do* s := output_indent cf (output_newline cf (ind_dec s1)) in
               sret (output1 cf c_rbrack s)
           | Tend_obj =>
               do* s := output_indent cf (output_newline cf (ind_dec s1)) in
               sret (output1 cf c_rbrace s)
           | Tname_sep => output_indent_n cf 1 (output1 cf c_colon s1)
           | Tval_sep => sret (output_newline cf (output1 cf c_comma s1))
           | _ => sret s1
           end in sret (set_last s t)).
Proof.
  intros t s s1 H. unfold head in H. unfold next. cbv zeta in *. rewrite H. reflexivity.
Qed.

Lemma went_start : forall t D s, safe D s -> starts_value t = true -> t <> Tbegin_arr -> t <> Tbegin_obj ->
  exists s', next cf t s = (s', Ret tt) /\ went s s' false t D.
Proof.
  intros t D s S T N1 N2. destruct (next_head t D s S) as (s1 & H & B & S1 & L1 & F1). rewrite (next_eq _ s s1 H). clear H.
  destruct t; try discriminate; try congruence; cbn [sthen sret]; eexists; (split; [reflexivity|]);
    (split; [exact S1|]); (split; [exact B|]); (split; [reflexivity|]); try exact F1;
    unfold output, set_os, set_last; cbn [s_os]; rewrite <- F1; unfold os_write; destruct (os_fail (s_os s1)) eqn:X; try assumption; reflexivity.
Qed.

Lemma safe_inc : forall D s, safe D s -> safe (D + 1) (ind_inc cf s).
Proof.
  intros D s [E [O1 O2]]. unfold ind_inc, ind_reserve. rewrite E. cbn [s_ilen s_os s_began s_last s_depth].
  assert (Ed : u16 (u16 D + 1) = u16 (D + 1)) by (unfold u16; lia). rewrite Ed.
  destruct (N.eqb_spec (s_ichar cf) 0) as [C|C].
  - split; [reflexivity|]. split; [assumption|]. intro; contradiction.
  - specialize (O2 C).
    assert (L : u16 (D + 1) * s_step cf <= N.min (D + 1) 65535 * s_step cf) by (apply N.mul_le_mono_r; exact (u16_min cf _)).
    destruct (N.ltb_spec (s_ilen s) (u16 (D + 1) * s_step cf)) as [L2|L2]; (split; [reflexivity|]); (split; [intro; contradiction|]); intros _; cbn [s_ilen];
      unfold u16 in *; (destruct (N.le_gt_cases (D + 1) 65535) as [Le|Gt]; [rewrite N.mod_small in * by lia; nia|]).
    + replace (N.min (D + 1) 65535) with 65535 by lia. replace (N.min D 65535) with 65535 in O2 by lia. nia.
    + nia.
Qed.
Lemma inc_fields : forall s, s_began (ind_inc cf s) = s_began s /\ s_last (ind_inc cf s) = s_last s /\ s_os (ind_inc cf s) = s_os s.
Proof. intro s. unfold ind_inc, ind_reserve. destruct (s_ichar cf =? 0); [auto|]. cbn [s_ilen]. destruct (s_ilen s <? _); auto. Qed.

Lemma went_open : forall t D s, safe D s -> t = Tbegin_arr \/ t = Tbegin_obj ->
  exists s', next cf t s = (s', Ret tt) /\ went s s' true t (D + 1).
Proof.
  intros t D s S T. destruct (next_head t D s S) as (s1 & H & B & S1 & L1 & F1). rewrite (next_eq _ s s1 H). clear H.
  assert (G : forall c, c < 128 -> safe (D + 1) (ind_inc cf (set_began (output1 cf c s1) true)) /\
     s_began (ind_inc cf (set_began (output1 cf c s1) true)) = true /\ os_fail (s_os (ind_inc cf (set_began (output1 cf c s1) true))) = os_fail (s_os s)).
  { intros c L. destruct (inc_fields (set_began (output1 cf c s1) true)) as (A1 & A2 & A3). rewrite A1, A3. split; [apply safe_inc; exact S1|].
    split; [reflexivity|]. cbn [set_began s_os]. destruct (wr_fields _ _ (wr_output1 c s1 L)) as (_ & _ & _ & _ & X). rewrite X. exact F1. }
  destruct T as [-> | ->]; cbn [sthen sret]; eexists; (split; [reflexivity|]);
    [destruct (G c_lbrack eq_refl) as (G1 & G2 & G3)|destruct (G c_lbrace eq_refl) as (G1 & G2 & G3)];
    (split; [exact G1|]); (split; [exact G2|]); (split; [reflexivity|]); exact G3.
Qed.

Lemma safe_dec : forall D s, safe (D + 1) s -> s_depth (ind_dec s) = u16 D /\ safe D (ind_dec s).
Proof.
  intros D s [E O]. assert (X : u16 (s_depth s + 65535) = u16 D) by (rewrite E; unfold u16; lia).
  split; [exact X|]. split; [exact X|]. apply okn_dec. exact O.
Qed.

Lemma went_close : forall t D s, safe (D + 1) s -> t = Tend_arr \/ t = Tend_obj ->
  exists s', next cf t s = (s', Ret tt) /\ went s s' false t D.
Proof.
  intros t D s S T. destruct (next_head t (D + 1) s S) as (s1 & H & B & S1 & L1 & F1). rewrite (next_eq _ s s1 H). clear H.
  destruct (safe_dec D s1 S1) as [_ S2].
  pose proof (wr_newline (ind_dec s1)) as W1. pose proof (wr_safe _ _ _ W1 S2) as S3.
  destruct (safe_indent D _ S3) as (s2 & E2 & W2). rewrite E2.
  assert (G : forall c, c < 128 -> went s (set_last (output1 cf c s2) t) false t D).
  { intros c L. pose proof (wr_trans _ _ _ W1 (wr_trans _ _ _ W2 (wr_output1 c s2 L))) as W.
    destruct (wr_fields _ _ W) as (A1 & A2 & A3 & A4 & A5). split; [exact (wr_safe D _ _ W S2)|].
    cbn [set_last s_began s_last s_os]. rewrite A1, A5. split; [exact B|]. split; [reflexivity|]. exact F1. }
  destruct T as [-> | ->]; cbn [sthen sret]; eexists; (split; [reflexivity|]); apply G; reflexivity.
Qed.

Lemma safe_reserve : forall D k s, safe D s -> (k <= s_ilen (ind_reserve cf k s) \/ s_ichar cf = 0) /\ safe D (ind_reserve cf k s) /\
  s_began (ind_reserve cf k s) = s_began s /\ s_os (ind_reserve cf k s) = s_os s.
Proof.
  intros D k s [E [O1 O2]]. unfold ind_reserve. destruct (N.eqb_spec (s_ichar cf) 0) as [C|C].
  - split; [auto|]. split; [|auto]. split; [assumption|]. split; assumption.
  - specialize (O2 C). destruct (N.ltb_spec (s_ilen s) k) as [L|L]; cbn [s_ilen s_began s_os].
    + split; [left; lia|]. split; [|auto]. split; [exact E|]. split; [intro; contradiction|]. intros _. cbn [s_ilen]. lia.
    + split; [left; lia|]. split; [|auto]. split; [assumption|]. split; [intro; contradiction|]. intros _. assumption.
Qed.

Lemma went_colon : forall D s, safe D s -> exists s', next cf Tname_sep s = (s', Ret tt) /\ went s s' false Tname_sep D.
Proof.
  intros D s S. destruct (next_head Tname_sep D s S) as (s1 & H & B & S1 & L1 & F1). rewrite (next_eq _ s s1 H). clear H.
  pose proof (wr_output1 c_colon s1 eq_refl) as W1. pose proof (wr_safe _ _ _ W1 S1) as S2.
  destruct (wr_fields _ _ W1) as (A1 & A2 & A3 & A4 & A5).
  unfold output_indent_n. destruct (s_pretty cf).
  2:{ cbn [sthen sret]. eexists. split; [reflexivity|]. split; [exact S2|]. cbn [set_last s_began s_last s_os]. rewrite A1, A5. auto. }
  destruct (safe_reserve D 1 _ S2) as (R1 & R2 & R3 & R4).
  assert (X : exists w, ind_write cf 1 (ind_reserve cf 1 (output1 cf c_colon s1)) = (set_os (ind_reserve cf 1 (output1 cf c_colon s1)) (os_write (s_os (ind_reserve cf 1 (output1 cf c_colon s1))) w), Ret tt)).
  { unfold ind_write. destruct (N.leb_spec 1 (s_ilen (ind_reserve cf 1 (output1 cf c_colon s1)))) as [Y|Y]; [eexists; reflexivity|].
    destruct R1 as [R1|R1]; [lia|]. destruct R2 as [_ [O1 _]]. rewrite (O1 R1). change (1 =? 0 + 1) with true. cbv iota. eexists. reflexivity. }
  destruct X as [w X]. rewrite X. cbn [sthen sret]. eexists. split; [reflexivity|]. split; [exact R2|].
  cbn [set_last set_os s_began s_last s_os]. rewrite R3, R4, A1. split; [assumption|]. split; [reflexivity|].
  unfold os_write. rewrite A5, F1. destruct (os_fail (s_os s)) eqn:Fs; [rewrite A5, F1; reflexivity|reflexivity].
Qed.

Lemma went_comma : forall D s, safe D s -> exists s', next cf Tval_sep s = (s', Ret tt) /\ went s s' false Tval_sep D.
Proof.
  intros D s S. destruct (next_head Tval_sep D s S) as (s1 & H & B & S1 & L1 & F1). rewrite (next_eq _ s s1 H). clear H.
  pose proof (wr_trans _ _ _ (wr_output1 c_comma s1 eq_refl) (wr_newline _)) as W.
  destruct (wr_fields _ _ W) as (A1 & A2 & A3 & A4 & A5). cbn [sthen sret]. eexists. split; [reflexivity|].
  split; [exact (wr_safe _ _ _ W S1)|]. cbn [set_last s_began s_last s_os]. rewrite A1, A5. auto.
Qed.

Lemma went_end : forall D s, safe D s -> exists s', next cf Teoi s = (s', Ret tt) /\ went s s' false Teoi D /\ os_units (s_os s') = os_units (s_os s).
Proof.
  intros D s S. unfold next. cbn [starts_value]. rewrite andb_false_r. cbn [sthen sret].
  eexists. split; [reflexivity|]. destruct (s_began s) eqn:B; (split; [|reflexivity]); (split; [exact S|]);
    (split; [first [reflexivity|exact B]|]); split; reflexivity.
Qed.

(** ** Strings and floats *)
Lemma chars_os : forall fuel i cur s, exists o, fst (put_chars cf fuel i cur s) = set_os s o.
Proof.
  induction fuel as [|fuel IH]; intros i cur s; cbn [put_chars].
  - exists (s_os s). destruct s; reflexivity.
  - destruct (decode (val_enc cf) (val_ck cf) i cur) as [[ok cp] i'].
    assert (Id : set_os s (s_os s) = s) by (destruct s; reflexivity).
    destruct (negb ok); [exists (s_os s); rewrite Id; reflexivity|].
    destruct (negb (is_good i')); [exists (s_os s); rewrite Id; reflexivity|].
    destruct (short_escape cp) as [e|].
    + destruct (IH i' cp (output [c_bslash; e] s)) as [o ->]. eexists. reflexivity.
    + destruct (os_fail _); [eexists; reflexivity|]. destruct (IH i' cp (set_os s (put_default cf cp (s_os s)))) as [o ->]. eexists. reflexivity.
Qed.
Lemma string_os : forall x s, exists o, fst (put_string cf x s) = set_os s o.
Proof.
  intros x s. unfold put_string.
  destruct (chars_os (fuel_for x) (is_open (IStr x)) 0 (output1 cf c_quote s)) as [o E].
  destruct (put_chars cf (fuel_for x) (is_open (IStr x)) 0 (output1 cf c_quote s)) as [s1 [[]| | | |]]; cbn [fst sthen sret] in *; subst s1;
    eexists; reflexivity.
Qed.
Lemma float_wr : forall f s, wr s (fst (put_float cf f s)) /\ snd (put_float cf f s) = snd (d_float cf f).
Proof.
  intros f s. unfold put_float, d_float. destruct (f64_integral f).
  - destruct (f64_to_int64 f) as [z| | | |]; cbn [sret fst snd txt stop]; try (split; [apply wr_refl|reflexivity]).
    split; [eapply wr_trans; apply wr_output|reflexivity].
  - split; [apply wr_output|reflexivity].
Qed.

(** on a failed stream *)
Fixpoint d_dead (l : list N) (t : term) : outcome unit :=
  match l with
  | [] => match t with TEof => Ret tt | TBad c => Throw (ESer (with_code "unexpected character" c)) end
  | c :: l => match short_escape c with Some _ => d_dead l t | None => Throw (ESer (with_code "encoding failed with codepoint" c)) end
  end.
Definition dead_out (x : leaf) : outcome unit :=
  match x with
  | LStr s => let '(cps, t) := decs (val_enc cf) (val_ck cf) (S (length s)) (sis s) in d_dead cps t
  | LFloat f => snd (d_float cf f)
  end.

Lemma encode_dead : forall c o, os_fail o = true -> encode (out_enc cf) (out_ck cf) o c = o.
Proof.
  intros c o F.
  assert (P : forall u, os_put (out_ck cf) o u = o) by (intro; unfold os_put; rewrite F; reflexivity).
  assert (St : os_setfail o = o) by (destruct o; cbn in F; subst; reflexivity).
  destruct (out_enc cf); cbn [encode].
  - unfold ignore_encode. rewrite ?P. reflexivity.
  - unfold utf8_encode. repeat (rewrite ?P, ?St; match goal with |- context [if ?b then _ else _] => destruct b | _ => idtac end); rewrite ?P, ?St; reflexivity.
  - unfold utf16_encode. repeat (rewrite ?P, ?St; match goal with |- context [if ?b then _ else _] => destruct b | |- context [let '(_, _) := ?e in _] => destruct e | _ => idtac end); rewrite ?P, ?St; reflexivity.
  - unfold utf32_encode. repeat (rewrite ?P, ?St; match goal with |- context [if ?b then _ else _] => destruct b | _ => idtac end); rewrite ?P, ?St; reflexivity.
Qed.

Lemma default_dead : forall c o, os_fail o = true -> put_default cf c o = o.
Proof.
  intros c o F. assert (W : forall w, os_write o w = o) by (intro; unfold os_write; rewrite F; reflexivity).
  unfold put_default. destruct ((c <=? 31) || (s_esc cf && (127 <=? c))); [|apply encode_dead; assumption].
  destruct (c <=? 65535); [apply W|]. destruct (encode_surrogates c). rewrite !W. reflexivity.
Qed.

Lemma dead_chars : forall i l t, feeds (val_enc cf) (val_ck cf) i l t -> forall fuel, (length l < fuel)%nat ->
  forall cur s, os_fail (s_os s) = true -> exists s', put_chars cf fuel i cur s = (s', d_dead l t) /\ s_os s' = s_os s.
Proof.
  intros i l t F. induction F as [i i' H|i c i' H G|i c i' l t H G F IH]; intros fuel L cur s D;
    (destruct fuel as [|fuel]; [cbn in L; lia|]); cbn [put_chars].
  - destruct (H cur) as [x ->]. exists s. split; reflexivity.
  - rewrite (H cur). cbn [negb]. rewrite G. exists s. split; reflexivity.
  - rewrite (H cur). cbn [negb]. rewrite G. cbn [negb d_dead]. destruct (short_escape c) as [e|].
    + assert (E : s_os (output [c_bslash; e] s) = s_os s) by (cbn [output set_os s_os]; unfold os_write; rewrite D; reflexivity).
      destruct (IH fuel ltac:(cbn in L; lia) c (output [c_bslash; e] s)) as (s' & E' & O); [rewrite E; assumption|]. exists s'. rewrite E', O, E. auto.
    + cbn [set_os s_os]. rewrite default_dead by assumption. rewrite D. eexists. split; reflexivity.
Qed.

Lemma dead_string : forall x s, os_fail (s_os s) = true ->
  exists s', put_string cf x s = (s', dead_out (LStr x)) /\ s_os s' = s_os s.
Proof.
  intros x s D. unfold put_string, dead_out.
  destruct (feeds_string (val_enc cf) (val_ck cf) x) as (l & tm & F & L). rewrite (decs_feeds _ _ _ _ _ F) by lia.
  assert (E : forall s, os_fail (s_os s) = true -> s_os (output1 cf c_quote s) = s_os s)
    by (intros s0 D0; cbn [output1 set_os s_os]; unfold os_put; rewrite D0; reflexivity).
  destruct (dead_chars _ _ _ F (fuel_for x) ltac:(unfold fuel_for; lia) 0 (output1 cf c_quote s)) as (s1 & E1 & O1); [rewrite E; assumption|].
  change (is_open (IStr x)) with (sis x). rewrite E1. rewrite E in O1 by assumption.
  destruct (d_dead l tm) as [[]| | | |]; cbn [sthen sret]; eexists; (split; [reflexivity|]); rewrite ?E; rewrite ?O1; auto.
Qed.

(** both *)
Definition leaf_o (b : bool) (x : leaf) : outcome unit := if b then dead_out x else leaf_out cf x.

Lemma string_go : forall b x D s, safe D s -> s_began s = false -> os_fail (s_os s) = b ->
  let r := put_string cf x s in
  snd r = leaf_o b (LStr x) /\ safe D (fst r) /\ s_began (fst r) = false /\ s_last (fst r) = s_last s /\
  (snd r = Ret tt -> os_fail (s_os (fst r)) = b).
Proof.
  intros b x D s S B F r. destruct (string_os x s) as [o E].
  assert (C : safe D (fst r) /\ s_began (fst r) = false /\ s_last (fst r) = s_last s) by (unfold r; rewrite E; split; [exact S|auto]).
  assert (X : snd r = leaf_o b (LStr x) /\ (snd r = Ret tt -> os_fail (s_os (fst r)) = b)).
  { destruct b.
    - unfold r. destruct (dead_string x s F) as (s' & -> & O). cbn [fst snd]. rewrite O. auto.
    - destruct S as [Sd So]. destruct s as [[u f] bg t d n]. cbn [s_began s_os os_fail s_depth s_ilen] in *. subst bg f d.
      pose proof (put_string_ok cf Hok x u t D n So) as P. unfold stt in P. fold r in P. unfold runs in P.
      cbn [leaf_o leaf_out]. destruct (d_string cf x) as [w [[]| | | |]]; cbn [fst snd] in *;
        [destruct P as (t1 & n1 & -> & _)|destruct P as (s' & -> & _)..]; cbn [fst snd]; (split; [reflexivity|]); try discriminate. reflexivity. }
  tauto.
Qed.

(** ** Values *)
Definition calm (D : N) (s : sst) : Prop := safe D s /\ s_began s = false /\ s_last s <> Tname_sep.

Fixpoint fdep (b : bool) (L : list (N * leaf)) : option N :=
  match L with
  | [] => None
  | (d, x) :: L => match leaf_o b x with Ret _ => fdep b L | _ => Some d end
  end.

Definition track (b : bool) (D : N) (r : sres) (L : list (N * leaf)) : Prop :=
  snd r = first_out (map (fun p => leaf_o b (snd p)) L) /\
  match fdep b L with
  | None => calm D (fst r) /\ os_fail (s_os (fst r)) = b
  | Some d => calm d (fst r)
  end.

Lemma fdep_none : forall b L, fdep b L = None <-> first_out (map (fun p => leaf_o b (snd p)) L) = Ret tt.
Proof.
  intros b L. induction L as [|[d x] L IH]; [split; reflexivity|]. cbn [fdep map snd]. rewrite first_cons.
  destruct (leaf_o b x) as [[]| | | |]; cbn [oseq]; [exact IH|split; discriminate..].
Qed.
Lemma fdep_app : forall b L L', fdep b (L ++ L') = match fdep b L with Some d => Some d | None => fdep b L' end.
Proof. intros b L L'. induction L as [|[d x] L IH]; [reflexivity|]. cbn [app fdep]. destruct (leaf_o b x); auto. Qed.

Lemma track_then : forall b D D' r k L L', track b D r L -> 
  (forall s, calm D s -> os_fail (s_os s) = b -> track b D' (k s) L') -> track b D' (sthen r k) (L ++ L').
Proof.
  intros b D D' [s o] k L L' [T1 T2] K. cbn [fst snd] in *. unfold track. rewrite map_app, first_app, fdep_app, <- T1.
  destruct (fdep b L) as [d|] eqn:E.
  - assert (o <> Ret tt) by (intro Q; rewrite Q in T1; symmetry in T1; apply fdep_none in T1; congruence).
    destruct o as [[]| | | |]; try congruence; cbn [sthen oseq fst snd]; auto.
  - pose proof (proj1 (fdep_none b L) E) as T. rewrite T in T1. subst o. cbn [sthen oseq]. destruct T2 as [T2 T3]. apply (K s T2 T3).
Qed.

Lemma track_ret : forall b D s, calm D s -> os_fail (s_os s) = b -> track b D (s, Ret tt) [].
Proof. intros. split; [reflexivity|]. split; assumption. Qed.

Definition kdump (b : bool) (v : value) : Prop := forall D s, safe D s -> os_fail (s_os s) = b -> track b D (do_dump cf v s) (deep D v).

Lemma track_string : forall b x D s, safe D s -> s_began s = false -> s_last s = Tstring -> os_fail (s_os s) = b ->
  track b D (put_string cf x s) [(D, LStr x)].
Proof.
  intros b x D s S B T F. destruct (string_go b x D s S B F) as (A1 & A2 & A3 & A4 & A5). unfold track. cbn [map snd fdep]. rewrite first_one.
  split; [exact A1|]. assert (C : calm D (fst (put_string cf x s))) by (split; [assumption|]; split; [assumption|]; rewrite A4, T; discriminate).
  destruct (leaf_o b (LStr x)) as [[]| | | |] eqn:E; try exact C. split; [exact C|auto].
Qed.

Lemma track_arr : forall b l, Forall (kdump b) l -> forall D s, safe D s -> os_fail (s_os s) = b -> l <> [] ->
  track b D (arr_loop cf l s) (concat (map (deep D) l)).
Proof.
  intros b l F. induction F as [|v l Hv F IH]; intros D s S Fl N; [congruence|]. cbn [arr_loop map concat].
  eapply track_then; [apply Hv; assumption|]. intros s1 C1 F1. destruct l as [|v' l].
  - apply track_ret; assumption.
  - destruct C1 as [S1 _]. destruct (went_comma D s1 S1) as (s2 & E2 & S2 & _ & _ & F2). rewrite E2. cbn [sthen]. fold (arr_loop cf).
    apply IH; [assumption|congruence|discriminate].
Qed.

Lemma track_obj : forall b m, Forall (fun p => kdump b (snd p)) m -> forall D s, safe D s -> os_fail (s_os s) = b -> m <> [] ->
  track b D (obj_loop cf m s) (concat (map (fun p => (D, LStr (fst p)) :: deep D (snd p)) m)).
Proof.
  intros b m F. induction F as [|[k v] m Hv F IH]; intros D s S Fl N; [congruence|]. cbn [obj_loop map concat fst snd app].
  destruct (went_start Tstring D s S eq_refl) as (s1 & E1 & S1 & B1 & L1 & F1); [discriminate..|]. rewrite E1. cbn [sthen].
  match goal with |- track b D ?r ((D, LStr k) :: ?x) => change (track b D r ([(D, LStr k)] ++ x)) end.
  eapply track_then; [apply track_string; [assumption..|congruence]|]. intros s2 (S2 & _) F2.
  destruct (went_colon D s2 S2) as (s3 & E3 & S3 & B3 & L3 & F3). rewrite E3. cbn [sthen].
  eapply track_then; [apply Hv; [assumption|cbn [snd]; congruence]|]. intros s4 C4 F4. destruct m as [|p m].
  - apply track_ret; assumption.
  - destruct C4 as [S4 _]. destruct (went_comma D s4 S4) as (s5 & E5 & S5 & _ & _ & F5). rewrite E5. cbn [sthen]. fold (obj_loop cf).
    apply IH; [assumption|congruence|discriminate].
Qed.

Lemma track_next : forall b t D s, safe D s -> os_fail (s_os s) = b -> starts_value t = true -> t <> Tbegin_arr -> t <> Tbegin_obj ->
  track b D (next cf t s) [].
Proof.
  intros b t D s S F T N1 N2. destruct (went_start t D s S T N1 N2) as (s1 & -> & S1 & B1 & L1 & F1). apply track_ret; [|congruence].
  split; [assumption|]. split; [assumption|]. rewrite L1. intros ->. discriminate.
Qed.

Lemma track_close : forall b t D s, calm (D + 1) s -> os_fail (s_os s) = b -> t = Tend_arr \/ t = Tend_obj -> track b D (next cf t s) [].
Proof.
  intros b t D s (S & _) F T. destruct (went_close t D s S T) as (s1 & -> & S1 & B1 & L1 & F1). apply track_ret; [|congruence].
  split; [assumption|]. split; [assumption|]. rewrite L1. destruct T as [-> | ->]; discriminate.
Qed.

Lemma track_all : forall b v, kdump b v.
Proof.
  intro b. apply value_rect2.
  - intros D s S F. apply track_next; try assumption; try reflexivity; discriminate.
  - intros z D s S F. cbn [do_dump deep]. change (@nil (N * leaf)) with (@nil (N * leaf) ++ []).
    eapply track_then; [apply track_next; try exact F; try exact S; try reflexivity; discriminate|].
    intros s1 C1 F1. destruct C1 as (S1 & B1 & L1). pose proof (wr_output (dec_of_Z z) s1) as W. destruct (wr_fields _ _ W) as (A1 & A2 & A3 & A4 & A5).
    apply track_ret; [|unfold put_integer; congruence]. split; [exact (wr_safe _ _ _ W S1)|]. unfold put_integer. rewrite A1, A2. auto.
  - intros f D s S F. cbn [do_dump deep].
    change [(D, LFloat f)] with ([] ++ [(D, LFloat f)]).
    eapply track_then; [apply track_next; try exact F; try exact S; try reflexivity; discriminate|].
    intros s1 C1 F1. destruct C1 as (S1 & B1 & L1). destruct (float_wr f s1) as [W E]. destruct (wr_fields _ _ W) as (A1 & A2 & A3 & A4 & A5).
    assert (C : calm D (fst (put_float cf f s1))) by (split; [exact (wr_safe _ _ _ W S1)|]; rewrite A1, A2; auto).
    unfold track. cbn [map snd fdep]. rewrite first_one.
    assert (Eo : leaf_o b (LFloat f) = snd (d_float cf f)) by (destruct b; reflexivity). rewrite Eo. split; [exact E|].
    destruct (snd (d_float cf f)); try exact C. split; [exact C|congruence].
  - intros x D s S F. cbn [do_dump deep].
    destruct (went_start Tstring D s S eq_refl) as (s1 & E1 & S1 & B1 & L1 & F1); [discriminate..|]. rewrite E1. cbn [sthen].
    apply track_string; [assumption..|congruence].
  - intros [] D s S F; apply track_next; try assumption; try reflexivity; discriminate.
  - intros l F D s S Fl. cbn [do_dump deep]. fold (arr_loop cf).
    destruct (went_open Tbegin_arr D s S ltac:(auto)) as (s1 & E1 & S1 & B1 & L1 & F1). rewrite E1. cbn [sthen].
    destruct l as [|v l].
    + cbn [map concat]. destruct (went_close Tend_arr D s1 S1 ltac:(auto)) as (s2 & -> & S2 & B2 & L2 & F2). apply track_ret; [|congruence].
      split; [assumption|]. split; [assumption|]. rewrite L2. discriminate.
    + rewrite <- (app_nil_r (concat _)). eapply track_then; [apply track_arr; [assumption..|congruence|discriminate]|].
      intros s2 C2 F2. apply track_close; auto.
  - intros m F D s S Fl. cbn [do_dump deep]. fold (obj_loop cf).
    destruct (went_open Tbegin_obj D s S ltac:(auto)) as (s1 & E1 & S1 & B1 & L1 & F1). rewrite E1. cbn [sthen].
    destruct m as [|p m].
    + cbn [map concat]. destruct (went_close Tend_obj D s1 S1 ltac:(auto)) as (s2 & -> & S2 & B2 & L2 & F2). apply track_ret; [|congruence].
      split; [assumption|]. split; [assumption|]. rewrite L2. discriminate.
    + rewrite <- (app_nil_r (concat _)). eapply track_then; [apply track_obj; [assumption..|congruence|discriminate]|].
      intros s2 C2 F2. apply track_close; auto.
Qed.
End Ser.
