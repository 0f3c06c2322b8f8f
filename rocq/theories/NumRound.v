(** Reading back values of other integer types. *)
From Coq Require Import Lia ZifyBool ZifyNat ZifyN Floats.SpecFloat.
From Verif Require Import Base Stream Encoding Value ValueOps Token FloatFmt Parser EncodingProofs EncodingFacts Feeds SpecUnicode SpecGrammar
  SpecText SpecRfc ObjFacts GrammarLex GrammarTok GrammarFacts NumberFacts FloatFacts RfcFacts Serializer DumpText DumpProofs SpecDump DumpFacts
  RoundTrip SpecParseHeap SpecContainer Container ContainerProofs ContainerRound DumpFail DumpMore NumType SpecNumType NumDump SpecNumRound NumLex NumParse NumIty.
Open Scope N_scope.

Section GvalInd.
Variable P : gval Z f64 -> Prop.
Hypothesis Hn : P GNull.
Hypothesis Hb : forall b, P (GBool b).
Hypothesis Hi : forall i, P (GInt i).
Hypothesis Hf : forall f, P (GFloat f).
Hypothesis Hs : forall s, P (GStr s).
Hypothesis Ha : forall l, Forall P l -> P (GArr l).
Hypothesis Ho : forall m, Forall (fun p => P (snd p)) m -> P (GObj m).
Fixpoint gval_ind2 (v : gval Z f64) : P v :=
  match v with
  | GNull => Hn | GBool b => Hb b | GInt i => Hi i | GFloat f => Hf f | GStr s => Hs s
  | GArr l => Ha l ((fix go (l : list (gval Z f64)) : Forall P l := match l with [] => Forall_nil _ | x :: r => Forall_cons x (gval_ind2 x) (go r) end) l)
  | GObj m => Ho m ((fix go (m : list (str * gval Z f64)) : Forall (fun p => P (snd p)) m := match m with [] => Forall_nil _ | x :: r => Forall_cons x (gval_ind2 (snd x)) (go r) end) m)
  end.
End GvalInd.

(** ** The serializer of Serializer.v *)
Lemma put_integer_same : forall t cf z s, by_number t cf -> n_put_integer t cf z s = put_integer z s.
Proof. intros t cf z s [H|H]; unfold n_put_integer; destruct (out_ck cf); try reflexivity; [|congruence]. destruct (N.leb_spec (t_bits t) 8); [lia|reflexivity]. Qed.
Lemma n_dump_same : forall t cf, by_number t cf -> forall v s, n_dump t cf v s = do_dump cf (emb v) s.
Proof.
  intros t cf B v. induction v as [|b|i|f|x|l IH|m IH] using gval_ind2; intro s; try reflexivity.
  - cbn [n_dump do_dump emb]. destruct (next cf Tint s) as [s' []]; try reflexivity. cbn [sthen]. rewrite put_integer_same by assumption. reflexivity.
  - cbn [n_dump do_dump emb]. destruct (next cf Tbegin_arr s) as [s1 []]; cbn [sthen]; try reflexivity. destruct l as [|x l]; [reflexivity|]. cbn [map].
    f_equal. revert x s1 IH. induction l as [|y l IHl]; intros x s1 IH; inversion IH as [|? ? X1 X2]; subst.
    + cbn [map]. rewrite X1. reflexivity.
    + rewrite X1. destruct (do_dump cf (emb x) s1) as [s2 []]; cbn [sthen]; try reflexivity. cbn [map]. destruct (next cf Tval_sep s2) as [s3 []]; cbn [sthen]; try reflexivity.
      apply (IHl y s3 X2).
  - cbn [n_dump do_dump emb]. destruct (next cf Tbegin_obj s) as [s1 []]; cbn [sthen]; try reflexivity. destruct m as [|x m]; [reflexivity|]. cbn [map].
    f_equal. revert x s1 IH. induction m as [|y m IHm]; intros [k x] s1 IH; inversion IH as [|? ? X1 X2]; subst; cbn [fst snd] in *.
    + cbn [map]. destruct (next cf Tstring s1) as [s2 []]; cbn [sthen]; try reflexivity. destruct (put_string cf k s2) as [s3 []]; cbn [sthen]; try reflexivity.
      destruct (next cf Tname_sep s3) as [s4 []]; cbn [sthen]; try reflexivity. rewrite X1. reflexivity.
    + destruct (next cf Tstring s1) as [s2 []]; cbn [sthen]; try reflexivity. destruct (put_string cf k s2) as [s3 []]; cbn [sthen]; try reflexivity.
      destruct (next cf Tname_sep s3) as [s4 []]; cbn [sthen]; try reflexivity. rewrite X1. destruct (do_dump cf (emb x) s4) as [s5 []]; cbn [sthen]; try reflexivity.
      cbn [map]. destruct (next cf Tval_sep s5) as [s6 []]; cbn [sthen]; try reflexivity. apply (IHm y s6 X2).
Qed.
Lemma n_dump_string_same : forall t cf v, by_number t cf -> n_dump_string t cf v = dump_string cf (emb v).
Proof.
  intros t cf v B. unfold n_dump_string, dump_string, dump_to. rewrite n_dump_same by assumption. destruct (do* s := do_dump cf (emb v) (init_sst cf (mkOs [] false)) in next cf Teoi s) as [s r].
  destruct (handle HNone r) as [o m]. reflexivity.
Qed.

(** ** Numerals *)
Section Text.
Variable t : ity.
Hypothesis Hc : cpp_ity t.
Notation T := (num_of t).
Variables (pc : pcfg) (cf : scfg).
Hypothesis Hval : enc_ok (val_enc cf) (val_ck cf) = true.
Hypothesis Tc : tgt_ck pc = val_ck cf.
Hypothesis Te : tgt_enc pc = val_enc cf.
Variable la : layout.
Hypothesis Wnl : ws (nl la).
Hypothesis Wind : forall d, ws (ind la d).
Hypothesis Wsp : ws (sp la).
Notation A := SpecRfc.plain.
Notation mk := (made SpecRfc.plain cf).

Lemma unsigned_numeral : forall b z w, numeral z w ->
  exists x, (forall l, stops (src_ck pc) l -> unsigned_lit (src_ck pc) (ndebug pc) b (w ++ l) x l) /\ l_int x /\ ascii_lit x /\ decimal x = z /\ l_neg x = b.
Proof.
  intros b z w H. destruct H as [|d ds D1 D2 F].
  - exists (mkLit b 48 [] [] None). split; [intros l [S1 S2]; apply ul_zero; assumption|]. split; [split; reflexivity|]. split; [repeat constructor; cbn; lia|]. split; reflexivity.
  - exists (mkLit b d ds [] None). split; [intros l [S1 S2]|].
    + apply ul_int; [constructor|lia| | | |]; try assumption.
      * right. apply ascii_digit_digit. unfold ascii_digit. lia.
      * eapply Forall_impl; [|exact F]. intros c X. apply ascii_digit_digit. assumption.
    + split; [split; reflexivity|]. split; [|split; [|reflexivity]].
      * unfold ascii_lit. cbn [l_first l_more]. constructor; [lia|]. eapply Forall_impl; [|exact F]. unfold ascii_digit. intros; lia.
      * unfold decimal. cbn [l_first l_more]. symmetry. apply ten_cons; [unfold ascii_digit; lia|assumption].
Qed.
Lemma fits_gives : forall x z, l_int x -> fits t x -> signed_decimal x = z -> gives T (LNum x) (GInt z).
Proof.
  intros x z L F <-. apply fit_gives; [assumption| |constructor; assumption]. apply gi_num. apply z_int; [assumption|reflexivity].
Qed.
Lemma int_says : forall z w, (t_min t <= z <= t_max t)%Z -> (wide t -> z <> t_min t) -> int_text z w ->
  mk w w /\ exists x, gives T (LNum x) (GInt z) /\ forall l, stops (src_ck pc) l -> number_lit (src_ck pc) (ndebug pc) (w ++ l) x l.
Proof.
  intros z w R M H. pose proof (cpp_sound t Hc) as So. destruct H as [z w Nu|z w Ng Nu].
  - split; [apply made_ascii; eapply numeral_128; eassumption|]. destruct (unsigned_numeral false z w Nu) as (x & U & L & As & D & Ne). exists x. split.
    + apply fits_gives; [assumption| |unfold signed_decimal; rewrite Ne; assumption]. split; [assumption|]. split; [lia|]. intros _. unfold signed_decimal. rewrite Ne. lia.
    + intros l S. specialize (U l S). destruct Nu as [|d ds D1 D2 F]; apply nl_plain; try lia; exact U.
  - split; [apply made_ascii; constructor; [lia|eapply numeral_128; eassumption]|]. destruct (unsigned_numeral true (- z)%Z w Nu) as (x & U & L & As & D & Ne). exists x. split.
    + destruct (wide_dec t) as [W|W].
      * apply fits_gives; [assumption| |unfold signed_decimal; rewrite Ne; lia]. pose proof (cpp_min t (proj1 W) So). specialize (M W). split; [assumption|]. split; [lia|]. intros _. unfold signed_decimal. rewrite Ne. lia.
      * apply gi_num. apply narrow_int; [assumption|assumption|assumption|]. f_equal. unfold signed_decimal. rewrite Ne, D. rewrite wrap_id by (try assumption; lia). lia.
    + intros l S. apply nl_minus. apply U. assumption.
Qed.

(** ".0" after a numeral *)
Lemma unsigned_point : forall b z w, numeral z w ->
  exists x, (forall l, stops (src_ck pc) l -> unsigned_lit (src_ck pc) (ndebug pc) b (w ++ [46; 48] ++ l) x l) /\
    l_frac x = [48] /\ l_exp x = None /\ ascii_lit x /\ decimal x = z /\ l_neg x = b.
Proof.
  assert (Fl : forall l, stops (src_ck pc) l -> fraction_lit (src_ck pc) (48 :: l) ([48], None) l).
  { intros l [S1 S2]. apply (fl (src_ck pc) 48 [] l None l); [|assumption|].
    - constructor; [|constructor]. apply ascii_digit_digit. unfold ascii_digit. lia.
    - apply el_none. apply (stops_exp (src_ck pc)). split; assumption. }
  intros b z w H. destruct H as [|d ds D1 D2 F].
  - exists (mkLit b 48 [] [48] None). split; [intros l S; apply ul_zero_frac; apply Fl; assumption|]. repeat split. repeat constructor; cbn; lia.
  - exists (mkLit b d ds [48] None). split; [intros l S|].
    + cbn [app]. eapply ul_frac; [constructor|lia| | |apply Fl; assumption].
      * right. apply ascii_digit_digit. unfold ascii_digit. lia.
      * eapply Forall_impl; [|exact F]. intros c X. apply ascii_digit_digit. assumption.
    + split; [reflexivity|]. split; [reflexivity|]. split; [|split; [|reflexivity]].
      * unfold ascii_lit. cbn [l_first l_more]. constructor; [lia|]. eapply Forall_impl; [|exact F]. unfold ascii_digit. intros; lia.
      * unfold decimal. cbn [l_first l_more]. symmetry. apply ten_cons; [unfold ascii_digit; lia|assumption].
Qed.
Lemma point_gives : forall x, l_frac x = [48] -> l_exp x = None -> ascii_lit x -> (decimal x <= t_max t)%Z ->
  gives T (LNum x) (GFloat (let f := frac_value (d_of_Z (decimal x)) dtenth [48] in if l_neg x then SFopp f else f)).
Proof.
  intros x Fr Ex As B. assert (Ni : ~ l_int x) by (intros [L _]; congruence).
  apply fit_gives; [assumption| |constructor; split; [assumption|]; split; [assumption|intro; contradiction]]. apply gi_num.
  apply (st_float num_z x (decimal x) _ Ni); [apply z_whole|]. rewrite Fr, Ex. reflexivity.
Qed.
Lemma float_says : forall f w, ok_float f -> (forall z, is_int f z -> (Z.abs z <= t_max t)%Z) -> float_text (s_ff cf) (s_prec cf) f w ->
  mk w w /\ (exists c w', w = c :: w' /\ (c = 45 \/ 48 <= c <= 57)) /\
  exists x, gives T (LNum x) (GFloat f) /\ forall l, stops (src_ck pc) l -> number_lit (src_ck pc) (ndebug pc) (w ++ l) x l.
Proof.
  intros f w O Mx H. destruct (float_rfc SpecRfc.plain cf f w O H) as [_ Mk]. split; [exact Mk|]. destruct O as (V & Nz & z & Iz & Bz). specialize (Mx z Iz).
  inversion H as [z' w' Iz' Bz' Tx|Ni _]; subst; [|exfalso; exact (Ni z Iz)].
  assert (z' = z) by (destruct (int_integral f z Iz), (int_integral f z' Iz'); congruence). subst z'.
  assert (Fin : forall g, g = f \/ g = SFopp f -> g <> S754_zero true ->
    match g with S754_finite _ _ _ | S754_zero false => True | _ => False end).
  { intros g [->| ->] Ng; destruct f as [[]|[]| |[] m e]; cbn in *; try contradiction; try exact Logic.I; try congruence. }
  assert (Zero : z = 0%Z -> f = S754_zero false).
  { intros ->. destruct f as [[]|[]| |s m e]; cbn [is_int] in Iz; try contradiction; [reflexivity|].
    exfalso. assert (R : (Z.neg m = - Z.pos m)%Z) by reflexivity. destruct (Z.leb_spec 0 e) as [L|L].
    - pose proof (Z.pow_pos_nonneg 2 e ltac:(lia) L). destruct s; nia.
    - destruct s; lia. }
  assert (Fz : Forall (fun d => d = 48) [48]) by (repeat constructor).
  destruct Tx as [z w Nm|z w Neg Nm].
  - split; [destruct Nm; eexists _, _; (split; [reflexivity|]); lia|].
    assert (E : d_of_Z z = f).
    { destruct (Z.eq_dec z 0) as [Ez|Ez]; [rewrite (Zero Ez), Ez; reflexivity|]. apply d_of_Z_exact; assumption. }
    assert (Fr : frac_value (d_of_Z z) dtenth [48] = f) by (rewrite E; apply zero_fraction; [apply Fin; auto|assumption]).
    destruct (unsigned_point false z w Nm) as (x & U & X1 & X2 & As & D & Ne). exists x. split.
    + pose proof (point_gives x X1 X2 As ltac:(lia)) as G. rewrite Ne, D, Fr in G. exact G.
    + intros l S. specialize (U l S). rewrite <- app_assoc. destruct Nm; apply nl_plain; try lia; exact U.
  - split; [eexists _, _; (split; [reflexivity|]); lia|].
    assert (Vo : valid (SFopp f)) by (unfold valid; destruct f as [[]|[]| |[] m e]; exact V).
    assert (E : d_of_Z (- z) = SFopp f) by (apply d_of_Z_exact; [assumption|apply opp_int; assumption|lia]).
    assert (Fr : frac_value (d_of_Z (- z)) dtenth [48] = SFopp f).
    { rewrite E. apply zero_fraction; [apply Fin; [auto|]|assumption]. intro X. destruct f; try discriminate. cbn [is_int] in Iz. lia. }
    destruct (unsigned_point true (- z)%Z w Nm) as (x & U & X1 & X2 & As & D & Ne). exists x. split.
    + pose proof (point_gives x X1 X2 As ltac:(lia)) as G. rewrite Ne, D, Fr in G. cbv zeta in G. rewrite opp_opp in G. exact G.
    + intros l S. rewrite <- app_assoc. cbn [app]. apply nl_minus. apply (U l S).
Qed.

Notation em := (fun p : str * gval Z f64 => (fst p, emb (snd p))).
Lemma rend_says :
  (forall d v w, rend (unit_string cf) (float_text (s_ff cf) (s_prec cf)) la d v w -> forall g0, v = emb g0 -> plain_val t cf g0 ->
     exists L dd, mk L w /\ gives T dd g0 /\ forall g l, ws g -> stops (src_ck pc) l -> says pc (g ++ L ++ l) dd l) /\
  (forall d vs w, rend_elems (unit_string cf) (float_text (s_ff cf) (s_prec cf)) la d vs w -> forall gs, vs = map emb gs -> Forall (plain_val t cf) gs ->
     exists L ds, mk L w /\ gives_all T ds gs /\ forall t l, ws t -> says_elems pc (L ++ t ++ 93 :: l) ds l) /\
  (forall d m w, rend_members (unit_string cf) (float_text (s_ff cf) (s_prec cf)) la d m w -> forall gm, m = map em gm ->
     Forall (fun p => ok_string A cf (fst p) /\ plain_val t cf (snd p)) gm ->
     exists L ms, mk L w /\ gives_members T ms gm /\ forall t l, ws t -> says_members pc (L ++ t ++ 125 :: l) ms l).
Proof.
  assert (Cl : forall g c w l, ws g -> c <> 32 -> c <> 9 -> c <> 10 -> c <> 13 -> c <> 47 -> blank (g ++ (c :: w) ++ l) ((c :: w) ++ l)).
  { intros. apply clean_blank; [assumption|]. eexists _, _. split; [reflexivity|]. unfold space. lia. }
  assert (St : forall t c l, ws t -> c < 48 \/ (57 < c < 256) -> c <> 46 -> c <> 101 -> c <> 69 -> stops (src_ck pc) (t ++ c :: l)).
  { intros. apply stops_ws; [assumption|]. apply stops_cons; assumption. }
  assert (Bl : forall t c l, ws t -> c <> 32 -> c <> 9 -> c <> 10 -> c <> 13 -> c <> 47 -> blank (t ++ c :: l) (c :: l)).
  { intros. apply ws_blank; [assumption|unfold space; lia|assumption]. }
  assert (Asc : forall c, c < 128 -> mk [c] [c]) by (intros; apply made_ascii; repeat constructor; assumption).
  assert (Mws : forall g, ws g -> mk g g) by (intros g W; apply made_ascii; eapply Forall_impl; [|exact W]; cbv beta; intros; lia).
  assert (Wap : forall a b, ws a -> ws b -> ws (a ++ b)) by (intros; apply Forall_app; split; assumption).
  apply (rend_mutind (unit_string cf) (float_text (s_ff cf) (s_prec cf)) la
    (fun d v w _ => forall g0, v = emb g0 -> plain_val t cf g0 ->
       exists L dd, mk L w /\ gives T dd g0 /\ forall g l, ws g -> stops (src_ck pc) l -> says pc (g ++ L ++ l) dd l)
    (fun d vs w _ => forall gs, vs = map emb gs -> Forall (plain_val t cf) gs ->
       exists L ds, mk L w /\ gives_all T ds gs /\ forall t l, ws t -> says_elems pc (L ++ t ++ 93 :: l) ds l)
    (fun d m w _ => forall gm, m = map em gm -> Forall (fun p => ok_string A cf (fst p) /\ plain_val t cf (snd p)) gm ->
       exists L ms, mk L w /\ gives_members T ms gm /\ forall t l, ws t -> says_members pc (L ++ t ++ 125 :: l) ms l)).
  - intros d [] E O; inversion E; subst. eexists _, (LVal VNull). split; [apply made_ascii; repeat constructor|]. split; [constructor|].
    intros g l Wg S. eapply sy_lit; [apply Cl; [assumption|lia..]|].
    apply li_null with (w := [117; 108; 108]). destruct (src_ck pc); reflexivity.
  - intros d [] E O; inversion E; subst. eexists _, (LVal (VBool true)). split; [apply made_ascii; repeat constructor|]. split; [constructor|].
    intros g l Wg S. eapply sy_lit; [apply Cl; [assumption|lia..]|].
    apply li_true with (w := [114; 117; 101]). destruct (src_ck pc); reflexivity.
  - intros d [] E O; inversion E; subst. eexists _, (LVal (VBool false)). split; [apply made_ascii; repeat constructor|]. split; [constructor|].
    intros g l Wg S. eapply sy_lit; [apply Cl; [assumption|lia..]|].
    apply li_false with (w := [97; 108; 115; 101]). destruct (src_ck pc); reflexivity.
  - intros d z w H [] E O; inversion E; subst. inversion O; subst. destruct (int_says _ w ltac:(eassumption) ltac:(eassumption) H) as (M & x & G & X). exists w, (LNum x).
    split; [assumption|]. split; [assumption|]. intros g l Wg S. eapply sy_num; [|apply X; assumption]. apply clean_blank; [assumption|].
    destruct H as [? ? Nu|? ? Ng Nu]; [destruct Nu|]; eexists _, _; (split; [reflexivity|]); unfold space; lia.
  - intros d f w H [] E O; inversion E; subst. inversion O; subst. destruct (float_says _ w ltac:(eassumption) ltac:(eassumption) H) as (M & (c & w' & Ew & Rc) & x & G & X).
    exists w, (LNum x). split; [assumption|]. split; [assumption|]. intros g l Wg S. eapply sy_num; [|apply X; assumption]. apply clean_blank; [assumption|].
    rewrite Ew. eexists _, _; (split; [reflexivity|]); unfold space; lia.
  - intros d s w H [] E O; inversion E; subst. inversion O; subst. destruct (string_writes pc cf Hval Tc Te _ w ltac:(eassumption) H) as (L & M & C & X). exists L. eexists (LStr _).
    split; [assumption|]. split; [constructor|]. intros g l Wg S. eapply sy_str; [apply clean_blank; eassumption|apply X].
  - intros d [] E O; inversion E as [E']. destruct l as [|? l]; [|discriminate]. exists (91 :: (nl la ++ ind la d) ++ [93]), (LArr []). split; [|split; [repeat constructor|]].
    + rewrite <- app_assoc. apply made_cons; [lia|]. apply made_app; [apply Mws; auto|]. apply made_app; [apply Mws; auto|]. apply Asc. lia.
    + intros g l Wg S. eapply sy_arr with (l1 := (nl la ++ ind la d) ++ 93 :: l).
      * replace (((nl la ++ ind la d) ++ 93 :: l)) with ((((nl la ++ ind la d) ++ [93]) ++ l)) by (rewrite <- app_assoc; reflexivity).
        apply Cl; [assumption|lia..].
      * apply se_end. apply Bl; [apply Wap; auto|lia..].
  - intros d v vs w H IH [] E O; inversion E as [E']. inversion O; subst. destruct (IH _ E' ltac:(assumption)) as (L & ds & M & G & X).
    exists (91 :: (L ++ nl la ++ ind la d) ++ [93]), (LArr ds). split; [|split; [constructor; assumption|]].
    + rewrite <- !app_assoc. apply made_cons; [lia|]. apply made_app; [exact M|]. apply made_app; [apply Mws; auto|].
      apply made_app; [apply Mws; auto|]. apply Asc. lia.
    + intros g l0 Wg S. eapply sy_arr; [|apply (X (nl la ++ ind la d) l0); apply Wap; auto].
      replace (L ++ (nl la ++ ind la d) ++ 93 :: l0) with (((L ++ nl la ++ ind la d) ++ [93]) ++ l0) by (rewrite <- !app_assoc; reflexivity).
      apply Cl; [assumption|lia..].
  - intros d [] E O; inversion E as [E']. destruct m as [|? m]; [|discriminate]. exists (123 :: (nl la ++ ind la d) ++ [125]), (LObj []). split; [|split].
    + rewrite <- app_assoc. apply made_cons; [lia|]. apply made_app; [apply Mws; auto|]. apply made_app; [apply Mws; auto|]. apply Asc. lia.
    + eapply gi_obj; [constructor|]. apply obj_of_any_iff. reflexivity.
    + intros g l Wg S. eapply sy_obj with (l1 := (nl la ++ ind la d) ++ 125 :: l).
      * replace (((nl la ++ ind la d) ++ 125 :: l)) with ((((nl la ++ ind la d) ++ [125]) ++ l)) by (rewrite <- app_assoc; reflexivity).
        apply Cl; [assumption|lia..].
      * apply sm_end. apply Bl; [apply Wap; auto|lia..].
  - intros d p m w H IH [] E O; inversion E as [E']. inversion O as [| | | | | |? So Fo]; subst. destruct (IH _ E' Fo) as (L & ms & M & G & X).
    exists (123 :: (L ++ nl la ++ ind la d) ++ [125]), (LObj ms). split; [|split].
    + rewrite <- !app_assoc. apply made_cons; [lia|]. apply made_app; [exact M|]. apply made_app; [apply Mws; auto|].
      apply made_app; [apply Mws; auto|]. apply Asc. lia.
    + eapply gi_obj; [eassumption|]. split; [assumption|]. reflexivity.
    + intros g l Wg S. eapply sy_obj; [|apply (X (nl la ++ ind la d) l); apply Wap; auto].
      replace (L ++ (nl la ++ ind la d) ++ 125 :: l) with (((L ++ nl la ++ ind la d) ++ [125]) ++ l) by (rewrite <- !app_assoc; reflexivity).
      apply Cl; [assumption|lia..].
  - intros d v w H IH [|g0 [|]] E O; try discriminate. inversion E. inversion O; subst. destruct (IH g0 eq_refl ltac:(assumption)) as (L & dd & M & G & X).
    exists ((nl la ++ ind la d) ++ L), [dd]. split; [|split; [constructor; [assumption|constructor]|]].
    + rewrite <- app_assoc. apply made_app; [apply Mws; auto|]. apply made_app; [apply Mws; auto|]. exact M.
    + intros t0 l Wt. rewrite <- (app_assoc (nl la ++ ind la d)). eapply se_last; [apply X; [apply Wap; auto|]|apply Bl; [assumption|lia..]].
      apply St; [assumption|lia..].
  - intros d v w v' vs ws0 H IH H2 IH2 [|g0 gs] E O; [discriminate|]. inversion E as [[E1 E2]]. inversion O; subst. destruct (IH g0 eq_refl ltac:(assumption)) as (L & dd & M & G & X).
    destruct (IH2 gs E2 ltac:(assumption)) as (L2 & ds & M2 & G2 & X2). exists ((nl la ++ ind la d) ++ L ++ 44 :: L2), (dd :: ds). split; [|split; [constructor; assumption|]].
    + rewrite <- app_assoc. apply made_app; [apply Mws; auto|]. apply made_app; [apply Mws; auto|]. apply made_app; [exact M|]. apply made_cons; [lia|exact M2].
    + intros t0 l Wt. rewrite <- (app_assoc (nl la ++ ind la d)), <- (app_assoc L). cbn [app].
      eapply se_more; [apply X; [apply Wap; auto|]|apply (Bl []); [constructor|lia..]|apply X2; assumption].
      apply (St []); [constructor|lia..].
  - intros d k wk v w Hk H IH [|[k0 g0] [|]] E O; try discriminate. inversion E. inversion O as [|? ? [Ok Ov] _]; subst. cbn [fst snd] in *.
    destruct (string_writes pc cf Hval Tc Te k0 wk Ok Hk) as (Lk & Mk & Ck & Xk). destruct (IH g0 eq_refl Ov) as (L & dd & M & G & X).
    exists ((nl la ++ ind la d) ++ Lk ++ 58 :: sp la ++ L), [(k0, dd)]. split; [|split; [constructor; [assumption|constructor]|]].
    + rewrite <- app_assoc. apply made_app; [apply Mws; auto|]. apply made_app; [apply Mws; auto|].
      apply made_app; [exact Mk|]. apply made_cons; [lia|]. apply made_app; [apply Mws; auto|exact M].
    + intros t0 l Wt. rewrite <- (app_assoc (nl la ++ ind la d)), <- (app_assoc Lk). cbn [app]. rewrite <- (app_assoc (sp la)).
      eapply sm_last; [apply clean_blank; [apply Wap; auto|exact Ck]|apply Xk|apply (Bl []); [constructor|lia..]|apply X; [assumption|]|apply Bl; [assumption|lia..]].
      apply St; [assumption|lia..].
  - intros d k wk v w p m ws0 Hk H IH H2 IH2 [|[k0 g0] gm] E O; [discriminate|]. inversion E as [[E1 E2 E3]]. inversion O as [|? ? [Ok Ov] O2]; subst. cbn [fst snd] in *.
    destruct (string_writes pc cf Hval Tc Te k0 wk Ok Hk) as (Lk & Mk & Ck & Xk). destruct (IH g0 eq_refl Ov) as (L & dd & M & G & X).
    destruct (IH2 gm E3 O2) as (L2 & ms & M2 & G2 & X2).
    exists ((nl la ++ ind la d) ++ Lk ++ 58 :: sp la ++ L ++ 44 :: L2), ((k0, dd) :: ms). split; [|split; [constructor; assumption|]].
    + rewrite <- app_assoc. apply made_app; [apply Mws; auto|]. apply made_app; [apply Mws; auto|].
      apply made_app; [exact Mk|]. apply made_cons; [lia|]. apply made_app; [apply Mws; auto|]. apply made_app; [exact M|]. apply made_cons; [lia|exact M2].
    + intros t0 l Wt. rewrite <- (app_assoc (nl la ++ ind la d)), <- (app_assoc Lk). cbn [app]. rewrite <- (app_assoc (sp la)), <- (app_assoc L). cbn [app].
      eapply sm_more; [apply clean_blank; [apply Wap; auto|exact Ck]|apply Xk|apply (Bl []); [constructor|lia..]|apply X; [assumption|]|apply (Bl []); [constructor|lia..]|apply X2; assumption].
      apply (St []); [constructor|lia..].
Qed.
End Text.

Lemma n_round : forall t pc cf v w, cpp_ity t -> by_number t cf -> reads pc cf -> enc_ok (out_enc cf) (out_ck cf) = true -> enc_ok (val_enc cf) (val_ck cf) = true ->
  (out_enc cf = Ignore -> s_esc cf = true) -> blank_indent cf -> plain_val t cf v -> n_dump_string t cf v = Ret w ->
  n_parse_string (num_of t) pc w = Ret v.
Proof.
  intros t pc cf v w Hc Bn (R1 & R2 & R3 & R4) Ho Hv Ig B O D. rewrite n_dump_string_same in D by assumption.
  apply dump_string_ret in D; [|assumption]. apply d_val_iff in D. destruct (lay_ws cf B) as (W1 & W2 & W3).
  destruct (proj1 (rend_says t Hc pc cf Hv R3 R4 (lay cf) W1 W2 W3) 0 (emb v) w D v eq_refl O) as (L & d & [M P] & G & X).
  pose proof (plain_feeds cf L w Ho Ig M P) as F. apply (n_string_iff (num_of t) pc w L TEof v); [rewrite R3, R4; assumption|rewrite R1, R2; assumption|].
  exists d, []. split; [|split; [left; reflexivity|assumption]].
  apply sd_end with (l1 := []); [|apply bl_none; exact Logic.I]. specialize (X [] [] ltac:(constructor) (stops_nil _)). cbn [app] in X.
  rewrite app_nil_r in X. exact X.
Qed.

Lemma plain_leaves : forall t cf v, enc_ok (out_enc cf) (out_ck cf) = true -> enc_ok (val_enc cf) (val_ck cf) = true -> wide_out cf ->
  (out_enc cf = Ignore -> s_esc cf = true) -> plain_val t cf v -> Forall (fun l => ~ bad_leaf cf l) (leaves (emb v)).
Proof.
  intros t cf v Ho Hv W Ig. induction v as [|b|i|f|x|l IH|m IH] using gval_ind2; intro P; inversion P as [| | |? Pf Pb|? Ps|? Pl|? So Pm]; subst; cbn [emb leaves]; try constructor.
  - intro Bd. destruct Pf as (V & Nz & z & Iz & Bz). inversion Bd as [| | |? z' Iz' Bz']; subst; [destruct Iz|].
    assert (z' = z) by (destruct (int_integral f z Iz), (int_integral f z' Iz'); congruence). subst z'. apply Bz'. unfold int64. lia.
  - constructor.
  - apply (ok_str_good SpecRfc.plain); assumption.
  - constructor.
  - induction IH as [|v l H IH IHl]; cbn [map flat_map]; [constructor|]. inversion Pl; subst. apply Forall_app. split; [auto|]. apply IHl; [constructor; assumption|assumption].
  - clear P So. induction IH as [|[k v] m H IH IHm]; cbn [map flat_map]; [constructor|]. inversion Pm as [|? ? [Pk Pv] Pm']; subst. cbn [fst snd] in *.
    apply Forall_app. split; [|auto]. constructor; [apply (ok_str_good SpecRfc.plain); assumption|auto].
Qed.
Lemma n_round_all : forall t pc cf v, cpp_ity t -> by_number t cf -> reads pc cf -> enc_ok (out_enc cf) (out_ck cf) = true -> enc_ok (val_enc cf) (val_ck cf) = true ->
  wide_out cf -> (out_enc cf = Ignore -> s_esc cf = true) -> blank_indent cf -> plain_val t cf v ->
  exists w, n_dump_string t cf v = Ret w /\ n_parse_string (num_of t) pc w = Ret v.
Proof.
  intros t pc cf v Hc Bn R Ho Hv W Ig B P. destruct (proj2 (dump_returns cf Ho (emb v)) (plain_leaves t cf v Ho Hv W Ig P)) as [w D].
  exists w. rewrite n_dump_string_same by assumption. split; [assumption|]. eapply n_round; try eassumption. rewrite n_dump_string_same by assumption. assumption.
Qed.

(** ** What is false *)
Lemma wrap_meaning : forall t z i, cpp_ity t ->
  (i = t_wrap t z <-> (t_min t <= i <= t_max t)%Z /\ exists k, z = (i + k * 2 ^ Z.of_N (t_bits t))%Z).
Proof.
  intros t z i Hc. pose proof (cpp_sound t Hc) as So. change (2 ^ Z.of_N (t_bits t))%Z with (t_mod t). destruct (mod_pos t So) as [M _]. split.
  - intros ->. split; [apply wrap_range; assumption|]. pose proof (wrap_mod t So z) as E. exists (z / t_mod t - t_wrap t z / t_mod t)%Z.
    pose proof (Z.div_mod z (t_mod t) ltac:(lia)). pose proof (Z.div_mod (t_wrap t z) (t_mod t) ltac:(lia)). rewrite E in *. lia.
  - intros [R [k ->]]. rewrite <- (wrap_id t So i R) at 1. apply wrap_eq. rewrite Z_mod_plus_full. reflexivity.
Qed.
Lemma float_refuted : ~ forall t t' cf s f f', cpp_ity t -> cpp_ity t' ->
  n_parse_string (num_of t) cf s = Ret (GFloat f) -> n_parse_string (num_of t') cf s = Ret (GFloat f') -> f = f'.
Proof.
  intro H. specialize (H t_uint32 t_int64 cfg_json (chars "4294967297.5")). specialize (fun a b => H a b ltac:(unfold cpp_ity; cbn; lia) ltac:(unfold cpp_ity; cbn; lia)).
  assert (E : exists a b, n_parse_string (num_of t_uint32) cfg_json (chars "4294967297.5") = Ret (GFloat a) /\
    n_parse_string (num_of t_int64) cfg_json (chars "4294967297.5") = Ret (GFloat b) /\ a <> b).
  { eexists _, _. split; [vm_compute; reflexivity|]. split; [vm_compute; reflexivity|]. discriminate. }
  destruct E as (a & b & E1 & E2 & N). exact (N (H a b E1 E2)).
Qed.
Lemma least_refuted : ~ forall t cf pc v w, cpp_ity t -> by_number t cf -> reads pc cf -> blank_indent cf ->
  (exists z, v = GInt z /\ (t_min t <= z <= t_max t)%Z) -> n_dump_string t cf v = Ret w -> n_parse_string (num_of t) pc w = Ret v.
Proof.
  intro H. specialize (H t_int32 (ser_cfg C8 C8 fmt_default []) cfg_json (GInt (-2147483648)%Z) (chars "-2147483648")).
  enough (E : n_parse_string (num_of t_int32) cfg_json (chars "-2147483648") = Ret (GInt (-2147483648)%Z)) by (vm_compute in E; discriminate).
  apply H; [unfold cpp_ity; cbn; lia|left; reflexivity|repeat split|vm_compute; auto|eexists; split; [reflexivity|vm_compute; split; discriminate]|vm_compute; reflexivity].
Qed.
Lemma integral_refuted : exists w, n_dump_string t_int32 (ser_cfg C8 C8 fmt_default []) (GFloat (f64_of_Z 3000000000)) = Ret w /\ n_parse_string (num_of t_int32) cfg_json w = UB.
Proof. exists (chars "3000000000.0"). split; vm_compute; reflexivity. Qed.
Lemma char_refuted : exists w, n_dump_string t_int8 (ser_cfg C8 C8 fmt_default []) (GInt 5%Z) = Ret w /\ n_parse_string (num_of t_int8) cfg_json w <> Ret (GInt 5%Z).
Proof. eexists. split; [vm_compute; reflexivity|]. intro H. vm_compute in H. discriminate. Qed.
