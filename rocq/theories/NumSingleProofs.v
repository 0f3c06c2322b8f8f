(** Reading back values with float as float_type. *)
From Coq Require Import Lia ZifyBool ZifyNat ZifyN Floats.SpecFloat.
From Verif Require Import Base Stream Encoding Value ValueOps Token FloatFmt Parser EncodingProofs EncodingFacts Feeds SpecUnicode SpecGrammar
  SpecText SpecRfc ObjFacts GrammarLex GrammarTok GrammarFacts NumberFacts FloatFacts RfcFacts Serializer DumpText DumpProofs SpecDump DumpFacts
  RoundTrip SpecParseHeap SpecContainer Container ContainerProofs ContainerRound DumpFail DumpMore Cpp ConvFloat
  NumType SpecNumType NumDump SpecNumRound NumLex NumParse NumParam NumIty NumRound NumSingle SpecNumSingle.
Open Scope Z_scope.

(** ** Integers as floats of any format (FloatFacts.v) *)
Section Format.
Variables prec emax : Z.
Definition z_norm (z : Z) : spec_float := binary_normalize prec emax z 0 false.
Lemma g_canon : forall m e, bounded prec emax m e = true -> fexp prec emax (Z.pos (digits2_pos m) + e) = e /\ e <= emax - prec.
Proof.
  intros m e H. unfold bounded in H. apply andb_prop in H. destruct H as [H1 H2].
  unfold canonical_mantissa in H1. apply Zeq_bool_eq in H1. split; [assumption|]. lia.
Qed.

Lemma g_round_aux_exact : forall s m e, bounded prec emax m e = true ->
  binary_round_aux prec emax s (Z.pos m) e loc_Exact = S754_finite s m e.
Proof.
  intros s m e B. apply g_canon in B. destruct B as [B L]. unfold binary_round_aux, shr_fexp.
  cbn [Zdigits2 shr_record_of_loc]. rewrite B, Z.sub_diag. cbn [shr shr_m loc_of_shr_record round_nearest_even Zdigits2].
  rewrite B, Z.sub_diag. cbn [shr shr_m shr_record_of_loc]. replace (e <=? emax - prec) with true by lia. reflexivity.
Qed.

Lemma g_round_shift : forall s m k, bounded prec emax m (Z.pos k) = true ->
  binary_round_aux prec emax s (Z.pos (shift_pos k m)) 0 loc_Exact = S754_finite s m (Z.pos k).
Proof.
  intros s m k B. apply g_canon in B. destruct B as [B L]. unfold binary_round_aux. unfold shr_fexp at 1.
  cbn [Zdigits2 shr_record_of_loc]. rewrite digits_shift, Z.add_0_r, B, Z.sub_0_r. cbn [shr]. rewrite shr_iter.
  cbn [shr_m loc_of_shr_record round_nearest_even]. unfold shr_fexp. cbn [Zdigits2 shr_record_of_loc].
  rewrite Z.add_0_l, B, Z.sub_diag. cbn [shr shr_m]. replace (Z.pos k <=? emax - prec) with true by lia. reflexivity.
Qed.

(** a double that is an integer is the double of that integer *)
Lemma g_round_int : forall s m e z, bounded prec emax m e = true ->
  (if (0 <=? e) then Z.pos z = Z.pos m * 2 ^ e else Z.pos m = Z.pos z * 2 ^ (- e)) ->
  binary_round prec emax s z 0 = S754_finite s m e.
Proof.
  intros s m e z B H. unfold binary_round, shl_align. rewrite !Z.add_0_r, Z.sub_0_r.
  pose proof (g_canon _ _ B) as [Cm L].
  destruct e as [|k|k].
  - rewrite Z.mul_1_r in H. cbn in H. inversion H; subst. rewrite Z.add_0_r in Cm. rewrite Cm. cbv iota beta.
    apply g_round_aux_exact. assumption.
  - change (0 <=? Z.pos k) with true in H. cbv iota in H. rewrite <- shift_pos_val in H. inversion H; subst.
    rewrite digits_shift, Cm. apply g_round_shift. assumption.
  - change (0 <=? Z.neg k) with false in H. cbv iota in H. change (- Z.neg k) with (Z.pos k) in H.
    rewrite <- shift_pos_val in H. inversion H; subst. clear H.
    assert (E : fexp prec emax (Z.pos (digits2_pos z)) = Z.neg k).
    { rewrite digits_shift in Cm. rewrite <- Cm. f_equal. lia. }
    rewrite E. cbv iota beta. apply g_round_aux_exact. assumption.
Qed.

Lemma norm_exact : forall f z, valid_binary prec emax f = true -> is_int f z -> z <> 0 -> z_norm z = f.
Proof.
  intros f z V I N. destruct f as [s|s| |s m e]; cbn [is_int] in I; try contradiction.
  cbn [valid_binary] in V. unfold z_norm, binary_normalize.
  destruct (0 <=? e) eqn:E.
  - destruct s.
    + destruct z as [|p|p]; [congruence| |].
      * exfalso. assert (0 < 2 ^ e) by (apply Z.pow_pos_nonneg; lia). nia.
      * apply g_round_int; [assumption|]. rewrite E. change (Z.neg p) with (- Z.pos p) in I; change (Z.neg m) with (- Z.pos m) in I; rewrite Z.mul_opp_l in I; lia.
    + destruct z as [|p|p]; [congruence| |].
      * apply g_round_int; [assumption|]. rewrite E. assumption.
      * exfalso. assert (0 < 2 ^ e) by (apply Z.pow_pos_nonneg; lia). nia.
  - assert (0 < 2 ^ (- e)) by (apply Z.pow_pos_nonneg; lia).
    destruct s; destruct z as [|p|p]; try congruence; try (exfalso; nia).
    + apply g_round_int; [assumption|]. rewrite E. change (Z.neg p) with (- Z.pos p) in I; change (Z.neg m) with (- Z.pos m) in I; rewrite Z.mul_opp_l in I; lia.
    + apply g_round_int; [assumption|]. rewrite E. assumption.
Qed.

End Format.

(** ** Widening *)
Lemma widen_value : forall f, valid_binary 24 128 f = true -> valid_binary 53 1024 (to_double f) = true /\ forall z, is_int (to_double f) z <-> is_int f z.
Proof.
  intros [s|s| |s m e] V; try (split; [reflexivity|intro z; reflexivity]). split; [apply recast_valid; lia|].
  cbn [valid_binary] in V. apply g_canon in V. destruct V as [C L].
  assert (Dm : Z.pos (digits2_pos m) <= 24) by (unfold fexp, SpecFloat.emin in C; lia).
  assert (Le : -149 <= e) by (unfold fexp, SpecFloat.emin in C; lia).
  unfold to_double. rewrite recast_finite.
  set (e' := fexp 53 1024 (Z.pos (digits2_pos m) + e)).
  assert (E' : e' = Z.max (Z.pos (digits2_pos m) + e - 53) (-1074)) by reflexivity.
  destruct (e' - e) as [|k|k] eqn:K; [lia|lia|].
  assert (R1 : binary_round 53 1024 s m e = S754_finite s (shift_pos k m) e').
  { unfold binary_round, shl_align. fold e'. rewrite K. apply round_aux_exact. unfold bounded, canonical_mantissa. rewrite digits_shift.
    replace (Z.pos (digits2_pos m) + Z.pos k + e') with (Z.pos (digits2_pos m) + e) by lia. fold e'.
    apply andb_true_intro. split; [apply Zeq_is_eq_bool; reflexivity|lia]. }
  rewrite R1. intro z. cbn [is_int].
  assert (P : Z.pos (shift_pos k m) = Z.pos m * 2 ^ Z.pos k) by apply shift_pos_val.
  assert (Pn : Z.neg (shift_pos k m) = Z.neg m * 2 ^ Z.pos k) by (change (Z.neg (shift_pos k m)) with (- Z.pos (shift_pos k m)); rewrite P; lia).
  set (v := if s then Z.neg m else Z.pos m).
  replace (if s then Z.neg (shift_pos k m) else Z.pos (shift_pos k m)) with (v * 2 ^ Z.pos k) by (unfold v; destruct s; congruence).
  assert (Ek : e = e' + Z.pos k) by lia.
  destruct (Z.leb_spec 0 e') as [A|A]; destruct (Z.leb_spec 0 e) as [B|B]; try lia.
  - rewrite Ek, Z.pow_add_r by lia. rewrite <- Z.mul_assoc, (Z.mul_comm (2 ^ Z.pos k)). reflexivity.
  - replace (Z.pos k) with (e + (- e')) by lia. rewrite Z.pow_add_r by lia.
    assert (0 < 2 ^ (- e')) by (apply Z.pow_pos_nonneg; lia). split; intro X; nia.
  - replace (- e') with (- e + Z.pos k) by lia. rewrite Z.pow_add_r by lia.
    assert (0 < 2 ^ Z.pos k) by (apply Z.pow_pos_nonneg; lia). split; intro X; nia.
Qed.

Open Scope N_scope.
(** ** Literals *)
Lemma s_digits : forall t ds i, run_digits (num_single t) i ds = run_digits (num_of t) i ds.
Proof. reflexivity. Qed.
Lemma s_whole : forall t x, whole (num_single t) x = whole (num_of t) x.
Proof. intros. apply s_digits. Qed.
Lemma s_stands_int : forall t x z, l_int x -> stands (num_of t) x (GInt z) -> stands (num_single t) x (GInt z).
Proof.
  intros t x z L H. inversion H as [x' i j L' Wh J|]; subst. rewrite <- s_whole in Wh. exact (st_int (num_single t) x i z L Wh J).
Qed.
Section Text.
Variable t : ity.
Hypothesis Hc : cpp_ity t.
Notation T := (num_single t).
Variables (pc : pcfg) (cf : scfg).
Hypothesis Hval : enc_ok (val_enc cf) (val_ck cf) = true.
Hypothesis Tc : tgt_ck pc = val_ck cf.
Hypothesis Te : tgt_enc pc = val_enc cf.
Variable la : layout.
Hypothesis Wnl : ws (nl la).
Hypothesis Wind : forall d, ws (ind la d).
Hypothesis Wsp : ws (sp la).
Notation A := SpecRfc.plain.
Notation mk := (made SpecRfc.plain cf).

Lemma s_int_says : forall z w, (t_min t <= z <= t_max t)%Z -> (wide t -> z <> t_min t) -> int_text z w ->
  mk w w /\ exists x, gives T (LNum x) (GInt z) /\ forall l, stops (src_ck pc) l -> number_lit (src_ck pc) (ndebug pc) (w ++ l) x l.
Proof.
  intros z w R M H. destruct (int_says t Hc pc cf la Wind z w R M H) as (Mk & x & G & X). split; [assumption|]. exists x. split; [|assumption].
  inversion G as [x' v S| | | | | | ]; subst. apply gi_num. apply s_stands_int; [|assumption]. inversion S; subst; assumption.
Qed.
Lemma s_float_says : forall f z w, valid_binary 24 128 f = true -> f <> S754_zero true -> is_int f z -> (Z.abs z <= t_max t)%Z ->
  (Z.abs z < 9223372036854775808)%Z -> float_text (s_ff cf) (s_prec cf) (to_double f) w ->
  mk w w /\ (exists c w', w = c :: w' /\ (c = 45 \/ 48 <= c <= 57)) /\
  exists x, gives T (LNum x) (GFloat f) /\ forall l, stops (src_ck pc) l -> number_lit (src_ck pc) (ndebug pc) (w ++ l) x l.
Proof.
  intros f z w V Nz Iz Bt Bz H. destruct (widen_value f V) as [Vd Id].
  inversion H as [z' w' Iz' Bz' Tx|Ni _]; subst; [|exfalso; exact (Ni z (proj2 (Id z) Iz))].
  apply Id in Iz'. assert (z' = z) by (destruct (int_integral f z Iz), (int_integral f z' Iz'); congruence). subst z'.
  assert (E : forall g y, valid_binary 24 128 g = true -> g <> S754_zero true -> is_int g y -> s_of_Z y = g).
  { intros g y Vg Ng Ig. destruct (Z.eq_dec y 0) as [->|Ey].
    - destruct g as [[]|[]| |s m e]; cbn [is_int] in Ig; try contradiction; [reflexivity|].
      exfalso. assert (R : (Z.neg m = - Z.pos m)%Z) by reflexivity. destruct (Z.leb_spec 0 e) as [L|L].
      + pose proof (Z.pow_pos_nonneg 2 e ltac:(lia) L). destruct s; nia.
      + destruct s; lia.
    - apply (norm_exact 24 128); assumption. }
  assert (Fr : forall g y, valid_binary 24 128 g = true -> g <> S754_zero true -> is_int g y -> run_frac T (f_of T y) (f_tenth T) [48] = g).
  { intros g y Vg Ng Ig. cbn [run_frac f_of f_tenth f_add f_mul f_dig num_single]. rewrite (E g y Vg Ng Ig).
    replace (SFmul 24 128 (s_of_Z (Z.of_N (dval 48))) (to_single f64_tenth)) with (S754_zero false) by (vm_compute; reflexivity).
    destruct g as [[]|[]| |s m e]; cbn [is_int] in Ig; try contradiction; try congruence; reflexivity. }
  assert (Gv : forall x, l_frac x = [48] -> l_exp x = None -> ascii_lit x -> (decimal x <= t_max t)%Z ->
    gives T (LNum x) (GFloat (let g := run_frac T (f_of T (decimal x)) (f_tenth T) [48] in if l_neg x then SFopp g else g))).
  { intros x F1 F2 As B. assert (Ni : ~ l_int x) by (intros [L _]; congruence). apply gi_num.
    assert (Wx : whole T x = Some (decimal x)).
    { rewrite s_whole. apply fit_whole; [assumption|]. split; [assumption|]. split; [assumption|intro; contradiction]. }
    apply (st_float T x (decimal x) _ Ni Wx). rewrite F1, F2. reflexivity. }
  destruct Tx as [z w Nm|z w Neg Nm].
  - split; [apply made_ascii; apply Forall_app; split; [eapply numeral_128; eassumption|repeat constructor; lia]|].
    split; [destruct Nm; eexists _, _; (split; [reflexivity|]); lia|].
    destruct (unsigned_point pc cf la Wind false z w Nm) as (x & U & X1 & X2 & As & D & Ne). exists x. split.
    + pose proof (Gv x X1 X2 As ltac:(lia)) as G. rewrite Ne, D, (Fr f z V Nz Iz) in G. exact G.
    + intros l S. specialize (U l S). rewrite <- app_assoc. destruct Nm; apply nl_plain; try lia; exact U.
  - split; [apply made_ascii; cbn [app]; constructor; [lia|]; apply Forall_app; split; [eapply numeral_128; eassumption|repeat constructor; lia]|].
    split; [eexists _, _; (split; [reflexivity|]); lia|].
    assert (Vo : valid_binary 24 128 (SFopp f) = true) by (destruct f as [[]|[]| |[] m e]; exact V).
    assert (No : SFopp f <> S754_zero true) by (intro X; destruct f; try discriminate; cbn [is_int] in Iz; lia).
    destruct (unsigned_point pc cf la Wind true (- z)%Z w Nm) as (x & U & X1 & X2 & As & D & Ne). exists x. split.
    + pose proof (Gv x X1 X2 As ltac:(lia)) as G. rewrite Ne, D, (Fr (SFopp f) (- z)%Z Vo No (opp_int cf f z Iz)) in G. cbv zeta in G. rewrite opp_opp in G. exact G.
    + intros l S. rewrite <- app_assoc. cbn [app]. apply nl_minus. apply (U l S).
Qed.
Notation em := (fun p : str * gval Z spec_float => (fst p, emb (widen (snd p)))).
Lemma s_rend_says :
  (forall d v w, rend (unit_string cf) (float_text (s_ff cf) (s_prec cf)) la d v w -> forall g0, v = emb (widen g0) -> plain_single t cf g0 ->
     exists L dd, mk L w /\ gives T dd g0 /\ forall g l, ws g -> stops (src_ck pc) l -> says pc (g ++ L ++ l) dd l) /\
  (forall d vs w, rend_elems (unit_string cf) (float_text (s_ff cf) (s_prec cf)) la d vs w -> forall gs, vs = map (fun v => emb (widen v)) gs -> Forall (plain_single t cf) gs ->
     exists L ds, mk L w /\ gives_all T ds gs /\ forall t l, ws t -> says_elems pc (L ++ t ++ 93 :: l) ds l) /\
  (forall d m w, rend_members (unit_string cf) (float_text (s_ff cf) (s_prec cf)) la d m w -> forall gm, m = map em gm ->
     Forall (fun p => ok_string A cf (fst p) /\ plain_single t cf (snd p)) gm ->
     exists L ms, mk L w /\ gives_members T ms gm /\ forall t l, ws t -> says_members pc (L ++ t ++ 125 :: l) ms l).
Proof.
  assert (Cl : forall g c w l, ws g -> c <> 32 -> c <> 9 -> c <> 10 -> c <> 13 -> c <> 47 -> blank (g ++ (c :: w) ++ l) ((c :: w) ++ l)).
  { intros. apply clean_blank; [assumption|]. eexists _, _. split; [reflexivity|]. unfold space. lia. }
  assert (St : forall t c l, ws t -> c < 48 \/ (57 < c < 256) -> c <> 46 -> c <> 101 -> c <> 69 -> stops (src_ck pc) (t ++ c :: l)).
  { intros. apply stops_ws; [assumption|]. apply stops_cons; assumption. }
  assert (Bl : forall t c l, ws t -> c <> 32 -> c <> 9 -> c <> 10 -> c <> 13 -> c <> 47 -> blank (t ++ c :: l) (c :: l)).
  { intros. apply ws_blank; [assumption|unfold space; lia|assumption]. }
  assert (Asc : forall c, c < 128 -> mk [c] [c]) by (intros; apply made_ascii; repeat constructor; assumption).
  assert (Mws : forall g, ws g -> mk g g) by (intros g W; apply made_ascii; eapply Forall_impl; [|exact W]; cbv beta; intros; lia).
  assert (Wap : forall a b, ws a -> ws b -> ws (a ++ b)) by (intros; apply Forall_app; split; assumption).
  apply (rend_mutind (unit_string cf) (float_text (s_ff cf) (s_prec cf)) la
    (fun d v w _ => forall g0, v = emb (widen g0) -> plain_single t cf g0 ->
       exists L dd, mk L w /\ gives T dd g0 /\ forall g l, ws g -> stops (src_ck pc) l -> says pc (g ++ L ++ l) dd l)
    (fun d vs w _ => forall gs, vs = map (fun v => emb (widen v)) gs -> Forall (plain_single t cf) gs ->
       exists L ds, mk L w /\ gives_all T ds gs /\ forall t l, ws t -> says_elems pc (L ++ t ++ 93 :: l) ds l)
    (fun d m w _ => forall gm, m = map em gm -> Forall (fun p => ok_string A cf (fst p) /\ plain_single t cf (snd p)) gm ->
       exists L ms, mk L w /\ gives_members T ms gm /\ forall t l, ws t -> says_members pc (L ++ t ++ 125 :: l) ms l)).
  - intros d [] E O; inversion E; subst. eexists _, (LVal VNull). split; [apply made_ascii; repeat constructor|]. split; [constructor|].
    intros g l Wg S. eapply sy_lit; [apply Cl; [assumption|lia..]|].
    apply li_null with (w := [117; 108; 108]). destruct (src_ck pc); reflexivity.
  - intros d [] E O; inversion E; subst. eexists _, (LVal (VBool true)). split; [apply made_ascii; repeat constructor|]. split; [constructor|].
    intros g l Wg S. eapply sy_lit; [apply Cl; [assumption|lia..]|].
    apply li_true with (w := [114; 117; 101]). destruct (src_ck pc); reflexivity.
  - intros d [] E O; inversion E; subst. eexists _, (LVal (VBool false)). split; [apply made_ascii; repeat constructor|]. split; [constructor|].
    intros g l Wg S. eapply sy_lit; [apply Cl; [assumption|lia..]|].
    apply li_false with (w := [97; 108; 115; 101]). destruct (src_ck pc); reflexivity.
  - intros d z w H [] E O; inversion E; subst. inversion O; subst. destruct (s_int_says _ w ltac:(eassumption) ltac:(eassumption) H) as (M & x & G & X). exists w, (LNum x).
    split; [assumption|]. split; [assumption|]. intros g l Wg S. eapply sy_num; [|apply X; assumption]. apply clean_blank; [assumption|].
    destruct H as [? ? Nu|? ? Ng Nu]; [destruct Nu|]; eexists _, _; (split; [reflexivity|]); unfold space; lia.
  - intros d f w H [] E O; inversion E; subst. inversion O; subst. destruct (s_float_says _ _ w ltac:(eassumption) ltac:(eassumption) ltac:(eassumption) ltac:(eassumption) ltac:(eassumption) H) as (M & (c & w' & Ew & Rc) & x & G & X).
    exists w, (LNum x). split; [assumption|]. split; [assumption|]. intros g l Wg S. eapply sy_num; [|apply X; assumption]. apply clean_blank; [assumption|].
    rewrite Ew. eexists _, _; (split; [reflexivity|]); unfold space; lia.
  - intros d s w H [] E O; inversion E; subst. inversion O; subst. destruct (string_writes pc cf Hval Tc Te _ w ltac:(eassumption) H) as (L & M & C & X). exists L. eexists (LStr _).
    split; [assumption|]. split; [constructor|]. intros g l Wg S. eapply sy_str; [apply clean_blank; eassumption|apply X].
  - intros d [] E O; inversion E as [E']. destruct l as [|? l]; [|discriminate]. exists (91 :: (nl la ++ ind la d) ++ [93]), (LArr []). split; [|split; [repeat constructor|]].
    + rewrite <- app_assoc. apply made_cons; [lia|]. apply made_app; [apply Mws; auto|]. apply made_app; [apply Mws; auto|]. apply Asc. lia.
    + intros g l Wg S. eapply sy_arr with (l1 := (nl la ++ ind la d) ++ 93 :: l).
      * replace (((nl la ++ ind la d) ++ 93 :: l)) with ((((nl la ++ ind la d) ++ [93]) ++ l)) by (rewrite <- app_assoc; reflexivity).
        apply Cl; [assumption|lia..].
      * apply se_end. apply Bl; [apply Wap; auto|lia..].
  - intros d v vs w H IH [] E O; inversion E as [E']. rewrite map_map in E'. inversion O; subst. destruct (IH _ E' ltac:(assumption)) as (L & ds & M & G & X).
    exists (91 :: (L ++ nl la ++ ind la d) ++ [93]), (LArr ds). split; [|split; [constructor; assumption|]].
    + rewrite <- !app_assoc. apply made_cons; [lia|]. apply made_app; [exact M|]. apply made_app; [apply Mws; auto|].
      apply made_app; [apply Mws; auto|]. apply Asc. lia.
    + intros g l0 Wg S. eapply sy_arr; [|apply (X (nl la ++ ind la d) l0); apply Wap; auto].
      replace (L ++ (nl la ++ ind la d) ++ 93 :: l0) with (((L ++ nl la ++ ind la d) ++ [93]) ++ l0) by (rewrite <- !app_assoc; reflexivity).
      apply Cl; [assumption|lia..].
  - intros d [] E O; inversion E as [E']. destruct m as [|? m]; [|discriminate]. exists (123 :: (nl la ++ ind la d) ++ [125]), (LObj []). split; [|split].
    + rewrite <- app_assoc. apply made_cons; [lia|]. apply made_app; [apply Mws; auto|]. apply made_app; [apply Mws; auto|]. apply Asc. lia.
    + eapply gi_obj; [constructor|]. apply obj_of_any_iff. reflexivity.
    + intros g l Wg S. eapply sy_obj with (l1 := (nl la ++ ind la d) ++ 125 :: l).
      * replace (((nl la ++ ind la d) ++ 125 :: l)) with ((((nl la ++ ind la d) ++ [125]) ++ l)) by (rewrite <- app_assoc; reflexivity).
        apply Cl; [assumption|lia..].
      * apply sm_end. apply Bl; [apply Wap; auto|lia..].
  - intros d p m w H IH [] E O; inversion E as [E']. rewrite map_map in E'. inversion O as [| | | | | |? So Fo]; subst. destruct (IH _ E' Fo) as (L & ms & M & G & X).
    exists (123 :: (L ++ nl la ++ ind la d) ++ [125]), (LObj ms). split; [|split].
    + rewrite <- !app_assoc. apply made_cons; [lia|]. apply made_app; [exact M|]. apply made_app; [apply Mws; auto|].
      apply made_app; [apply Mws; auto|]. apply Asc. lia.
    + eapply gi_obj; [eassumption|]. split; [assumption|]. reflexivity.
    + intros g l Wg S. eapply sy_obj; [|apply (X (nl la ++ ind la d) l); apply Wap; auto].
      replace (L ++ (nl la ++ ind la d) ++ 125 :: l) with (((L ++ nl la ++ ind la d) ++ [125]) ++ l) by (rewrite <- !app_assoc; reflexivity).
      apply Cl; [assumption|lia..].
  - intros d v w H IH [|g0 [|]] E O; try discriminate. inversion E. inversion O; subst. destruct (IH g0 eq_refl ltac:(assumption)) as (L & dd & M & G & X).
    exists ((nl la ++ ind la d) ++ L), [dd]. split; [|split; [constructor; [assumption|constructor]|]].
    + rewrite <- app_assoc. apply made_app; [apply Mws; auto|]. apply made_app; [apply Mws; auto|]. exact M.
    + intros t0 l Wt. rewrite <- (app_assoc (nl la ++ ind la d)). eapply se_last; [apply X; [apply Wap; auto|]|apply Bl; [assumption|lia..]].
      apply St; [assumption|lia..].
  - intros d v w v' vs ws0 H IH H2 IH2 [|g0 gs] E O; [discriminate|]. inversion E as [[E1 E2]]. inversion O; subst. destruct (IH g0 eq_refl ltac:(assumption)) as (L & dd & M & G & X).
    destruct (IH2 gs E2 ltac:(assumption)) as (L2 & ds & M2 & G2 & X2). exists ((nl la ++ ind la d) ++ L ++ 44 :: L2), (dd :: ds). split; [|split; [constructor; assumption|]].
    + rewrite <- app_assoc. apply made_app; [apply Mws; auto|]. apply made_app; [apply Mws; auto|]. apply made_app; [exact M|]. apply made_cons; [lia|exact M2].
    + intros t0 l Wt. rewrite <- (app_assoc (nl la ++ ind la d)), <- (app_assoc L). cbn [app].
      eapply se_more; [apply X; [apply Wap; auto|]|apply (Bl []); [constructor|lia..]|apply X2; assumption].
      apply (St []); [constructor|lia..].
  - intros d k wk v w Hk H IH [|[k0 g0] [|]] E O; try discriminate. inversion E. inversion O as [|? ? [Ok Ov] _]; subst. cbn [fst snd] in *.
    destruct (string_writes pc cf Hval Tc Te k0 wk Ok Hk) as (Lk & Mk & Ck & Xk). destruct (IH g0 eq_refl Ov) as (L & dd & M & G & X).
    exists ((nl la ++ ind la d) ++ Lk ++ 58 :: sp la ++ L), [(k0, dd)]. split; [|split; [constructor; [assumption|constructor]|]].
    + rewrite <- app_assoc. apply made_app; [apply Mws; auto|]. apply made_app; [apply Mws; auto|].
      apply made_app; [exact Mk|]. apply made_cons; [lia|]. apply made_app; [apply Mws; auto|exact M].
    + intros t0 l Wt. rewrite <- (app_assoc (nl la ++ ind la d)), <- (app_assoc Lk). cbn [app]. rewrite <- (app_assoc (sp la)).
      eapply sm_last; [apply clean_blank; [apply Wap; auto|exact Ck]|apply Xk|apply (Bl []); [constructor|lia..]|apply X; [assumption|]|apply Bl; [assumption|lia..]].
      apply St; [assumption|lia..].
  - intros d k wk v w p m ws0 Hk H IH H2 IH2 [|[k0 g0] gm] E O; [discriminate|]. inversion E as [[E1 E2 E3]]. inversion O as [|? ? [Ok Ov] O2]; subst. cbn [fst snd] in *.
    destruct (string_writes pc cf Hval Tc Te k0 wk Ok Hk) as (Lk & Mk & Ck & Xk). destruct (IH g0 eq_refl Ov) as (L & dd & M & G & X).
    destruct (IH2 gm E3 O2) as (L2 & ms & M2 & G2 & X2).
    exists ((nl la ++ ind la d) ++ Lk ++ 58 :: sp la ++ L ++ 44 :: L2), ((k0, dd) :: ms). split; [|split; [constructor; assumption|]].
    + rewrite <- app_assoc. apply made_app; [apply Mws; auto|]. apply made_app; [apply Mws; auto|].
      apply made_app; [exact Mk|]. apply made_cons; [lia|]. apply made_app; [apply Mws; auto|]. apply made_app; [exact M|]. apply made_cons; [lia|exact M2].
    + intros t0 l Wt. rewrite <- (app_assoc (nl la ++ ind la d)), <- (app_assoc Lk). cbn [app]. rewrite <- (app_assoc (sp la)), <- (app_assoc L). cbn [app].
      eapply sm_more; [apply clean_blank; [apply Wap; auto|exact Ck]|apply Xk|apply (Bl []); [constructor|lia..]|apply X; [assumption|]|apply (Bl []); [constructor|lia..]|apply X2; assumption].
      apply (St []); [constructor|lia..].
Qed.
End Text.

Lemma s_round : forall t pc cf v w, cpp_ity t -> by_number t cf -> reads pc cf -> enc_ok (out_enc cf) (out_ck cf) = true -> enc_ok (val_enc cf) (val_ck cf) = true ->
  (out_enc cf = Ignore -> s_esc cf = true) -> blank_indent cf -> plain_single t cf v -> s_dump_string t cf v = Ret w ->
  n_parse_string (num_single t) pc w = Ret v.
Proof.
  intros t pc cf v w Hc Bn (R1 & R2 & R3 & R4) Ho Hv Ig B O D. unfold s_dump_string in D. rewrite n_dump_string_same in D by assumption.
  apply dump_string_ret in D; [|assumption]. apply d_val_iff in D. destruct (lay_ws cf B) as (W1 & W2 & W3).
  destruct (proj1 (s_rend_says t Hc pc cf Hv R3 R4 (lay cf) W1 W2 W3) 0 (emb (widen v)) w D v eq_refl O) as (L & d & [M P] & G & X).
  pose proof (plain_feeds cf L w Ho Ig M P) as F. apply (n_string_iff (num_single t) pc w L TEof v); [rewrite R3, R4; assumption|rewrite R1, R2; assumption|].
  exists d, []. split; [|split; [left; reflexivity|assumption]].
  apply sd_end with (l1 := []); [|apply bl_none; exact Logic.I]. specialize (X [] [] ltac:(constructor) (stops_nil _)). cbn [app] in X.
  rewrite app_nil_r in X. exact X.
Qed.
Lemma s_leaves : forall t cf v, enc_ok (out_enc cf) (out_ck cf) = true -> enc_ok (val_enc cf) (val_ck cf) = true -> wide_out cf ->
  (out_enc cf = Ignore -> s_esc cf = true) -> plain_single t cf v -> Forall (fun l => ~ bad_leaf cf l) (leaves (emb (widen v))).
Proof.
  intros t cf v Ho Hv W Ig. induction v as [|b|i|f|x|l IH|m IH] using gval_ind2; intro P; inversion P as [| | |? z V Nz Iz Bt Bz|? Ps|? Pl|? So Pm]; subst; cbn [widen emb leaves]; try constructor.
  - intro Bd. destruct (widen_value f V) as [Vd Id]. assert (Iw : is_int (to_double f) z) by (apply Id; assumption).
    remember (to_double f) as g eqn:Eg. inversion Bd as [| | |? z' Iz' Bz']; subst; try (match goal with E : _ = to_double f |- _ => rewrite <- E in Iw; destruct Iw end).
    assert (z' = z) by (destruct (int_integral _ z Iw), (int_integral _ z' Iz'); congruence). subst z'. apply Bz'. unfold int64. lia.
  - constructor.
  - apply (ok_str_good SpecRfc.plain); assumption.
  - constructor.
  - induction IH as [|v l H IH IHl]; cbn [map flat_map]; [constructor|]. inversion Pl; subst. apply Forall_app. split; [auto|]. apply IHl; [constructor; assumption|assumption].
  - clear P So. induction IH as [|[k v] m H IH IHm]; cbn [map flat_map]; [constructor|]. inversion Pm as [|? ? [Pk Pv] Pm']; subst. cbn [fst snd] in *.
    apply Forall_app. split; [|auto]. constructor; [apply (ok_str_good SpecRfc.plain); assumption|auto].
Qed.
Lemma s_round_all : forall t pc cf v, cpp_ity t -> by_number t cf -> reads pc cf -> enc_ok (out_enc cf) (out_ck cf) = true -> enc_ok (val_enc cf) (val_ck cf) = true ->
  wide_out cf -> (out_enc cf = Ignore -> s_esc cf = true) -> blank_indent cf -> plain_single t cf v ->
  exists w, s_dump_string t cf v = Ret w /\ n_parse_string (num_single t) pc w = Ret v.
Proof.
  intros t pc cf v Hc Bn R Ho Hv W Ig B P. destruct (proj2 (dump_returns cf Ho (emb (widen v))) (s_leaves t cf v Ho Hv W Ig P)) as [w D].
  assert (D' : s_dump_string t cf v = Ret w) by (unfold s_dump_string; rewrite n_dump_string_same by assumption; assumption).
  exists w. split; [assumption|]. eapply s_round; eassumption.
Qed.

(** ** The integers and the end do not depend on the float type *)
Lemma s_alike : forall t cf h n c c' b, alike eq (fun _ _ => True) c c' ->
  alike eq (fun _ _ => True) (fst (n_parse_ibuf (num_of t) cf h n c b)) (fst (n_parse_ibuf (num_single t) cf h n c' b)) /\
  snd (n_parse_ibuf (num_of t) cf h n c b) = snd (n_parse_ibuf (num_single t) cf h n c' b).
Proof.
  intros t cf h n c c' b Hc.
  destruct (al_ibuf (num_of t) (num_single t) eq (fun _ _ => True) False) with (cf := cf) (h := h) (n := n) (c := c) (c' := c') (b := b) as [[[] _]|X]; auto.
  - intros i i' d <-. right. cbn [i_step num_of num_single]. destruct (t_step t i d); cbn; auto.
  - intros i i' <-. right. cbn [i_neg num_of num_single]. destruct (t_neg t i); cbn; auto.
Qed.

(** ** What is false *)
Lemma single_rounds_refuted : ~ forall t pc s f g, n_parse_string (num_of t) pc s = Ret (GFloat f) -> n_parse_string (num_single t) pc s = Ret (GFloat g) -> g = to_single f.
Proof.
  intro H. assert (E : exists f g, n_parse_string (num_of t_int64) cfg_json (chars "3.14") = Ret (GFloat f) /\
    n_parse_string (num_single t_int64) cfg_json (chars "3.14") = Ret (GFloat g) /\ g <> to_single f).
  { eexists _, _. split; [vm_compute; reflexivity|]. split; [vm_compute; reflexivity|]. vm_compute. discriminate. }
  destruct E as (f & g & E1 & E2 & N). exact (N (H _ _ _ _ _ E1 E2)).
Qed.
Lemma single_fraction_refuted : ~ forall t pc cf f w, cpp_ity t -> by_number t cf -> reads pc cf -> blank_indent cf -> valid_binary 24 128 f = true ->
  s_dump_string t cf (GFloat f) = Ret w -> n_parse_string (num_single t) pc w = Ret (GFloat f).
Proof.
  intro H. specialize (H t_int64 cfg_json (ser_cfg C8 C8 fmt_default []) (SFdiv 24 128 (s_of_Z 9) (s_of_Z 10)) (chars "0.9")).
  assert (E : n_parse_string (num_single t_int64) cfg_json (chars "0.9") <> Ret (GFloat (SFdiv 24 128 (s_of_Z 9) (s_of_Z 10)))) by (vm_compute; discriminate).
  apply E, H; [unfold cpp_ity; cbn; lia|left; reflexivity|repeat split|vm_compute; auto|vm_compute; reflexivity|vm_compute; reflexivity].
Qed.
