(** Dumped text is RFC 8259 text of the dumped value. *)
From Coq Require Import Lia ZifyBool ZifyNat ZifyN Floats.SpecFloat.
From Verif Require Import Base Stream Encoding Value Token FloatFmt Parser EncodingProofs EncodingFacts Feeds SpecUnicode SpecGrammar
  SpecText SpecRfc ObjFacts GrammarLex GrammarTok GrammarFacts NumberFacts FloatFacts RfcFacts Serializer DumpText DumpProofs SpecDump DumpFacts.
Ltac Zify.zify_post_hook ::= Z.div_mod_to_equations.
Open Scope N_scope.

(** ** Encoding of texts *)
Lemma out_text_enc : forall e ck l, out_text e ck l = enc_text e ck l.
Proof. intros e ck l. induction l as [|c l IH]; [reflexivity|]. cbn [out_text enc_text]. rewrite IH, out_units_eq. reflexivity. Qed.
Lemma out_app : forall e ck a b x y, out_text e ck a = Some x -> out_text e ck b = Some y -> out_text e ck (a ++ b) = Some (x ++ y).
Proof.
  intros e ck a. induction a as [|c a IH]; intros b x y A B; cbn [out_text app] in *; [apply some_inj in A; subst; exact B|].
  destruct (out_units e ck c) as [us|]; [|discriminate]. destruct (out_text e ck a) as [r|] eqn:E; [|discriminate].
  apply some_inj in A. subst x. rewrite (IH b r y eq_refl B). rewrite app_assoc. reflexivity.
Qed.
Lemma out_ascii : forall e ck l, Forall (fun c => c < 128) l -> out_text e ck l = Some l.
Proof. intros e ck l F. induction F as [|c l L F IH]; [reflexivity|]. cbn [out_text]. rewrite IH, small_units by assumption. reflexivity. Qed.

Lemma faithful_rt : forall e ck c, faithful e c -> rt_cp e ck c.
Proof.
  intros e ck c H. destruct e; cbn [faithful rt_cp] in *; try exact Logic.I.
  - split; [|assumption]. rewrite narrow_low. apply low_small. lia.
  - unfold SpecGrammar.lead in H. lia.
Qed.

Lemma ok_feeds : forall A cf s, enc_ok (val_enc cf) (val_ck cf) = true -> ok_string A cf s ->
  exists cps, out_text (val_enc cf) (val_ck cf) cps = Some s /\ Forall (ok_char A (s_esc cf)) cps /\
    feeds (val_enc cf) (val_ck cf) (sis s) cps TEof.
Proof.
  intros A cf s Hok [cps E F]. exists cps. split; [assumption|]. split; [eapply Forall_impl; [|exact F]; intros c []; assumption|].
  apply feeds_enc_text; [assumption|rewrite <- out_text_enc; assumption|].
  eapply Forall_impl; [|exact F]. intros c [_ X]. apply faithful_rt. exact X.
Qed.

(** ** Hexadecimal escapes *)
Lemma uhex_hexd : forall c d, uhex c d -> hexd c d.
Proof. intros c d [[A ->]|[A ->]]; [apply hx_num; lia|apply hx_up; lia]. Qed.
Lemma hexnum_4 : forall n w, hexnum n w -> length w = 4%nat -> hex4 w n.
Proof.
  assert (Inv : forall n w c, hexnum n (w ++ [c]) -> exists n' d, hexnum n' w /\ uhex c d /\ n = 16 * n' + d).
  { intros n w c H. remember (w ++ [c]) as x eqn:E. destruct H as [|n w' c' d H U]; [destruct w; discriminate|].
    apply app_inj_tail in E. destruct E as [-> ->]. eauto. }
  intros n w H L. destruct w as [|a [|b [|c [|d [|? ?]]]]]; try discriminate.
  destruct (Inv _ [a; b; c] d H) as (n1 & d1 & H1 & U1 & ->).
  destruct (Inv _ [a; b] c H1) as (n2 & d2 & H2 & U2 & ->).
  destruct (Inv _ [a] b H2) as (n3 & d3 & H3 & U3 & ->).
  destruct (Inv _ [] a H3) as (n4 & d4 & H4 & U4 & ->).
  assert (n4 = 0) by (remember (@nil N) as e; destruct H4; [reflexivity|destruct w; discriminate]). subst n4.
  replace (16 * (16 * (16 * (16 * 0 + d4) + d3) + d2) + d1) with (d4 * 4096 + d3 * 256 + d2 * 16 + d1) by lia.
  constructor; apply uhex_hexd; assumption.
Qed.
Lemma padded_hex4 : forall k n w, (k <= 4)%nat -> (k = 4%nat \/ 4096 <= n) -> n <= 65535 -> padded k n w -> hex4 w n.
Proof.
  intros k n w K B L [H P]. apply hexnum_4; [assumption|].
  pose proof (hexnum_bound _ _ H) as Hb.
  assert (Up : (length w <= 4)%nat \/ hd 0 w <> 48) by (destruct P as [P|[_ P]]; [left; lia|right; assumption]).
  assert (Le : (length w <= 4)%nat).
  { destruct P as [P|[P1 P2]]; [lia|]. destruct (le_lt_dec (length w) 4) as [|G]; [assumption|].
    pose proof (hexnum_low _ _ H ltac:(destruct w; [cbn in P1; lia|discriminate]) P2) as Lo.
    pose proof (N.pow_le_mono_r 16 4 (N.of_nat (length w) - 1) ltac:(lia) ltac:(lia)) as M. change (16 ^ 4) with 65536 in M. lia. }
  destruct B as [->|B]; [destruct P as [P|[P _]]; lia|].
  destruct (le_lt_dec 4 (length w)) as [|G]; [lia|].
  pose proof (N.pow_le_mono_r 16 (N.of_nat (length w)) 3 ltac:(lia) ltac:(lia)) as M. change (16 ^ 3) with 4096 in M. lia.
Qed.
Lemma hex4_ascii : forall w n, hex4 w n -> Forall (fun c => c < 128) w.
Proof.
  assert (X : forall c d, hexd c d -> c < 128) by (intros c d H; inversion H; lia).
  intros w n H. destruct H as [a b c d x y z w A B C D]. repeat constructor; eapply X; eassumption.
Qed.

(** ** Characters and strings *)
Section Rt.
Variables (A : feature -> Prop) (cf : scfg).
Hypothesis Hval : enc_ok (val_enc cf) (val_ck cf) = true.
Notation ok := (ok_char A (s_esc cf)).
(** what the characters of the text can be *)
Definition plain_cp (x : N) : Prop := x < 128 \/ (s_esc cf = false /\ ok x).

Lemma char_rfc : forall c w, ok c -> char_text (s_esc cf) (raw_units cf) c w ->
  exists L, rfc_char A L c /\ out_text (out_enc cf) (out_ck cf) L = Some w /\ Forall plain_cp L.
Proof.
  assert (Asc : forall L, Forall (fun c => c < 128) L -> Forall plain_cp L).
  { intros L F. eapply Forall_impl; [|exact F]. intros. left. assumption. }
  intros c w (B & Lc & Ct & Es) H.
  inversion H as [c0 e0 S N E1 E2|c0 w0 S Hc Le P E1 E2|c0 w1 w2 He G1 G2 P1 P2 E1 E2|c0 w0 G32 G34 G92 Ge R E1 E2]; subst.
  - assert (F : Forall (fun c => c < 128) [92; e0]) by (inversion S; repeat constructor; lia).
    exists [92; e0]. split; [apply rc_short; assumption|]. split; [apply out_ascii|apply Asc]; assumption.
  - assert (Big : 4096 <= c).
    { destruct Hc as [Hc|[Hc1 Hc2]]; [|destruct (Es Hc1); lia]. exfalso. specialize (Ct Hc).
      destruct Ct as [->|[->|[->|[->| ->]]]]; [destruct (S 98)|destruct (S 116)|destruct (S 110)|destruct (S 102)|destruct (S 114)];
        try discriminate; match goal with X : ~ short _ _ |- _ => apply X; constructor end. }
    pose proof (padded_hex4 2 c w0 ltac:(lia) ltac:(auto) Le P) as Hx. pose proof (hex4_ascii _ _ Hx) as F.
    assert (F2 : Forall (fun c => c < 128) (92 :: 117 :: w0)) by (repeat constructor; try lia; assumption).
    exists (92 :: 117 :: w0). split; [|split; [apply out_ascii|apply Asc]; assumption].
    destruct (N.le_gt_cases 55296 c) as [La|La]; [destruct (N.le_gt_cases c 56319) as [Lb|Lb]|].
    + apply rc_lone; [assumption|split; assumption|]. apply Lc. split; assumption.
    + apply rc_u; [assumption|]. unfold SpecGrammar.lead. lia.
    + apply rc_u; [assumption|]. unfold SpecGrammar.lead. lia.
  - rewrite N.mod_small in P1 by lia.
    pose proof (padded_hex4 4 (55296 + (c - 65536) / 1024) w1 ltac:(lia) (or_introl eq_refl) ltac:(lia) P1) as Hx1.
    pose proof (padded_hex4 4 (56320 + (c - 65536) mod 1024) w2 ltac:(lia) (or_introl eq_refl) ltac:(lia) P2) as Hx2.
    assert (F2 : Forall (fun c => c < 128) (92 :: 117 :: w1 ++ 92 :: 117 :: w2)).
    { constructor; [lia|]. constructor; [lia|]. apply Forall_app. split; [apply (hex4_ascii _ _ Hx1)|].
      constructor; [lia|]. constructor; [lia|]. apply (hex4_ascii _ _ Hx2). }
    eexists. split; [|split; [apply out_ascii; exact F2|apply Asc; exact F2]].
    replace c with (65536 + (55296 + (c - 65536) / 1024 - 55296) * 1024 + (56320 + (c - 65536) mod 1024 - 56320)) at 1 by lia.
    apply rc_pair; auto; unfold SpecGrammar.lead, SpecGrammar.trail; lia.
  - exists [c]. split; [apply rc_raw; assumption|]. split; [exact R|]. constructor; [|constructor].
    destruct (s_esc cf) eqn:Ee; [left; specialize (Ge eq_refl); lia|]. right. split; [exact Ee|]. split; [assumption|]. rewrite Ee. auto.
Qed.

Lemma chars_rfc : forall cps w, Forall ok cps -> chars_text (s_esc cf) (raw_units cf) cps w ->
  exists L, rfc_chars A L cps /\ out_text (out_enc cf) (out_ck cf) L = Some w /\ Forall plain_cp L.
Proof.
  intros cps w F. revert w. induction F as [|c cps Hc F IH]; intros w H.
  - inversion H; subst. exists []. repeat split; constructor.
  - inversion H as [|c0 w1 cps0 w2 C1 C2]; subst. destruct (char_rfc c w1 Hc C1) as (L1 & R1 & O1 & P1).
    destruct (IH w2 C2) as (L2 & R2 & O2 & P2). exists (L1 ++ L2). split; [constructor; assumption|].
    split; [apply out_app; assumption|apply Forall_app; split; assumption].
Qed.

Lemma ascii_ok : forall L, Forall (fun c => c < 128) L -> out_text (out_enc cf) (out_ck cf) L = Some L /\ Forall plain_cp L.
Proof. intros L F. split; [apply out_ascii; assumption|]. eapply Forall_impl; [|exact F]. intros. left. assumption. Qed.

(** text w is made of L *)
Definition made (L w : list N) : Prop := out_text (out_enc cf) (out_ck cf) L = Some w /\ Forall plain_cp L.
Lemma made_app : forall a b x y, made a x -> made b y -> made (a ++ b) (x ++ y).
Proof. intros a b x y [A1 A2] [B1 B2]. split; [apply out_app; assumption|apply Forall_app; split; assumption]. Qed.
Lemma made_cons : forall c b y, c < 128 -> made b y -> made (c :: b) (c :: y).
Proof. intros c b y L H. apply (made_app [c] b [c] y); [|assumption]. apply ascii_ok. constructor; [assumption|constructor]. Qed.
Lemma made_ascii : forall L, Forall (fun c => c < 128) L -> made L L.
Proof. exact ascii_ok. Qed.

Lemma string_rfc : forall s w, ok_string A cf s -> unit_string cf s w ->
  exists L, rfc_string A (val_enc cf) (val_ck cf) L s /\ made L w.
Proof.
  intros s w H U. destruct (ok_feeds A cf s Hval H) as (cps & E & F & Fd). destruct U as [cps' w' Fd' C].
  destruct (feeds_det _ _ _ _ _ Fd _ _ Fd') as [<- _].
  destruct (chars_rfc cps w' F C) as (L & R & M). exists (34 :: L ++ [34]). split; [apply rs with (cps := cps); assumption|].
  apply made_cons; [lia|]. apply made_app; [exact M|]. apply made_ascii. repeat constructor.
Qed.

(** ** Numbers *)
Lemma numeral_128 : forall z w, numeral z w -> Forall (fun c => c < 128) w.
Proof. intros z w H. apply digits_ascii. apply (numeral_ascii z w H). Qed.

Lemma int_rfc : forall z w, int64 z -> (z = -9223372036854775808 -> A BigInt)%Z -> int_text z w ->
  rfc_number A w (VInt z) /\ made w w.
Proof.
  intros z w R B H. destruct H as [z w Nm|z w Neg Nm]; unfold int64 in R.
  - split; [|apply made_ascii; eapply numeral_128; eassumption].
    apply (rn_int A [] false z w); [constructor|assumption|]. unfold max_int. intro G. exfalso. lia.
  - split; [|apply made_ascii; constructor; [lia|eapply numeral_128; eassumption]].
    replace (VInt z) with (signed_int true (- z)) by (unfold signed_int; f_equal; lia).
    apply (rn_int A [45] true (- z) w); [constructor|assumption|]. unfold max_int. intro G. apply B. lia.
Qed.

Lemma opp_int : forall f z, is_int f z -> is_int (SFopp f) (- z).
Proof.
  intros f z H. destruct f as [s|s| |s m e]; cbn [SFopp is_int] in *; try contradiction; [lia|].
  assert (R : (Z.neg m = - Z.pos m)%Z) by reflexivity. destruct (0 <=? e)%Z; destruct s; cbn [negb]; lia.
Qed.
Lemma opp_opp : forall f, SFopp (SFopp f) = f.
Proof. intros [[]|[]| |[] m e]; reflexivity. Qed.

Lemma float_rfc : forall f w, ok_float f -> float_text (s_ff cf) (s_prec cf) f w -> rfc_number A w (VFloat f) /\ made w w.
Proof.
  intros f w (V & Nz & z & Iz & Bz) H. inversion H as [z' w' Iz' Bz' Tx|Ni _]; subst; [|exfalso; exact (Ni z Iz)].
  assert (z' = z) by (destruct (int_integral f z Iz), (int_integral f z' Iz'); congruence). subst z'.
  assert (Fin : forall g, g = f \/ g = SFopp f -> g <> S754_zero true ->
    match g with S754_finite _ _ _ | S754_zero false => True | _ => False end).
  { intros g [->| ->] Ng; destruct f as [[]|[]| |[] m e]; cbn in *; try contradiction; try exact Logic.I; try congruence. }
  assert (Zero : z = 0%Z -> f = S754_zero false).
  { intros ->. destruct f as [[]|[]| |s m e]; cbn [is_int] in Iz; try contradiction; [reflexivity|].
    exfalso. assert (R : (Z.neg m = - Z.pos m)%Z) by reflexivity. destruct (Z.leb_spec 0 e) as [L|L].
    - pose proof (Z.pow_pos_nonneg 2 e ltac:(lia) L). destruct s; nia.
    - destruct s; lia. }
  assert (Fz : Forall (fun d => d = 48) [48]) by (repeat constructor).
  destruct Tx as [z w Nm|z w Neg Nm].
  - split; [|apply made_ascii; apply Forall_app; split; [eapply numeral_128; eassumption|repeat constructor; lia]].
    assert (E : d_of_Z z = f).
    { destruct (Z.eq_dec z 0) as [Ez|Ez]; [rewrite (Zero Ez), Ez; reflexivity|]. apply d_of_Z_exact; assumption. }
    assert (Fr : frac_value (d_of_Z z) dtenth [48] = f) by (rewrite E; apply zero_fraction; [apply Fin; auto|assumption]).
    pose proof (rn_frac A [] false z w (46 :: [48]) (frac_value (d_of_Z z) dtenth [48])) as X. rewrite Fr in X. apply X.
    + constructor.
    + assumption.
    + unfold max_int. intro G. exfalso. lia.
    + rewrite <- Fr. constructor; [discriminate|]. repeat constructor; unfold ascii_digit; lia.
    + discriminate.
  - split.
    2:{ apply made_ascii. cbn [app]. constructor; [lia|]. apply Forall_app; split; [eapply numeral_128; eassumption|repeat constructor; lia]. }
    assert (Vo : valid (SFopp f)) by (unfold valid; destruct f as [[]|[]| |[] m e]; exact V).
    assert (E : d_of_Z (- z) = SFopp f) by (apply d_of_Z_exact; [assumption|apply opp_int; assumption|lia]).
    assert (Fr : frac_value (d_of_Z (- z)) dtenth [48] = SFopp f).
    { rewrite E. apply zero_fraction; [apply Fin; [auto|]|assumption]. intro X. destruct f; try discriminate. cbn [is_int] in Iz. lia. }
    pose proof (rn_frac A [45] true (- z) w (46 :: [48]) (frac_value (d_of_Z (- z)) dtenth [48])) as X. rewrite Fr in X.
    unfold signed_float in X. rewrite opp_opp in X. apply X.
    + constructor.
    + assumption.
    + unfold max_int. intro G. exfalso. lia.
    + rewrite <- Fr. constructor; [discriminate|]. repeat constructor; unfold ascii_digit; lia.
    + discriminate.
Qed.

(** ** Values *)
Variable la : layout.
Hypothesis Wnl : ws (nl la).
Hypothesis Wind : forall d, ws (ind la d).
Hypothesis Wsp : ws (sp la).

Lemma ws_app : forall a b, ws a -> ws b -> ws (a ++ b).
Proof. intros a b H K. apply Forall_app. split; assumption. Qed.
Lemma made_ws : forall g, ws g -> made g g.
Proof. intros g W. apply made_ascii. eapply Forall_impl; [|exact W]. cbv beta. intros. lia. Qed.

Lemma sorted_obj_of : forall m, sorted m -> obj_of m m.
Proof. intros m S. split; [assumption|]. reflexivity. Qed.

Notation V := (rfc_val A (val_enc cf) (val_ck cf)).
Notation VE := (rfc_elems A (val_enc cf) (val_ck cf)).
Notation VM := (rfc_members A (val_enc cf) (val_ck cf)).
Notation str_ok := (ok_string A cf).

(** floats may be read back as something else *)
Variables (okf : f64 -> Prop) (F : f64 -> value -> Prop).
Hypothesis HF : forall f w, okf f -> float_text (s_ff cf) (s_prec cf) f w -> exists x, F f x /\ rfc_number A w x /\ made w w.
Notation OK := (ok_value_but okf A cf).
Notation EM := (Forall2 (fun p q : str * value => fst p = fst q /\ echo F (snd p) (snd q))).

Lemma em_keys : forall (P : str -> Prop) m m', EM m m' -> Forall (fun p => P (fst p)) m -> Forall (fun p => P (fst p)) m'.
Proof.
  intros P m m' H. induction H as [|p q m m' [E _] H IH]; intro X; [constructor|]. inversion X; subst. constructor; [rewrite <- E; assumption|auto].
Qed.
Lemma em_sorted : forall m m', EM m m' -> sorted m -> sorted m'.
Proof.
  intros m m' H. induction H as [|p q m m' [E _] H IH]; intro X; [constructor|]. inversion X as [|k v m0 Fo So]; subst. destruct q as [k' v'].
  cbn [fst] in E. subst k'. constructor; [exact (em_keys _ m m' H Fo)|auto].
Qed.

Lemma rend_rfc :
  (forall d v w, rend (unit_string cf) (float_text (s_ff cf) (s_prec cf)) la d v w -> OK v -> exists L v', echo F v v' /\ V L v' /\ made L w) /\
  (forall d l w, rend_elems (unit_string cf) (float_text (s_ff cf) (s_prec cf)) la d l w -> (forall v, In v l -> OK v) ->
     forall t, ws t -> exists L l', Forall2 (echo F) l l' /\ VE (L ++ t) l' /\ made L w) /\
  (forall d m w, rend_members (unit_string cf) (float_text (s_ff cf) (s_prec cf)) la d m w ->
     (forall k v, In (k, v) m -> str_ok k /\ OK v) ->
     forall t, ws t -> exists L m', EM m m' /\ VM (L ++ t) m' /\ made L w).
Proof.
  assert (Asc : forall c, c < 128 -> made [c] [c]) by (intros; apply made_ascii; repeat constructor; assumption).
  apply (rend_mutind (unit_string cf) (float_text (s_ff cf) (s_prec cf)) la
    (fun d v w _ => OK v -> exists L v', echo F v v' /\ V L v' /\ made L w)
    (fun d l w _ => (forall v, In v l -> OK v) -> forall t, ws t -> exists L l', Forall2 (echo F) l l' /\ VE (L ++ t) l' /\ made L w)
    (fun d m w _ => (forall k v, In (k, v) m -> str_ok k /\ OK v) -> forall t, ws t -> exists L m', EM m m' /\ VM (L ++ t) m' /\ made L w)).
  - intros d _. eexists _, _. split; [apply ec_same; exact Logic.I|]. split; [apply rv_null|]. apply made_ascii. repeat constructor.
  - intros d _. eexists _, _. split; [apply ec_same; exact Logic.I|]. split; [apply rv_true|]. apply made_ascii. repeat constructor.
  - intros d _. eexists _, _. split; [apply ec_same; exact Logic.I|]. split; [apply rv_false|]. apply made_ascii. repeat constructor.
  - intros d z w H O. destruct (O (VInt z) (sub_refl _)) as [R B]. destruct (int_rfc z w R B H) as [X M].
    exists w, (VInt z). split; [apply ec_same; exact Logic.I|]. split; [apply rv_num; exact X|exact M].
  - intros d f w H O. destruct (HF f w (O (VFloat f) (sub_refl _)) H) as (x & E & X & M). exists w, x.
    split; [apply ec_float; exact E|]. split; [apply rv_num; exact X|exact M].
  - intros d s w H O. destruct (string_rfc s w (O (VStr s) (sub_refl _)) H) as (L & X & M). exists L, (VStr s).
    split; [apply ec_same; exact Logic.I|]. split; [apply rv_str; exact X|exact M].
  - intros d O. exists (91 :: (nl la ++ ind la d) ++ [93]), (VArr []). split; [apply ec_arr; constructor|]. split; [apply rv_arr_empty, ws_app; auto|].
    rewrite <- app_assoc. apply made_cons; [lia|]. apply made_app; [apply made_ws; auto|]. apply made_app; [apply made_ws; auto|]. apply Asc. lia.
  - intros d v vs w H IH O.
    destruct (IH (fun x X y Y => O y (sub_arr _ _ _ X Y)) (nl la ++ ind la d) (ws_app _ _ Wnl (Wind d))) as (L & l' & E & X & M).
    exists (91 :: (L ++ nl la ++ ind la d) ++ [93]), (VArr l'). split; [apply ec_arr; exact E|]. split; [apply rv_arr; exact X|].
    rewrite <- !app_assoc. apply made_cons; [lia|]. apply made_app; [exact M|]. apply made_app; [apply made_ws; auto|].
    apply made_app; [apply made_ws; auto|]. apply Asc. lia.
  - intros d O. exists (123 :: (nl la ++ ind la d) ++ [125]), (VObj []). split; [apply ec_obj; constructor|]. split; [apply rv_obj_empty, ws_app; auto|].
    rewrite <- app_assoc. apply made_cons; [lia|]. apply made_app; [apply made_ws; auto|]. apply made_app; [apply made_ws; auto|]. apply Asc. lia.
  - intros d p m w H IH O. destruct (O _ (sub_refl _)) as [So Ks].
    destruct (IH (fun k v X => conj (proj1 (Forall_forall _ _) Ks (k, v) X) (fun y Y => O y (sub_obj _ _ _ _ X Y)))
      (nl la ++ ind la d) (ws_app _ _ Wnl (Wind d))) as (L & m' & E & X & M).
    exists (123 :: (L ++ nl la ++ ind la d) ++ [125]), (VObj m'). split; [apply ec_obj; exact E|].
    split; [apply rv_obj with (ms := m'); [exact X|apply sorted_obj_of; exact (em_sorted _ _ E So)]|].
    rewrite <- !app_assoc. apply made_cons; [lia|]. apply made_app; [exact M|]. apply made_app; [apply made_ws; auto|].
    apply made_app; [apply made_ws; auto|]. apply Asc. lia.
  - intros d v w H IH O t Wt. destruct (IH (O v (or_introl eq_refl))) as (L & v' & E & X & M).
    exists ((nl la ++ ind la d) ++ L), [v']. split; [repeat constructor; exact E|].
    split; [rewrite <- app_assoc; apply re_one; [apply ws_app; auto|assumption|assumption]|].
    rewrite <- app_assoc. apply made_app; [apply made_ws; auto|]. apply made_app; [apply made_ws; auto|]. exact M.
  - intros d v w v' vs ws0 H IH H2 IH2 O t Wt. destruct (IH (O v (or_introl eq_refl))) as (L & x & E & X & M).
    destruct (IH2 (fun x Y => O x (or_intror Y)) t Wt) as (L2 & l' & E2 & X2 & M2).
    exists ((nl la ++ ind la d) ++ L ++ [] ++ 44 :: L2), (x :: l'). split; [constructor; assumption|]. split.
    + replace (((nl la ++ ind la d) ++ L ++ [] ++ 44 :: L2) ++ t) with ((nl la ++ ind la d) ++ L ++ [] ++ 44 :: (L2 ++ t))
        by (repeat (rewrite <- ?app_assoc; cbn [app]); reflexivity).
      apply re_more; [apply ws_app; auto|assumption|constructor|assumption].
    + rewrite <- app_assoc. apply made_app; [apply made_ws; auto|]. apply made_app; [apply made_ws; auto|].
      apply made_app; [exact M|]. cbn [app]. apply made_cons; [lia|exact M2].
  - intros d k wk v w Hk H IH O t Wt. destruct (O k v (or_introl eq_refl)) as [Ok Ov].
    destruct (string_rfc k wk Ok Hk) as (Lk & Xk & Mk). destruct (IH Ov) as (L & x & E & X & M).
    exists ((nl la ++ ind la d) ++ Lk ++ [] ++ 58 :: sp la ++ L), [(k, x)]. split; [constructor; [split; [reflexivity|exact E]|constructor]|]. split.
    + replace (((nl la ++ ind la d) ++ Lk ++ [] ++ 58 :: sp la ++ L) ++ t) with ((nl la ++ ind la d) ++ Lk ++ [] ++ 58 :: sp la ++ L ++ t)
        by (repeat (rewrite <- ?app_assoc; cbn [app]); reflexivity).
      apply rm_one; [apply ws_app; auto|assumption|constructor|assumption|assumption|assumption].
    + rewrite <- app_assoc. apply made_app; [apply made_ws; auto|]. apply made_app; [apply made_ws; auto|].
      apply made_app; [exact Mk|]. cbn [app]. apply made_cons; [lia|]. apply made_app; [apply made_ws; auto|exact M].
  - intros d k wk v w p m ws0 Hk H IH H2 IH2 O t Wt. destruct (O k v (or_introl eq_refl)) as [Ok Ov].
    destruct (string_rfc k wk Ok Hk) as (Lk & Xk & Mk). destruct (IH Ov) as (L & x & E & X & M).
    destruct (IH2 (fun k' v' Y => O k' v' (or_intror Y)) t Wt) as (L2 & m' & E2 & X2 & M2).
    exists ((nl la ++ ind la d) ++ Lk ++ [] ++ 58 :: sp la ++ L ++ [] ++ 44 :: L2), ((k, x) :: m').
    split; [constructor; [split; [reflexivity|exact E]|exact E2]|]. split.
    + replace (((nl la ++ ind la d) ++ Lk ++ [] ++ 58 :: sp la ++ L ++ [] ++ 44 :: L2) ++ t) with
        ((nl la ++ ind la d) ++ Lk ++ [] ++ 58 :: sp la ++ L ++ [] ++ 44 :: (L2 ++ t))
        by (repeat (rewrite <- ?app_assoc; cbn [app]); reflexivity).
      apply rm_more; [apply ws_app; auto|assumption|constructor|assumption|assumption|constructor|assumption].
    + rewrite <- app_assoc. apply made_app; [apply made_ws; auto|]. apply made_app; [apply made_ws; auto|].
      apply made_app; [exact Mk|]. cbn [app]. apply made_cons; [lia|]. apply made_app; [apply made_ws; auto|].
      apply made_app; [exact M|]. apply made_cons; [lia|exact M2].
Qed.
End Rt.

(** ** Dump, then parse *)
Definition blank_indent (cf : scfg) : Prop :=
  s_pretty cf = true -> s_ichar cf = 32 \/ s_ichar cf = 9 \/ s_ichar cf = 10 \/ s_ichar cf = 13.

Lemma lay_ws : forall cf, blank_indent cf -> ws (nl (lay cf)) /\ (forall d, ws (ind (lay cf) d)) /\ ws (sp (lay cf)).
Proof.
  intros cf B. unfold lay. cbn [nl ind sp]. unfold d_nl, d_ind, d_sp. destruct (s_pretty cf) eqn:P.
  2:{ repeat split; constructor. }
  specialize (B P). split; [constructor; [lia|constructor]|]. split; [|constructor; [lia|constructor]].
  intro d. replace (s_ichar cf =? 0) with false by lia. unfold ws. apply Forall_forall. intros x X. apply repeat_spec in X. subst x. lia.
Qed.

Lemma dump_rfc_but : forall (okf : f64 -> Prop) F A cf v w, enc_ok (out_enc cf) (out_ck cf) = true -> enc_ok (val_enc cf) (val_ck cf) = true ->
  (forall f w, okf f -> float_text (s_ff cf) (s_prec cf) f w -> exists x, F f x /\ rfc_number A w x /\ made A cf w w) ->
  blank_indent cf -> ok_value_but okf A cf v -> dump_string cf v = Ret w ->
  exists L v', echo F v v' /\ rfc_text A (val_enc cf) (val_ck cf) L v' /\ out_text (out_enc cf) (out_ck cf) L = Some w /\ Forall (plain_cp A cf) L.
Proof.
  intros okf F A cf v w Ho Hv HF B O D. apply dump_string_ret in D; [|assumption]. apply d_val_iff in D.
  destruct (lay_ws cf B) as (W1 & W2 & W3).
  destruct (proj1 (rend_rfc A cf Hv (lay cf) W1 W2 W3 okf F HF) 0 v w D O) as (L & v' & E & X & M & P).
  exists L, v'. split; [exact E|]. split; [|split; assumption].
  pose proof (rt A (val_enc cf) (val_ck cf) [] L [] v') as Y. cbn [app] in Y. rewrite app_nil_r in Y.
  apply Y; [constructor|assumption|constructor].
Qed.

(** nothing replaced *)
Lemma echo_same : forall v v', echo (fun f x => x = VFloat f) v v' -> v' = v.
Proof.
  intro v. induction v as [|z|f|s|b|l IH|m IH] using value_rect2; intros v' H; inversion H; subst; try reflexivity; try contradiction.
  - f_equal. match goal with X : Forall2 _ _ _ |- _ => revert IH; induction X as [|a b l l' Y X IHX]; intro IH end; [reflexivity|].
    inversion IH; subst. f_equal; [auto|]. apply IHX; [constructor|]; assumption.
  - f_equal. match goal with X : Forall2 _ _ _ |- _ => revert IH; induction X as [|[k a] [k' b] l l' [Yk Y] X IHX]; intro IH end; [reflexivity|].
    inversion IH; subst. cbn [fst snd] in *. subst k'. f_equal; [f_equal; auto|]. apply IHX; [constructor|]; assumption.
Qed.

Lemma dump_rfc : forall A cf v w, enc_ok (out_enc cf) (out_ck cf) = true -> enc_ok (val_enc cf) (val_ck cf) = true ->
  blank_indent cf -> ok_value A cf v -> dump_string cf v = Ret w ->
  exists L, rfc_text A (val_enc cf) (val_ck cf) L v /\ out_text (out_enc cf) (out_ck cf) L = Some w /\ Forall (plain_cp A cf) L.
Proof.
  intros A cf v w Ho Hv B O D.
  destruct (dump_rfc_but ok_float (fun f x => x = VFloat f) A cf v w Ho Hv) as (L & v' & E & X); try assumption.
  - intros f u Of T. exists (VFloat f). split; [reflexivity|]. exact (float_rfc A cf f u Of T).
  - apply echo_same in E. subst v'. exists L. exact X.
Qed.

(** a parser that reads what the serializer writes *)
Definition reads (pc : pcfg) (cf : scfg) : Prop :=
  src_ck pc = out_ck cf /\ src_enc pc = out_enc cf /\ tgt_ck pc = val_ck cf /\ tgt_enc pc = val_enc cf.

(** texts of plain characters are read as what they denote *)
Lemma text_read : forall pc cf L v w, reads pc cf -> enc_ok (out_enc cf) (out_ck cf) = true -> enc_ok (val_enc cf) (val_ck cf) = true ->
  (out_enc cf = Ignore -> s_esc cf = true) -> rfc_text plain (val_enc cf) (val_ck cf) L v ->
  out_text (out_enc cf) (out_ck cf) L = Some w -> Forall (plain_cp plain cf) L -> parse_string pc w = Ret v.
Proof.
  intros pc cf L v w (R1 & R2 & R3 & R4) Ho Hv Ig T E P.
  apply (rfc_accepted pc w L v); rewrite ?R1, ?R2, ?R3, ?R4; [assumption| |assumption].
  apply feeds_enc_text; [assumption|rewrite <- out_text_enc; assumption|].
  eapply Forall_impl; [|exact P]. intros x [X|[Es X]].
  - apply faithful_rt. unfold faithful, SpecGrammar.lead. destruct (out_enc cf); try exact Logic.I; lia.
  - apply faithful_rt. unfold faithful. destruct X as (_ & Lx & _). destruct (out_enc cf); try exact Logic.I.
    + rewrite (Ig eq_refl) in Es. discriminate.
    + intro Y. exact (Lx Y).
Qed.

Lemma round_trip : forall pc cf v w, reads pc cf -> enc_ok (out_enc cf) (out_ck cf) = true -> enc_ok (val_enc cf) (val_ck cf) = true ->
  (out_enc cf = Ignore -> s_esc cf = true) ->
  blank_indent cf -> ok_value plain cf v -> dump_string cf v = Ret w -> parse_string pc w = Ret v.
Proof.
  intros pc cf v w R Ho Hv Ig B O D. destruct (dump_rfc plain cf v w Ho Hv B O D) as (L & T & E & P). eapply text_read; eassumption.
Qed.
