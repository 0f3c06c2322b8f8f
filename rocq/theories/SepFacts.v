(** Consequences of the error characterisation used by the property file:
    separators, trailing text, numbers followed by wide characters. *)
From Coq Require Import Lia ZifyBool ZifyNat ZifyN Floats.SpecFloat.
From Verif Require Import Base Stream Encoding Value Token Parser EncodingProofs Feeds ListMachine Simulation SimParse
  SpecUnicode SpecGrammar SpecPos SpecGap SpecText SpecRfc GrammarLex GrammarTok ObjFacts GrammarProofs PosProofs PosSound Mono Context
  GrammarFacts NumberFacts FloatFacts TextFacts RfcFacts.

Open Scope N_scope.

(** a character that starts no number *)
Definition no_number (c : N) : Prop := c <> 43 /\ c <> 45 /\ ~ ascii_digit c.

Lemma no_number_bad : forall ck c r, no_number c -> ~ bad_sign ck (c :: r).
Proof. intros ck c r (A & B & C) H. inversion H; subst. lia. Qed.
Lemma no_number_over : forall ck nd c r, no_number c -> ~ overflow ck nd (c :: r).
Proof. intros ck nd c r (A & B & C) H. unfold ascii_digit in C. inversion H; subst; lia. Qed.

Lemma reject_char : forall cf s l t k c r, enc_ok (tgt_enc cf) (tgt_ck cf) = true ->
  feeds (src_enc cf) (src_ck cf) (sis s) l t -> pos cf k l (c :: r) -> no_number c -> ~ fits k (c :: r) ->
  exists m, parse_string cf s = Throw (EDeser m).
Proof.
  intros cf s l t k c r Hok F P N Ft. eapply reject; eauto.
  - right. discriminate.
  - apply no_number_bad; assumption.
  - apply no_number_over; assumption.
Qed.

Lemma reject_end : forall cf s l k, enc_ok (tgt_enc cf) (tgt_ck cf) = true ->
  feeds (src_enc cf) (src_ck cf) (sis s) l TEof -> pos cf k l [] -> k <> KEnd ->
  exists m, parse_string cf s = Throw (EDeser m).
Proof.
  intros cf s l k Hok F P N. eapply reject; eauto.
  - destruct k; cbn; auto.
  - intro H. inversion H.
  - intro H. inversion H.
Qed.

(** a comma where an element or key is due *)
Lemma reject_comma : forall cf s l t k r, enc_ok (tgt_enc cf) (tgt_ck cf) = true ->
  feeds (src_enc cf) (src_ck cf) (sis s) l t -> pos cf k l (44 :: r) -> k = KVal \/ k = KElem \/ k = KKey ->
  exists m, parse_string cf s = Throw (EDeser m).
Proof.
  intros cf s l t k r Hok F P K. eapply reject_char; eauto.
  - unfold no_number, ascii_digit. lia.
  - unfold fits, starts_val. destruct K as [-> | [-> | ->]]; lia.
Qed.

(** a token other than those expected *)
Lemma tok_reject : forall cf s l t k r x r', enc_ok (tgt_enc cf) (tgt_ck cf) = true ->
  feeds (src_enc cf) (src_ck cf) (sis s) l t -> pos cf k l r -> r <> [] -> tok_at cf r x r' -> ~ fits k r ->
  exists m, parse_string cf s = Throw (EDeser m).
Proof.
  intros cf s l t k r x r' Hok F P N T Nf. rewrite (parse_string_tops cf s l t F).
  assert (O : ok t r) by (apply ok_ne; assumption).
  assert (Ol : ok t l) by (eapply ok_mono; [exact O|eapply pos_len; exact P]).
  assert (E0 : a_scan_tok cf TEof r = Ret (x, r')) by (apply scan_tok_iff; [reflexivity || (destruct r; reflexivity)|split; [assumption|destruct r'; reflexivity]]).
  assert (Nx : forall b, ~ isX b (a_scan_tok cf TEof r)) by (intros b H; rewrite E0 in H; destruct b; cbn in H; discriminate || contradiction).
  assert (S : stuck cf t OErr k r).
  { split; [assumption|]. pose proof (nice_scan_tok false cf t r) as Ni.
    destruct (a_scan_tok cf t r) as [[y r1]|e| | |] eqn:E.
    - right. split; [reflexivity|]. exists y, r1. split; [reflexivity|]. left. eapply fits_allowed; eauto.
    - left. destruct Ni as [m ->]. cbn. eauto.
    - exfalso. assert (X : badtok true cf t r) by (apply scan_tok_x; rewrite E; reflexivity).
      apply (Nx true). apply scan_tok_x. destruct X as (X1 & X2 & X3). split; [assumption|]. split; [assumption|]. destruct (tl r); reflexivity.
    - exfalso. assert (X : badtok false cf t r) by (apply scan_tok_x; rewrite E; reflexivity).
      apply (Nx false). apply scan_tok_x. exact X.
    - discriminate Ni. }
  pose proof (pos_body cf t Hok k l r P OErr (need l) VNull S (le_n _)) as [m H].
  unfold tops. rewrite Ol. destruct (a_body cf t (need l) VNull l) as [v o]. cbn [snd] in H. subst o. cbn. eauto.
Qed.

Lemma pos_solid : forall cf k l r, pos cf k l r -> solid r.
Proof.
  intros cf k l r H. destruct H as [l r B|k l r I|l v l1 r V B]; try (eapply blank_solid; eassumption).
  revert k l r I. apply (inside_mut cf (fun _ _ r => solid r) (fun _ _ r => solid r) (fun _ _ r => solid r)); intros;
    try assumption; eapply blank_solid; eassumption.
Qed.

Lemma solid_blank : forall l r, solid l -> blank l r -> r = l.
Proof.
  intros l r S B. destruct B; cbn in S; try reflexivity; exfalso; destruct S as [S1 S2]; try lia; unfold space in *; tauto.
Qed.

Lemma number_tok : forall ck nd l v l', number ck nd l v l' -> exists x, tokv x = Some v.
Proof.
  intros ck nd l v l' H. destruct H as [c l v l' A B U|l v l' U|l v l' U]; destruct (unsigned_numv _ _ _ _ _ U) as [[z|f] ->]; cbn.
  all: first [now exists (AInt z) | now exists (AFlt f) | now exists (AInt (- z)%Z) | now exists (AFlt (SFopp f))].
Qed.

(** a value where a separator, a colon or nothing is due *)
Lemma value_reject : forall cf s l t k r v q, enc_ok (tgt_enc cf) (tgt_ck cf) = true ->
  feeds (src_enc cf) (src_ck cf) (sis s) l t -> pos cf k l r -> k = KAfterElem \/ k = KAfterMem \/ k = KColon \/ k = KEnd ->
  val cf r v q -> exists m, parse_string cf s = Throw (EDeser m).
Proof.
  intros cf s l t k r v q Hok F P K V. pose proof (pos_solid cf k l r P) as So.
  assert (X : exists c r1 x r', r = c :: r1 /\ starts_val c /\ tok_at cf r x r').
  { destruct V as [r l1 v l' B L|r l1 v l' B L|r l1 s' l' B L|r l1 vs l' B L|r l1 ms m l' B L O]; pose proof (solid_blank _ _ So B) as E; subst.
    - destruct (literal_start _ _ _ _ L) as (c & r1 & -> & H). exists c, r1. destruct L; eexists _, _; (split; [reflexivity|]);
        (split; [unfold starts_val; lia|]); [eapply ta_true|eapply ta_false|eapply ta_null]; constructor; assumption.
    - destruct (number_start _ _ _ _ _ L) as (c & r1 & -> & H). exists c, r1. destruct (number_tok _ _ _ _ _ L) as (x & Hx).
      exists x, l'. split; [reflexivity|]. split; [unfold starts_val, num_start in *; lia|]. eapply ta_num; eassumption.
    - destruct (strlit_start cf _ _ _ _ _ L) as (r1 & -> & _). eexists _, _, _, _. split; [reflexivity|]. split; [unfold starts_val; lia|constructor].
    - eexists _, _, _, _. split; [reflexivity|]. split; [unfold starts_val; lia|constructor].
    - eexists _, _, _, _. split; [reflexivity|]. split; [unfold starts_val; lia|constructor]. }
  destruct X as (c & r1 & x & r' & -> & Sv & T). eapply tok_reject; eauto; [discriminate|].
  unfold starts_val in Sv. destruct K as [->|[->|[->| ->]]]; cbn; lia.
Qed.

Lemma no_abort_ub : forall cf s l t, enc_ok (tgt_enc cf) (tgt_ck cf) = true ->
  feeds (src_enc cf) (src_ck cf) (sis s) l t ->
  (forall k r, pos cf k l r -> ~ bad_sign (src_ck cf) r /\ ~ overflow (src_ck cf) (ndebug cf) r) ->
  (exists v, parse_string cf s = Ret v) \/ (exists m, parse_string cf s = Throw (EDeser m)).
Proof.
  intros cf s l t Hok F H. destruct (parse_string_total cf s) as [X|[X|[X|X]]]; auto; exfalso.
  - apply (abort_iff cf s l t Hok F) in X. destruct X as (_ & k & r & P & B & _). destruct (H k r P) as [Y _]. auto.
  - apply (ub_iff cf s l t Hok F) in X. destruct X as (k & r & P & B). destruct (H k r P) as [_ Y]. auto.
Qed.

(** after a complete RFC 8259 value, 32-bit source: a character above U+007F *)
Lemma wide_after : forall cf s l t k w v c q, enc_ok (tgt_enc cf) (tgt_ck cf) = true -> src_ck cf = C32 ->
  feeds (src_enc cf) (src_ck cf) (sis s) l t -> pos cf k l (w ++ c :: q) -> k = KVal \/ k = KElem ->
  rfc_val plain (tgt_enc cf) (tgt_ck cf) w v -> 127 < c -> c < 4294967296 ->
  exists m, parse_string cf s = Throw (EDeser m).
Proof.
  intros cf s l t k w v c q Hok E F P K V A B. eapply high_after; try eassumption.
  apply rfc_val_val; [eassumption|]. split; cbn.
  - unfold digit. rewrite E, low32 by lia. lia.
  - lia.
Qed.

(** integral values with a written-out zero fraction *)
Lemma parse_point_zero : forall cf p neg z w fd, enc_ok (src_enc cf) (src_ck cf) = true -> enc_ok (tgt_enc cf) (tgt_ck cf) = true ->
  sign p neg -> numeral z w -> (z < 2 ^ 53)%Z -> fd <> [] -> Forall (fun d => d = 48) fd ->
  exists f, parse_string cf (p ++ w ++ 46 :: fd) = Ret (VFloat f) /\ is_int f (if neg then - z else z)%Z.
Proof.
  intros cf p neg z w fd Hs Ht Sg Nu L Nn Z0. destruct (numeral_pos _ _ Nu) as [Zp Zz].
  pose proof (d_of_Z_small z ltac:(lia)) as [I V].
  assert (E : frac_value (d_of_Z z) dtenth fd = d_of_Z z).
  { apply zero_fraction; [|assumption]. destruct (Z.eq_dec z 0) as [->|Nz]; [exact Logic.I|]. 
    unfold is_int in I. destruct (d_of_Z z) as [[|]|b| |b m e]; auto; lia. }
  assert (Ma : mantissa (w ++ 46 :: fd) true (d_of_Z z)).
  { rewrite <- E at 1. apply ma_frac; auto; [unfold max_int; lia|]. eapply Forall_impl; [|exact Z0]. cbn. unfold ascii_digit. lia. }
  eexists. split; [apply (parse_frac cf Hs Ht p neg _ _ Sg Ma)|].
  destruct neg; [|exact I]. unfold is_int in *. destruct (d_of_Z z) as [b|b| |b m e]; cbn [SFopp]; try lia.
  destruct b; cbn [negb]; destruct (0 <=? e)%Z; nia.
Qed.

Lemma after_document : forall cf s l t v l1 r, enc_ok (tgt_enc cf) (tgt_ck cf) = true ->
  feeds (src_enc cf) (src_ck cf) (sis s) l t -> val cf l v l1 -> blank l1 r -> t = TEof \/ r <> [] ->
  ~ bad_sign (src_ck cf) r -> ~ overflow (src_ck cf) (ndebug cf) r ->
  match r with
  | [] => parse_string cf s = Ret v
  | c :: _ => if N.eqb c 0 then parse_string cf s = Ret v else exists m, parse_string cf s = Throw (EDeser m)
  end.
Proof.
  intros cf s l t v l1 r Hok F V B T Nb No. destruct r as [|c r].
  - apply (dialect cf s l t v Hok F). exists []. split; [|assumption]. eapply doc_end; eassumption.
  - destruct (N.eqb_spec c 0) as [->|Nz].
    + apply (dialect cf s l t v Hok F). exists (0 :: r). split; [|right; discriminate]. eapply doc_nul; eassumption.
    + eapply reject; try eassumption; [eapply ps_end; eassumption|cbn; assumption].
Qed.

Lemma rfc_gaps :
  (exists m, parse_string cfg_json (chars "0e1") = Throw (EDeser m)) /\
  (exists m, parse_string cfg_json (chars "1e0") = Throw (EDeser m)) /\
  parse_string cfg_json (chars "9223372036854775808") = UB /\
  parse_string cfg_json (chars "1e4294967296") = Ret (VFloat (d_of_Z 1)) /\
  (exists m, parse_string cfg_json (chars """\uD800""") = Throw (EDeser m)) /\
  Forall (fun w => exists v, rfc_text any Utf8 C8 w v)
    [chars "0e1"; chars "1e0"; chars "9223372036854775808"; chars "1e4294967296"].
Proof.
  split; [vm_compute; eauto|]. split; [vm_compute; eauto|]. split; [vm_compute; reflexivity|].
  split; [vm_compute; reflexivity|]. split; [vm_compute; eauto|].
  assert (X : forall w v, rfc_number any w v -> exists v, rfc_text any Utf8 C8 w v).
  { intros w v H. exists v. rewrite <- (app_nil_r w). apply (rt any Utf8 C8 [] w []); [constructor| |constructor]. apply rv_num. exact H. }
  assert (N1 : numeral 1 [49]) by (apply (nm_pos 49 []); [discriminate..|constructor]).
  assert (Px : forall f d ds, Forall (fun c => 48 <= c /\ c <= 57) (d :: ds) -> rfc_exp any f (101 :: d :: ds) (dmul f (dpow (d_of_Z 10) (Z.to_N (ten (d :: ds)))))).
  { intros f d ds H. apply rx_plain; [left; reflexivity|discriminate|exact H|exact (fun _ => Logic.I)..]. }
  repeat apply Forall_cons; [..|apply Forall_nil].
  - eapply X. eapply (rn_exp any [] false 0 [48] [] (d_of_Z 0) [101; 49]); try exact (fun _ => Logic.I);
      [apply mi_no|apply nm_zero|apply rf_none|apply Px; repeat constructor; discriminate|exact (fun _ _ => Logic.I)].
  - eapply X. eapply (rn_exp any [] false 1 [49] [] (d_of_Z 1) [101; 48]); try exact (fun _ => Logic.I);
      [apply mi_no|apply N1|apply rf_none|apply Px; repeat constructor; discriminate|exact (fun _ _ => Logic.I)].
  - eapply X. apply (rn_int any [] false 9223372036854775808 (chars "9223372036854775808")); [constructor| |exact (fun _ => Logic.I)].
    apply (nm_pos 57 (chars "223372036854775808")); [discriminate..|]. repeat constructor; discriminate.
  - eapply X. eapply (rn_exp any [] false 1 [49] [] (d_of_Z 1) (chars "e4294967296")); try exact (fun _ => Logic.I);
      [apply mi_no|apply N1|apply rf_none|apply Px; repeat constructor; discriminate|exact (fun _ _ => Logic.I)].
Qed.

Lemma narrow_digits :
  utf8_text [49; 304] [49; 196; 176] /\ parse_string cfg_json [49; 196; 176] = Ret (VInt 266) /\
  utf8_text [116; 370; 117; 101] [116; 197; 178; 117; 101] /\
  parse_string cfg_json [116; 197; 178; 117; 101] = Ret (VBool true).
Proof.
  repeat split.
  - apply (u8t_cons 49 [49]); [apply u8_1; discriminate|].
    apply (u8t_cons 304 [196; 176] [] []); [apply (u8_2 196 176); try split; discriminate|constructor].
  - apply (u8t_cons 116 [116]); [apply u8_1; discriminate|].
    apply (u8t_cons 370 [197; 178]); [apply (u8_2 197 178); try split; discriminate|].
    apply (u8t_cons 117 [117]); [apply u8_1; discriminate|].
    apply (u8t_cons 101 [101] [] []); [apply u8_1; discriminate|constructor].
Qed.
