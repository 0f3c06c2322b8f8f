(** The dumper's text is the rendering of SpecDump.v, and vice versa. *)
From Coq Require Import Lia ZifyBool ZifyNat ZifyN Floats.SpecFloat.
From Verif Require Import Base Stream Encoding Value Token FloatFmt Parser EncodingProofs EncodingFacts Feeds SpecGrammar
  SpecText GrammarLex GrammarTok NumberFacts Serializer DumpText DumpProofs SpecDump.
Ltac Zify.zify_post_hook ::= Z.div_mod_to_equations.
Open Scope N_scope.

(** ** Decoded numbers fit in 32 bits *)
Lemma decode_32 : forall e ck i cur c i', decode e ck i cur = (true, c, i') -> c < 4294967296.
Proof.
  assert (Z32 : forall z, z_u32 z < 4294967296) by (intro z; unfold z_u32; lia).
  assert (Z16 : forall z, z_u16 z < 4294967296) by (intro z; unfold z_u16; lia).
  intros e ck i cur c i' H. destruct e; cbn [decode] in H.
  - unfold ignore_decode in H. destruct (is_get ck i) as [x j]. inversion H; subst. apply Z32.
  - unfold utf8_decode in H. destruct (is_peek ck i) as [x j]. destruct (is_eof j); [discriminate|].
    destruct (utf8_read _ _ _ _) as [r k]. inversion H; subst. unfold u32_sub. lia.
  - unfold utf16_decode in H. destruct (is_get ck i) as [x j]. destruct (is_eof j); [discriminate|].
    destruct (is_lead_surrogate (z_u16 x)).
    + destruct (is_get ck j) as [y k]. destruct (is_trail_surrogate (z_u16 y)); inversion H; subst; [|apply Z16].
      unfold decode_surrogates, u32, u32_sub. lia.
    + inversion H; subst. apply Z16.
  - unfold utf32_decode in H. destruct (is_get ck i) as [x j]. destruct (is_eof j); [discriminate|]. inversion H; subst. apply Z32.
Qed.

Lemma feeds_32 : forall e ck i l t, feeds e ck i l t -> Forall (fun c => c < 4294967296) l.
Proof. intros e ck i l t F. induction F as [| |i c i' l t H G F IH]; constructor; [|exact IH]. exact (decode_32 _ _ _ _ _ _ (H 0)). Qed.

(** ** Decimal integers *)
Lemma ten_snoc : forall w d, ten (w ++ [d]) = (10 * ten w + (Z.of_N d - 48))%Z.
Proof. intros. unfold ten. rewrite fold_left_app. cbn [fold_left]. lia. Qed.

Lemma dec_aux : forall f n acc, n < 10 ^ N.of_nat (S f) -> 0 < n ->
  exists w, dec_digits_aux f n acc = w ++ acc /\ numeral (Z.of_N n) w.
Proof.
  assert (One : forall n, 0 < n -> n < 10 -> numeral (Z.of_N n) [48 + n]).
  { intros n A B. replace (Z.of_N n) with (ten [48 + n]) by (unfold ten; cbn [fold_left]; lia). constructor; [lia|lia|constructor]. }
  induction f as [|f IH]; intros n acc L P; cbn [dec_digits_aux].
  - exists [48 + n]. split; [reflexivity|]. apply One; [assumption|]. cbn in L. lia.
  - destruct (N.ltb_spec n 10) as [S|S]; [exists [48 + n]; split; [reflexivity|apply One; assumption]|].
    rewrite Nat2N.inj_succ, N.pow_succ_r' in L.
    destruct (IH (n / 10) ((48 + n mod 10) :: acc)) as (w & -> & Nm); [lia|lia|].
    exists (w ++ [48 + n mod 10]). rewrite <- app_assoc. split; [reflexivity|].
    inversion Nm as [E|d ds A B F E]; subst; [lia|].
    replace (Z.of_N n) with (ten ((d :: ds) ++ [48 + n mod 10])) by (rewrite ten_snoc; lia).
    cbn [app]. constructor; [assumption|assumption|]. apply Forall_app. split; [assumption|].
    constructor; [unfold ascii_digit; lia|constructor].
Qed.

Lemma size_pow : forall b n, 2 <= b -> n < b ^ N.of_nat (S (N.to_nat (N.size n))).
Proof.
  intros b n B. pose proof (N.size_gt n) as G. rewrite Nat2N.inj_succ, N2Nat.id, N.pow_succ_r'.
  assert (2 ^ N.size n <= b ^ N.size n) by (apply N.pow_le_mono_l; assumption). nia.
Qed.

Lemma dec_digits_numeral : forall n, numeral (Z.of_N n) (dec_digits n).
Proof.
  intro n. unfold dec_digits. destruct (N.eq_dec n 0) as [->|P]; [constructor|].
  destruct (dec_aux (N.to_nat (N.size n)) n []) as (w & E & Nm); [apply size_pow; lia|lia|].
  rewrite E, app_nil_r. exact Nm.
Qed.

Lemma ten_nonneg : forall w, Forall ascii_digit w -> (0 <= ten w)%Z.
Proof.
  intros w F. induction w as [|d w IH] using rev_ind; [cbn; lia|]. rewrite ten_snoc. apply Forall_app in F. destruct F as [F1 F2].
  inversion F2; subst. unfold ascii_digit in *. specialize (IH F1). lia.
Qed.
Lemma ten_pos : forall d w, 49 <= d -> Forall ascii_digit w -> (0 < ten (d :: w))%Z.
Proof.
  intros d w D F. induction w as [|e w IH] using rev_ind.
  - unfold ten. cbn [fold_left]. lia.
  - change (d :: w ++ [e]) with ((d :: w) ++ [e]). rewrite ten_snoc. apply Forall_app in F. destruct F as [F1 F2].
    inversion F2; subst. unfold ascii_digit in *. specialize (IH F1). lia.
Qed.

Lemma ten_inj : forall v w, Forall ascii_digit v -> Forall ascii_digit w -> hd 49 v <> 48 -> hd 49 w <> 48 -> ten v = ten w -> v = w.
Proof.
  intros v. induction v as [|d v IH] using rev_ind; intros w Fv Fw Hv Hw E.
  - destruct w as [|e w]; [reflexivity|]. exfalso. cbn [hd] in Hw. inversion Fw; subst.
    pose proof (ten_pos e w ltac:(unfold ascii_digit in *; lia) ltac:(assumption)). change (ten []) with 0%Z in E. lia.
  - destruct (rev w) as [|e r] eqn:Rw; [assert (Ew : w = []) by (rewrite <- (rev_involutive w), Rw; reflexivity)|assert (Ew : w = rev r ++ [e]) by (rewrite <- (rev_involutive w), Rw; reflexivity); set (w' := rev r) in *; clearbody w'; clear Rw]; subst w; [|rename w' into w].
    + exfalso. destruct v as [|c v].
      * cbn [app hd] in Hv. inversion Fv; subst. pose proof (ten_pos d [] ltac:(unfold ascii_digit in *; lia) ltac:(constructor)).
        cbn [app] in E. change (ten []) with 0%Z in E. lia.
      * cbn [app hd] in Hv. inversion Fv; subst. pose proof (ten_pos c (v ++ [d]) ltac:(unfold ascii_digit in *; lia) ltac:(assumption)).
        cbn [app] in E. change (ten []) with 0%Z in E. lia.
    + rewrite !ten_snoc in E. apply Forall_app in Fv. apply Forall_app in Fw. destruct Fv as [Fv1 Fv2], Fw as [Fw1 Fw2].
      inversion Fv2; inversion Fw2; subst. unfold ascii_digit in *.
      assert (d = e) by lia. subst e. f_equal. apply IH; auto; [destruct v; cbn [app hd] in *; (discriminate || auto)|destruct w; cbn [app hd] in *; (discriminate || auto)|lia].
Qed.

Lemma numeral_unique : forall z v w, numeral z v -> numeral z w -> v = w.
Proof.
  assert (X : forall z w, numeral z w -> (z = 0%Z /\ w = [48]) \/ (Forall ascii_digit w /\ hd 49 w <> 48 /\ ten w = z /\ (0 < z)%Z)).
  { intros z w H. inversion H as [|d ds A B F]; subst; [left; auto|right].
    split; [constructor; [unfold ascii_digit; lia|assumption]|]. cbn [hd]. split; [lia|]. split; [reflexivity|]. apply ten_pos; assumption. }
  intros z v w Hv Hw. destruct (X _ _ Hv) as [[-> ->]|(F1 & H1 & E1 & P1)], (X _ _ Hw) as [[E ->]|(F2 & H2 & E2 & P2)];
    try reflexivity; try lia. apply ten_inj; auto. congruence.
Qed.

Lemma int_text_iff : forall z w, int_text z w <-> w = dec_of_Z z.
Proof.
  intros z w. unfold dec_of_Z. split.
  - intros [z0 w0 H|z0 w0 L H].
    + destruct (numeral_pos _ _ H) as [P _]. replace (z0 <? 0)%Z with false by lia.
      eapply numeral_unique; [eassumption|]. pose proof (dec_digits_numeral (Z.to_N z0)) as X. rewrite Z2N.id in X by lia. exact X.
    + replace (z0 <? 0)%Z with true by lia. f_equal.
      eapply numeral_unique; [eassumption|]. pose proof (dec_digits_numeral (Z.to_N (- z0))) as X. rewrite Z2N.id in X by lia. exact X.
  - intros ->. destruct (Z.ltb_spec z 0) as [L|L].
    + apply itx_neg; [assumption|]. pose proof (dec_digits_numeral (Z.to_N (- z))) as X. rewrite Z2N.id in X by lia. exact X.
    + apply itx_pos. pose proof (dec_digits_numeral (Z.to_N z)) as X. rewrite Z2N.id in X by lia. exact X.
Qed.

(** ** Hexadecimal numbers *)
Lemma uhex_digit : forall d, d < 16 -> uhex (hex_digit d) d.
Proof. intros d L. unfold uhex, hex_digit. destruct (N.ltb_spec d 10); lia. Qed.
Lemma uhex_lt : forall c d, uhex c d -> d < 16.
Proof. intros c d H. unfold uhex in H. lia. Qed.
Lemma uhex_inj : forall c c' d, uhex c d -> uhex c' d -> c = c'.
Proof. intros c c' d H K. unfold uhex in *. lia. Qed.

Lemma hexnum_bound : forall n w, hexnum n w -> n < 16 ^ N.of_nat (length w).
Proof.
  intros n w H. induction H as [|n w c d H IH U]; [cbn; lia|].
  rewrite app_length. cbn [length]. rewrite Nat.add_1_r, Nat2N.inj_succ, N.pow_succ_r'. apply uhex_lt in U. lia.
Qed.
Lemma hexnum_low : forall n w, hexnum n w -> w <> [] -> hd 0 w <> 48 -> 16 ^ (N.of_nat (length w) - 1) <= n.
Proof.
  intros n w H. induction H as [|n w c d H IH U]; intros N0 H0; [congruence|].
  rewrite app_length. cbn [length]. replace (N.of_nat (length w + 1) - 1) with (N.of_nat (length w)) by lia.
  destruct w as [|x w].
  - inversion H as [E1 E2|]; [|destruct w; discriminate]. cbn [length app hd] in *. unfold uhex in U. change (16 ^ N.of_nat 0) with 1. lia.
  - specialize (IH ltac:(discriminate)). cbn [app hd] in *. specialize (IH H0). cbn [length] in *.
    replace (N.of_nat (S (length w))) with (N.succ (N.of_nat (S (length w)) - 1)) by lia. rewrite N.pow_succ_r'. lia.
Qed.
Lemma hexnum_inj : forall n v, hexnum n v -> forall w, hexnum n w -> length v = length w -> v = w.
Proof.
  intros n v H. induction H as [|n v c d H IH U]; intros w Hw L.
  - destruct w; [reflexivity|discriminate].
  - remember (16 * n + d) as x eqn:E1.
    destruct Hw as [|n' w' c' d' H' U']; [rewrite app_length in L; cbn in L; lia|].
    rewrite !app_length in L. cbn [length] in L. pose proof (uhex_lt _ _ U). pose proof (uhex_lt _ _ U').
    assert (d = d') by lia. subst d'. assert (n' = n) by lia. subst n'.
    rewrite (IH w' H' ltac:(lia)). rewrite (uhex_inj _ _ _ U U'). reflexivity.
Qed.

Lemma hex_aux : forall f n acc, n < 16 ^ N.of_nat (S f) -> 
  exists w, hex_digits_aux f n acc = w ++ acc /\ hexnum n w /\ w <> [] /\ (0 < n -> hd 0 w <> 48) /\ (n = 0 -> w = [48]).
Proof.
  assert (One : forall n, n < 16 -> hexnum n [hex_digit n]).
  { intros n A. pose proof (hn_snoc 0 [] (hex_digit n) n hn_nil (uhex_digit n A)) as X. exact X. }
  assert (Nz : forall n, 0 < n -> n < 16 -> hex_digit n <> 48) by (intros n A B; unfold hex_digit; destruct (N.ltb_spec n 10); lia).
  induction f as [|f IH]; intros n acc L; cbn [hex_digits_aux].
  - cbn in L. exists [hex_digit n]. split; [reflexivity|]. split; [apply One; lia|]. split; [discriminate|].
    split; [intro; apply Nz; lia|]. intros ->. reflexivity.
  - destruct (N.ltb_spec n 16) as [S|S].
    { exists [hex_digit n]. split; [reflexivity|]. split; [apply One; lia|]. split; [discriminate|].
      split; [intro; apply Nz; lia|]. intros ->. reflexivity. }
    rewrite Nat2N.inj_succ, N.pow_succ_r' in L.
    destruct (IH (n / 16) (hex_digit (n mod 16) :: acc)) as (w & -> & Hn & Ne & Hd & _); [lia|].
    exists (w ++ [hex_digit (n mod 16)]). rewrite <- app_assoc. split; [reflexivity|].
    split; [|split; [destruct w; discriminate|split; [|lia]]].
    + replace n with (16 * (n / 16) + n mod 16) at 1 by lia. constructor; [assumption|]. apply uhex_digit. lia.
    + intros _. destruct w as [|x w]; [congruence|]. cbn [app hd] in *. apply Hd. lia.
Qed.

Lemma hexnum_zeros : forall k n w, hexnum n w -> hexnum n (repeat 48 k ++ w).
Proof.
  assert (Z0 : forall k, hexnum 0 (repeat 48 k)).
  { induction k as [|k IH]; [constructor|]. replace (S k) with (k + 1)%nat by lia. rewrite repeat_app. cbn [repeat].
    change 0 with (16 * 0 + 0) at 1. constructor; [exact IH|left; lia]. }
  intros k n w H. induction H as [|n w c d H IH U]; [rewrite app_nil_r; apply Z0|].
  rewrite app_assoc. constructor; assumption.
Qed.

Lemma padded_iff : forall k n w, (0 < k)%nat -> (padded k n w <-> w = pad_left k 48 (hex_digits n)).
Proof.
  intros k n w K.
  destruct (hex_aux (N.to_nat (N.size n)) n []) as (v & E & Hn & Ne & Hd & Hz); [apply size_pow; lia|].
  rewrite app_nil_r in E. fold (hex_digits n) in E.
  assert (P : padded k n (pad_left k 48 (hex_digits n))).
  { rewrite E. unfold pad_left. split; [apply hexnum_zeros; assumption|].
    rewrite app_length, repeat_length. destruct (le_lt_dec (length v) k) as [L|L]; [left; lia|right].
    split; [lia|]. replace (k - length v)%nat with 0%nat by lia. cbn [repeat app]. apply Hd.
    destruct (N.eq_dec n 0) as [Z|Z]; [|lia]. rewrite (Hz Z) in L. cbn in L. lia. }
  split; [|intros ->; exact P]. intro Q. destruct P as [P1 P2], Q as [Q1 Q2].
  apply (hexnum_inj n); [assumption|assumption|].
  pose proof (hexnum_bound _ _ P1) as B1. pose proof (hexnum_bound _ _ Q1) as B2.
  set (p := pad_left k 48 (hex_digits n)) in *.
  assert (Cmp : forall a b, 16 ^ a <= n -> n < 16 ^ b -> a < b).
  { intros a b A B. destruct (N.lt_ge_cases a b) as [|G]; [assumption|].
    pose proof (N.pow_le_mono_r 16 b a ltac:(lia) G). lia. }
  destruct P2 as [P2|[P2 P3]], Q2 as [Q2|[Q2 Q3]]; try lia.
  - pose proof (hexnum_low _ _ Q1 ltac:(destruct w; [cbn in Q2; lia|discriminate]) Q3) as L.
    pose proof (Cmp _ _ L B1). lia.
  - pose proof (hexnum_low _ _ P1 ltac:(intro Z; rewrite Z in P2; cbn in P2; lia) P3) as L.
    pose proof (Cmp _ _ L B2). lia.
  - pose proof (hexnum_low _ _ Q1 ltac:(destruct w; [cbn in Q2; lia|discriminate]) Q3) as L.
    pose proof (hexnum_low _ _ P1 ltac:(intro Z; rewrite Z in P2; cbn in P2; lia) P3) as L'.
    pose proof (Cmp _ _ L B1). pose proof (Cmp _ _ L' B2). lia.
Qed.

(** ** Characters *)
Definition raw_units (cf : scfg) (c : N) (w : list N) : Prop := out_text (out_enc cf) (out_ck cf) [c] = Some w.

Lemma raw_iff : forall cf c w, raw_units cf c w <-> out_units (out_enc cf) (out_ck cf) c = Some w.
Proof.
  intros. unfold raw_units. cbn [out_text]. destruct (out_units _ _ c); [|split; discriminate].
  rewrite app_nil_r. reflexivity.
Qed.

Lemma short_iff : forall e c, (short e c /\ c <> 47) <-> short_escape c = Some e.
Proof.
  intros e c. unfold short_escape. split.
  - intros [H N]. destruct H; try reflexivity. congruence.
  - intro H. repeat match type of H with (if ?a =? ?b then _ else _) = _ => destruct (N.eqb_spec a b) end;
      try discriminate; apply some_inj in H; subst; (split; [constructor|discriminate]).
Qed.

Lemma surrogates_eq : forall c, 65535 < c -> c < 4294967296 ->
  encode_surrogates c = ((55296 + (c - 65536) / 1024) mod 65536, 56320 + (c - 65536) mod 1024).
Proof.
  intros c A B. unfold encode_surrogates. replace (u32_sub c 65536) with (c - 65536) by (unfold u32_sub; lia).
  rewrite N.shiftr_div_pow2. change 1023 with (N.ones 10). rewrite N.land_ones. change (2 ^ 10) with 1024.
  unfold u16. f_equal. rewrite (N.mod_small (56320 + _)); [reflexivity|]. lia.
Qed.

Lemma d_char_text : forall cf c w, c < 4294967296 -> (d_char cf c = txt w <-> char_text (s_esc cf) (raw_units cf) c w).
Proof.
  intros cf c w L. unfold d_char. destruct (short_escape c) as [e|] eqn:Se.
  - apply short_iff in Se. destruct Se as [Se N47]. split.
    + intro H. injection H as <-. apply ct_short; assumption.
    + intro H. inversion H as [c0 e0 S N E1 E2|c0 w0 S _ _ _ E1 E2|c0 w1 w2 _ G1 _ _ _ E1 E2|c0 w0 G32 G34 G92 _ _ E1 E2]; subst.
      * assert (X : Some e = Some e0) by (rewrite <- (proj1 (short_iff e c) (conj Se N47)); apply short_iff; auto).
        apply some_inj in X. subst. reflexivity.
      * destruct (S e); contradiction.
      * inversion Se; subst; lia.
      * inversion Se; subst; try lia; congruence.
  - assert (Ns : forall e, ~ short e c \/ c = 47).
    { intro e. destruct (N.eq_dec c 47) as [|N]; [right; assumption|left]. intro S. 
      rewrite (proj1 (short_iff e c) (conj S N)) in Se. discriminate. }
    assert (N34 : c <> 34) by (intros ->; discriminate). assert (N92 : c <> 92) by (intros ->; discriminate).
    destruct ((c <=? 31) || (s_esc cf && (127 <=? c))) eqn:X.
    + assert (Y : c < 32 \/ (s_esc cf = true /\ 127 <= c)) by (destruct (s_esc cf); lia).
      destruct (N.leb_spec c 65535) as [L6|L6].
      * unfold json_hex. replace (u16 c) with c by (unfold u16; lia). split.
        -- intro H. injection H as <-. apply ct_u; try assumption. apply padded_iff; [lia|reflexivity].
        -- intro H. inversion H as [c0 e0 S N E1 E2|c0 w0 S _ _ P E1 E2|c0 w1 w2 _ G1 _ _ _ E1 E2|c0 w0 G32 G34 G92 Ge _ E1 E2]; subst.
           ++ destruct (Ns e0); contradiction.
           ++ apply padded_iff in P; [|lia]. subst. reflexivity.
           ++ lia.
           ++ destruct Y as [Y|[Y1 Y2]]; [lia|]. specialize (Ge Y1). lia.
      * rewrite surrogates_eq by lia. cbn [fst snd]. unfold json_hex.
        assert (Es : s_esc cf = true) by (destruct Y as [Y|[Y1 Y2]]; [lia|assumption]). split.
        -- intro H. injection H as <-. rewrite <- ?app_comm_cons. apply ct_pair; try assumption; apply padded_iff; (lia || reflexivity).
        -- intro H. inversion H as [c0 e0 S N E1 E2|c0 w0 S _ G _ E1 E2|c0 w1 w2 _ G1 G2 P1 P2 E1 E2|c0 w0 G32 G34 G92 Ge _ E1 E2]; subst.
           ++ destruct (Ns e0); contradiction.
           ++ lia.
           ++ apply padded_iff in P1; [|lia]. apply padded_iff in P2; [|lia]. subst. reflexivity.
           ++ specialize (Ge Es). lia.
    + assert (Y : 32 <= c /\ (s_esc cf = true -> c < 127)) by (destruct (s_esc cf); lia). destruct Y as [Y1 Y2]. split.
      * intro H. apply ct_raw; try assumption. apply raw_iff. destruct (out_units _ _ c); [|discriminate]. injection H as ->. reflexivity.
      * intro H. inversion H as [c0 e0 S N E1 E2|c0 w0 S Hc _ P E1 E2|c0 w1 w2 He G1 _ _ _ E1 E2|c0 w0 G32 G34 G92 Ge R E1 E2]; subst.
        -- destruct (Ns e0); contradiction.
        -- destruct Hc as [|[Hc1 Hc2]]; [lia|]. specialize (Y2 Hc1). lia.
        -- specialize (Y2 He). lia.
        -- apply raw_iff in R. rewrite R. reflexivity.
Qed.

(** ** Strings *)
Lemma txt_inj : forall a b, txt a = txt b -> a = b.
Proof. intros a b H. injection H. auto. Qed.

Lemma dthen_ret : forall a b w, dthen a b = txt w <-> exists u v, a = txt u /\ b = txt v /\ w = u ++ v.
Proof.
  intros [wa oa] [wb ob] w. split.
  - destruct oa as [[]| | | |]; cbn; intro H; try discriminate. unfold txt in H. injection H as <- ->.
    exists wa, wb. auto.
  - intros (u & v & Ea & Eb & ->). injection Ea as -> ->. injection Eb as -> ->. reflexivity.
Qed.

Lemma d_chars_text : forall cf cps w, Forall (fun c => c < 4294967296) cps ->
  (d_chars cf cps TEof = txt w <-> chars_text (s_esc cf) (raw_units cf) cps w).
Proof.
  intros cf cps w F. revert w. induction F as [|c cps L F IH]; intro w; cbn [d_chars].
  - split; [intro H; apply txt_inj in H; subst; constructor|]. intro H. inversion H. reflexivity.
  - rewrite dthen_ret. split.
    + intros (u & v & A & B & ->). constructor; [apply d_char_text; assumption|apply IH; assumption].
    + intro H. inversion H as [|c0 u cps0 v A B]; subst. exists u, v. split; [apply d_char_text; assumption|].
      split; [apply IH; assumption|reflexivity].
Qed.

Lemma d_chars_bad : forall cf cps x w, d_chars cf cps (TBad x) <> txt w.
Proof.
  intros cf cps x. induction cps as [|c cps IH]; intros w H; cbn [d_chars] in H; [discriminate|].
  apply dthen_ret in H. destruct H as (u & v & _ & B & _). exact (IH v B).
Qed.

Lemma d_string_text : forall cf s w, d_string cf s = txt w <-> unit_string cf s w.
Proof.
  intros cf s w. unfold d_string.
  destruct (feeds_string (val_enc cf) (val_ck cf) s) as (l & tm & F & L).
  rewrite (decs_feeds _ _ _ _ _ F) by lia. pose proof (feeds_32 _ _ _ _ _ F) as B. split.
  - intro H. apply dthen_ret in H. destruct H as (u1 & v1 & A1 & A2 & ->). apply txt_inj in A1. subst u1.
    apply dthen_ret in A2. destruct A2 as (u2 & v2 & A2 & A3 & ->). apply txt_inj in A3. subst v2.
    destruct tm; [|exfalso; exact (d_chars_bad _ _ _ _ A2)].
    apply us with (cps := l); [exact F|]. apply d_chars_text; assumption.
  - intro H. destruct H as [cps w F2 C]. destruct (feeds_det _ _ _ _ _ F _ _ F2) as [-> ->].
    apply (d_chars_text cf cps w B) in C. rewrite C. reflexivity.
Qed.

(** ** Floats *)
Lemma integral_int : forall f, f64_integral f = true -> (forall s, f <> S754_infinity s) -> exists z, f64_trunc f = Some z /\ is_int f z.
Proof.
  intros f H NI. destruct f as [s|s| |s m e]; cbn [f64_integral f64_trunc is_int] in *; try discriminate; eauto.
  - exfalso. exact (NI s eq_refl).
  - destruct (Z.leb_spec 0 e) as [L|L]; cbn [orb] in H.
    + eexists. split; [reflexivity|]. destruct s; lia.
    + eexists. split; [reflexivity|]. apply N.eqb_eq in H.
      assert (D : (Z.pos m mod 2 ^ (- e) = 0)%Z).
      { apply (f_equal Z.of_N) in H. rewrite N2Z.inj_mod, N2Z.inj_pow, Z2N.id in H by lia. exact H. }
      assert (P : (0 < 2 ^ (- e))%Z) by (apply Z.pow_pos_nonneg; lia).
      pose proof (Z_div_mod_eq_full (Z.pos m) (2 ^ (- e))) as Q. rewrite D in Q. 
      assert (R : (Z.neg m = - Z.pos m)%Z) by reflexivity. destruct s; nia.
Qed.
Lemma int_integral : forall f z, is_int f z -> f64_integral f = true /\ f64_trunc f = Some z.
Proof.
  intros f z H. destruct f as [s|s| |s m e]; cbn [f64_integral f64_trunc is_int] in *; try contradiction; [subst; auto|].
  destruct (Z.leb_spec 0 e) as [L|L]; cbn [orb].
  - split; [reflexivity|]. f_equal. destruct s; subst; lia.
  - assert (P : (0 < 2 ^ (- e))%Z) by (apply Z.pow_pos_nonneg; lia).
    assert (E : exists a, (Z.pos m = a * 2 ^ (- e))%Z /\ z = (if s then - a else a)%Z /\ (0 < a)%Z).
    { destruct s; [exists (- z)%Z|exists z]; (split; [|split; [lia|]]); nia. }
    destruct E as (a & E & Ez & Pa). split.
    + apply N.eqb_eq. apply N2Z.inj. rewrite N2Z.inj_mod, N2Z.inj_pow, Z2N.id by lia. cbn [Z.of_N].
      rewrite E. apply Z.mod_mul. lia.
    + rewrite E, Z.div_mul by lia. subst z. reflexivity.
Qed.

Lemma d_float_text : forall cf f w, d_float cf f = txt w <-> float_text (s_ff cf) (s_prec cf) f w.
Proof.
  intros cf f w. unfold d_float. destruct (f64_integral f) eqn:I.
  - unfold f64_to_int64. destruct (f64_trunc f) as [z|] eqn:T.
    + assert (NI : forall s, f <> S754_infinity s) by (intros s ->; discriminate).
      destruct (integral_int f I NI) as (z' & T' & Iz). rewrite T in T'. apply some_inj in T'. subst z'.
      unfold chk64. destruct (in_int64 z) eqn:B.
      * assert (Bz : int64 z) by (unfold int64; unfold in_int64, int64_min, int64_max in B; lia). split.
        -- intro H. apply txt_inj in H. subst w. apply ftx_int with (z := z); [assumption|assumption|apply int_text_iff; reflexivity].
        -- intro H. inversion H as [z' w' Iz' Bz' Tx|Nz _]; subst.
           ++ destruct (int_integral f z' Iz') as [_ T2]. rewrite T in T2. apply some_inj in T2. subst z'.
              apply int_text_iff in Tx. subst w'. reflexivity.
           ++ exfalso. exact (Nz z Iz).
      * split; [discriminate|]. intro H. inversion H as [z' w' Iz' Bz' Tx|Nz _]; subst; [|exfalso; exact (Nz z Iz)].
        destruct (int_integral f z' Iz') as [_ T2]. rewrite T in T2. apply some_inj in T2. subst z'.
        unfold int64 in Bz'. unfold in_int64, int64_min, int64_max in B. lia.
    + split; [discriminate|]. intro H. inversion H as [z' w' Iz' Bz' Tx|Nz Ni]; subst.
      * destruct (int_integral f z' Iz') as [_ T2]. congruence.
      * destruct f as [s|s| |s m e]; try discriminate. exfalso. exact (Ni s eq_refl).
  - split.
    + intro H. apply txt_inj in H. subst w. apply ftx_frac.
      * intros z Iz. destruct (int_integral f z Iz). congruence.
      * intros s ->. discriminate.
    + intro H. inversion H as [z' w' Iz' Bz' Tx|Nz Ni]; subst; [|reflexivity].
      destruct (int_integral f z' Iz'). congruence.
Qed.

(** ** Values *)
(** the layout the options stand for, with the 16-bit depth counter *)
Definition lay (cf : scfg) : layout := mkLay (d_nl cf) (d_ind cf) (d_sp cf).

Section Vals.
Variable cf : scfg.
Notation R := (rend (unit_string cf) (float_text (s_ff cf) (s_prec cf)) (lay cf)).
Notation RE := (rend_elems (unit_string cf) (float_text (s_ff cf) (s_prec cf)) (lay cf)).
Notation RM := (rend_members (unit_string cf) (float_text (s_ff cf) (s_prec cf)) (lay cf)).

Lemma d_elems_rend : forall l, Forall (fun v => forall d w, d_val cf d v = txt w -> R d v w) l -> l <> [] ->
  forall d w, d_seq (d_nl cf ++ d_ind cf d) (map (d_val cf d) l) = txt w -> RE d l w.
Proof.
  intros l F. induction F as [|v l Hv F IH]; intros N d w H; [congruence|]. cbn [map d_seq] in H.
  apply dthen_ret in H. destruct H as (u & x & E1 & H & ->). apply txt_inj in E1. subst u.
  apply dthen_ret in H. destruct H as (u & y & E2 & H & ->). apply Hv in E2. rewrite <- app_assoc.
  destruct l as [|v' l].
  - cbn [map] in H. apply txt_inj in H. subst y. rewrite app_nil_r. apply (rde_one _ _ (lay cf)). exact E2.
  - cbn [map] in H. apply dthen_ret in H. destruct H as (a & z & E3 & H & ->). apply txt_inj in E3. subst a.
    apply (rde_more _ _ (lay cf)); [exact E2|]. apply IH; [discriminate|exact H].
Qed.

Lemma d_members_rend : forall m, Forall (fun p => forall d w, d_val cf d (snd p) = txt w -> R d (snd p) w) m -> m <> [] ->
  forall d w, d_seq (d_nl cf ++ d_ind cf d) (map (d_member cf d) m) = txt w -> RM d m w.
Proof.
  intros m F. induction F as [|[k v] m Hv F IH]; intros N d w H; [congruence|]. cbn [map d_seq] in H. cbn [snd] in Hv.
  apply dthen_ret in H. destruct H as (u & x & E1 & H & ->). apply txt_inj in E1. subst u.
  apply dthen_ret in H. destruct H as (u & y & E2 & H & ->). unfold d_member in E2. cbn [fst snd] in E2.
  apply dthen_ret in E2. destruct E2 as (wk & z & Ek & E2 & ->). apply d_string_text in Ek.
  apply dthen_ret in E2. destruct E2 as (c & wv & Ec & Ev & ->). apply txt_inj in Ec. subst c. apply Hv in Ev.
  replace ((d_nl cf ++ d_ind cf d) ++ (wk ++ (58 :: d_sp cf) ++ wv) ++ y) with
    (d_nl cf ++ d_ind cf d ++ wk ++ 58 :: d_sp cf ++ wv ++ y) by (repeat (rewrite <- ?app_assoc; cbn [app]); reflexivity).
  destruct m as [|p m].
  - cbn [map] in H. apply txt_inj in H. subst y. rewrite app_nil_r. apply (rdm_one _ _ (lay cf)); assumption.
  - cbn [map] in H. apply dthen_ret in H. destruct H as (a & z & E3 & H & ->). apply txt_inj in E3. subst a.
    apply (rdm_more _ _ (lay cf)); [assumption|assumption|]. apply IH; [discriminate|exact H].
Qed.

Lemma d_val_rend : forall v d w, d_val cf d v = txt w -> R d v w.
Proof.
  apply (value_rect2 (fun v => forall d w, d_val cf d v = txt w -> R d v w)); cbn [d_val].
  - intros d w H. apply txt_inj in H. subst. constructor.
  - intros z d w H. apply txt_inj in H. subst. constructor. apply int_text_iff. reflexivity.
  - intros f d w H. constructor. apply d_float_text. exact H.
  - intros s d w H. constructor. apply d_string_text. exact H.
  - intros [|] d w H; apply txt_inj in H; subst; constructor.
  - intros l F d w H. apply dthen_ret in H. destruct H as (u & x & E1 & H & ->). apply txt_inj in E1. subst u.
    apply dthen_ret in H. destruct H as (u & y & E2 & H & ->). apply txt_inj in H. subst y. destruct l as [|v l].
    + cbn [map d_seq] in E2. apply txt_inj in E2. subst u. apply (rd_arr_nil _ _ (lay cf)).
    + apply (rd_arr _ _ (lay cf)). apply d_elems_rend; [exact F|discriminate|exact E2].
  - intros m F d w H. apply dthen_ret in H. destruct H as (u & x & E1 & H & ->). apply txt_inj in E1. subst u.
    apply dthen_ret in H. destruct H as (u & y & E2 & H & ->). apply txt_inj in H. subst y. destruct m as [|p m].
    + cbn [map d_seq] in E2. apply txt_inj in E2. subst u. apply (rd_obj_nil _ _ (lay cf)).
    + apply (rd_obj _ _ (lay cf)). apply d_members_rend; [exact F|discriminate|exact E2].
Qed.

Scheme rend_mind := Induction for rend Sort Prop
  with rend_elems_mind := Induction for rend_elems Sort Prop
  with rend_members_mind := Induction for rend_members Sort Prop.
Combined Scheme rend_mutind from rend_mind, rend_elems_mind, rend_members_mind.

Lemma d_seq_more : forall pre a b l,
  d_seq pre (a :: b :: l) = dthen (txt pre) (dthen a (dthen (txt [44]) (d_seq pre (b :: l)))).
Proof. reflexivity. Qed.

Lemma rend_d_val_all :
  (forall d v w, R d v w -> d_val cf d v = txt w) /\
  (forall d l w, RE d l w -> d_seq (d_nl cf ++ d_ind cf d) (map (d_val cf d) l) = txt w) /\
  (forall d m w, RM d m w -> d_seq (d_nl cf ++ d_ind cf d) (map (d_member cf d) m) = txt w).
Proof.
  apply (rend_mutind (unit_string cf) (float_text (s_ff cf) (s_prec cf)) (lay cf)
    (fun d v w _ => d_val cf d v = txt w)
    (fun d l w _ => d_seq (d_nl cf ++ d_ind cf d) (map (d_val cf d) l) = txt w)
    (fun d m w _ => d_seq (d_nl cf ++ d_ind cf d) (map (d_member cf d) m) = txt w)); cbn [d_val]; try reflexivity.
  - intros d z w H. apply int_text_iff in H. subst. reflexivity.
  - intros d f w H. apply d_float_text. exact H.
  - intros d s w H. apply d_string_text. exact H.
  - intros d v vs w H IH. rewrite IH. reflexivity.
  - intros d p m w H IH. change (map _ (p :: m)) with (map (d_member cf (d + 1)) (p :: m)). rewrite IH. reflexivity.
  - intros d v w H IH. cbn [map d_seq]. rewrite IH. cbn. rewrite app_nil_r, <- app_assoc. reflexivity.
  - intros d v w v' vs ws H IH H2 IH2. cbn [map] in *. rewrite d_seq_more, IH, IH2. cbn. rewrite <- app_assoc. reflexivity.
  - intros d k wk v w Hk H IH. cbn [map d_seq]. unfold d_member. cbn [fst snd]. apply d_string_text in Hk. rewrite Hk, IH.
    cbn. rewrite app_nil_r, <- app_assoc. reflexivity.
  - intros d k wk v w p m ws Hk H IH H2 IH2. cbn [map] in *. rewrite d_seq_more, IH2. unfold d_member at 1. cbn [fst snd]. apply d_string_text in Hk. rewrite Hk, IH.
    cbn. rewrite <- !app_assoc. cbn. rewrite <- !app_assoc. reflexivity.
Qed.

Lemma d_val_iff : forall d v w, d_val cf d v = txt w <-> R d v w.
Proof. intros. split; [apply d_val_rend|apply rend_d_val_all]. Qed.
End Vals.

(** layouts that agree on the depths used give the same text *)
Lemma max_le : forall (l : list N) x, In x l -> x <= fold_right N.max 0 l.
Proof. intros l x. induction l as [|y l IH]; intros []; cbn [fold_right]; [subst; lia|]. specialize (IH H). lia. Qed.

Lemma rend_lay : forall str flt la la' b, nl la = nl la' -> sp la = sp la' -> (forall d, d <= b -> ind la d = ind la' d) ->
  (forall d v w, rend str flt la d v w -> d + height v <= b -> rend str flt la' d v w) /\
  (forall d l w, rend_elems str flt la d l w -> (forall v, In v l -> d + height v <= b) -> rend_elems str flt la' d l w) /\
  (forall d m w, rend_members str flt la d m w -> (forall p, In p m -> d + height (snd p) <= b) -> rend_members str flt la' d m w).
Proof.
  intros str flt la la' b E1 E2 E3.
  apply (rend_mutind str flt la
    (fun d v w _ => d + height v <= b -> rend str flt la' d v w)
    (fun d l w _ => (forall v, In v l -> d + height v <= b) -> rend_elems str flt la' d l w)
    (fun d m w _ => (forall p, In p m -> d + height (snd p) <= b) -> rend_members str flt la' d m w));
    rewrite ?E1, ?E2; try (intros; constructor; assumption).
  - intros d H. cbn [height map fold_right] in H. rewrite E3 by lia. constructor.
  - intros d v vs w H IH L. cbn [height] in L. rewrite E3 by lia. constructor. apply IH. intros x X.
    pose proof (max_le (map height (v :: vs)) (height x) (in_map height (v :: vs) x X)). lia.
  - intros d H. cbn [height map fold_right] in H. rewrite E3 by lia. constructor.
  - intros d p m w H IH L. cbn [height] in L. rewrite E3 by lia. constructor. apply IH. intros x X.
    pose proof (max_le (map (fun p => height (snd p)) (p :: m)) (height (snd x)) (in_map (fun p => height (snd p)) (p :: m) x X)). lia.
  - intros d v w H IH L. rewrite E3 by (specialize (L v (or_introl eq_refl)); lia). constructor. apply IH. apply L. left. reflexivity.
  - intros d v w v' vs ws H IH H2 IH2 L. rewrite E3 by (specialize (L v (or_introl eq_refl)); lia).
    constructor; [apply IH, L; left; reflexivity|]. apply IH2. intros x X. apply L. right. exact X.
  - intros d k wk v w Hk H IH L. rewrite E3 by (specialize (L (k, v) (or_introl eq_refl)); lia).
    constructor; [assumption|]. apply IH. apply (L (k, v)). left. reflexivity.
  - intros d k wk v w p m ws Hk H IH H2 IH2 L. rewrite E3 by (specialize (L (k, v) (or_introl eq_refl)); lia).
    constructor; [assumption|apply IH, (L (k, v)); left; reflexivity|]. apply IH2. intros x X. apply L. right. exact X.
Qed.

Section Results.
Variable cf : scfg.
Hypothesis Hok : enc_ok (out_enc cf) (out_ck cf) = true.

Lemma dump_string_eq : forall v, dump_string cf v = match d_val cf 0 v with (w, Ret _) => Ret w | (_, o) => stop o end.
Proof.
  intro v. unfold dump_string. rewrite dump_to_eq by exact Hok. destruct (d_val cf 0 v) as [w [[]| | | |]]; reflexivity.
Qed.
Lemma dump_string_ret : forall v w, dump_string cf v = Ret w <-> d_val cf 0 v = txt w.
Proof.
  intros v w. rewrite dump_string_eq. unfold txt. destruct (d_val cf 0 v) as [u [[]| | | |]]; cbn; split; intro H; try discriminate; congruence.
Qed.

Lemma compact_iff : forall v w, s_pretty cf = false ->
  (dump_string cf v = Ret w <-> rend (unit_string cf) (float_text (s_ff cf) (s_prec cf)) compact 0 v w).
Proof.
  intros v w P. rewrite dump_string_ret, d_val_iff. unfold lay, compact.
  assert (E : forall d, d <= height v -> d_ind cf d = []) by (intros; unfold d_ind; rewrite P; reflexivity).
  assert (E1 : d_nl cf = []) by (unfold d_nl; rewrite P; reflexivity).
  assert (E2 : d_sp cf = []) by (unfold d_sp; rewrite P; reflexivity).
  split; intro H.
  - apply (proj1 (rend_lay _ _ (mkLay (d_nl cf) (d_ind cf) (d_sp cf)) (mkLay [] (fun _ => []) []) (height v) E1 E2 E) 0 v w H). lia.
  - apply (proj1 (rend_lay _ _ (mkLay [] (fun _ => []) []) (mkLay (d_nl cf) (d_ind cf) (d_sp cf)) (height v)
      (eq_sym E1) (eq_sym E2) (fun d L => eq_sym (E d L))) 0 v w H). lia.
Qed.

Lemma pretty_iff : forall v w, s_pretty cf = true -> s_ichar cf <> 0 -> height v < 65536 ->
  (dump_string cf v = Ret w <-> rend (unit_string cf) (float_text (s_ff cf) (s_prec cf)) (indented (s_step cf) (s_ichar cf)) 0 v w).
Proof.
  intros v w P C Hh. rewrite dump_string_ret, d_val_iff. unfold lay.
  assert (E : forall d, d <= height v -> d_ind cf d = repeat (s_ichar cf) (N.to_nat (d * s_step cf))).
  { intros d L. unfold d_ind. rewrite P. replace (s_ichar cf =? 0) with false by lia. replace (u16 d) with d by (unfold u16; lia). reflexivity. }
  assert (E1 : d_nl cf = [10]) by (unfold d_nl; rewrite P; reflexivity).
  assert (E2 : d_sp cf = [s_ichar cf]) by (unfold d_sp; rewrite P; reflexivity).
  split; intro H.
  - apply (proj1 (rend_lay _ _ (mkLay (d_nl cf) (d_ind cf) (d_sp cf)) (indented (s_step cf) (s_ichar cf)) (height v) E1 E2 E) 0 v w H). lia.
  - apply (proj1 (rend_lay _ _ (indented (s_step cf) (s_ichar cf)) (mkLay (d_nl cf) (d_ind cf) (d_sp cf)) (height v)
      (eq_sym E1) (eq_sym E2) (fun d L => eq_sym (E d L))) 0 v w H). lia.
Qed.
End Results.
