(** Abstraction of any input stream to the code points it decodes to. *)
From Coq Require Import Lia ZifyBool ZifyNat ZifyN.
From Verif Require Import Base Stream Encoding SpecUnicode EncodingProofs.
Ltac Zify.zify_post_hook ::= Z.div_mod_to_equations.

(** How a stream of code points ends: cleanly, or with an undecodable unit. *)
Inductive term := TEof | TBad (c : N).

(** [feeds e ck i l t]: decoding stream [i] again and again yields the code
    points [l], then end of input ([TEof]) or a decoding error, with [c]
    in the out parameter ([TBad c]). *)
Inductive feeds (e : enc) (ck : ckind) : istream -> list N -> term -> Prop :=
| F_eof i i' :
    (forall cur, exists c, decode e ck i cur = (false, c, i')) ->
    feeds e ck i [] TEof
| F_bad i c i' :
    (forall cur, decode e ck i cur = (true, c, i')) -> is_good i' = false ->
    feeds e ck i [] (TBad c)
| F_cons i c i' l t :
    (forall cur, decode e ck i cur = (true, c, i')) -> is_good i' = true ->
    feeds e ck i' l t -> feeds e ck i (c :: l) t.

Lemma is_get_noteof : forall ck i c i', is_get ck i = (c, i') -> is_eof i' = true -> is_fail i' = true.
Proof.
  intros ck i c i' H He. unfold is_get in H.
  destruct (is_good i) eqn:G.
  - destruct (throws (is_buf i)); [inversion H; subst; reflexivity|].
    destruct (uflow ck (is_buf i)) as [x b]. inversion H; subst. cbn in *. assumption.
  - inversion H; subst. reflexivity.
Qed.

Lemma decode_false_eof : forall e ck i cur c i',
  decode e ck i cur = (false, c, i') -> is_eof i' = true.
Proof.
  intros e ck i cur c i' H. destruct e; cbn [decode] in H.
  - unfold ignore_decode in H. destruct (is_get ck i) as [x j]. inversion H; subst.
    destruct (is_eof i'); [reflexivity|discriminate].
  - unfold utf8_decode in H. destruct (is_peek ck i) as [x j].
    destruct (is_eof j) eqn:E; [inversion H; subst; assumption|].
    destruct (utf8_read ck (utf8_extra_bytes (z_u8 x)) 0 j) as [y k]. discriminate.
  - unfold utf16_decode in H. destruct (is_get ck i) as [x j].
    destruct (is_eof j) eqn:E; [inversion H; subst; assumption|].
    destruct (is_lead_surrogate (z_u16 x)).
    + destruct (is_get ck j) as [x2 j2].
      destruct (is_trail_surrogate (z_u16 x2)); discriminate.
    + discriminate.
  - unfold utf32_decode in H. destruct (is_get ck i) as [x j].
    destruct (is_eof j) eqn:E; [inversion H; subst; assumption|discriminate].
Qed.

(** At end of file decoding keeps reporting end of file. *)
Lemma decode_at_eof : forall e ck i cur, is_eof i = true ->
  exists c i', decode e ck i cur = (false, c, i') /\ is_eof i' = true.
Proof.
  intros e ck i cur H.
  assert (G : is_good i = false) by (unfold is_good; rewrite H; reflexivity).
  assert (Hg : is_get ck i = (eof_int ck, set_fail i)) by (unfold is_get; rewrite G; reflexivity).
  destruct e; cbn [decode].
  - unfold ignore_decode. rewrite Hg. cbn. rewrite H. cbn. eauto.
  - unfold utf8_decode, is_peek. rewrite G. cbn. rewrite H. cbn. eexists _, _. split; [reflexivity|assumption].
  - unfold utf16_decode. rewrite Hg. cbn. rewrite H. cbn. eexists _, _. split; [reflexivity|assumption].
  - unfold utf32_decode. rewrite Hg. cbn. rewrite H. cbn. eexists _, _. split; [reflexivity|assumption].
Qed.

(** The previous content of the out parameter matters only at end of file. *)
Lemma decode_true_cur : forall e ck i cur c i',
  decode e ck i cur = (true, c, i') -> forall cur', decode e ck i cur' = (true, c, i').
Proof.
  intros e ck i cur c i' H cur'. destruct e; cbn [decode] in *; try assumption.
  unfold utf8_decode in *. destruct (is_peek ck i) as [x j].
  destruct (is_eof j); [discriminate|assumption].
Qed.

Lemma decode_false_cur : forall e ck i cur c i',
  decode e ck i cur = (false, c, i') ->
  forall cur', exists c', decode e ck i cur' = (false, c', i').
Proof.
  intros e ck i cur c i' H cur'. destruct e; cbn [decode] in *; eauto.
  unfold utf8_decode in *. destruct (is_peek ck i) as [x j].
  destruct (is_eof j); [inversion H; subst; eauto|].
  destruct (utf8_read ck (utf8_extra_bytes (z_u8 x)) 0 j) as [y k]. discriminate.
Qed.

(** [feeds] is deterministic. *)
Lemma feeds_det : forall e ck i l t, feeds e ck i l t ->
  forall l' t', feeds e ck i l' t' -> l = l' /\ t = t'.
Proof.
  intros e ck i l t H. induction H as [i i' H|i c i' H G|i c i' l t H G HF IH];
    intros l2 t2 H2; inversion H2 as [j j' K|j d j' K KG|j d j' l3 t3 K KG KF]; subst.
  - auto.
  - destruct (H 0) as [x E]. rewrite (K 0) in E. discriminate.
  - destruct (H 0) as [x E]. rewrite (K 0) in E. discriminate.
  - destruct (K 0) as [x E]. rewrite (H 0) in E. discriminate.
  - pose proof (H 0) as E. rewrite (K 0) in E. inversion E; subst. auto.
  - pose proof (H 0) as E. rewrite (K 0) in E. inversion E; subst. congruence.
  - destruct (K 0) as [x E]. rewrite (H 0) in E. discriminate.
  - pose proof (H 0) as E. rewrite (K 0) in E. inversion E; subst. congruence.
  - pose proof (H 0) as E. rewrite (K 0) in E. inversion E; subst.
    destruct (IH _ _ KF) as [-> ->]. auto.
Qed.

(** ** Strings always feed some list of code points *)

Definition sis (s : list N) : istream := mkIs (IStr s) false false.

Lemma get_good : forall ck s c i', is_get ck (sis s) = (c, i') -> is_good i' = true ->
  exists u r, s = u :: r /\ i' = sis r /\ c = Z.of_N u.
Proof.
  intros ck s c i' H G. unfold is_get, sis in H.
  cbn [is_good is_eof is_fail negb andb is_buf throws] in H.
  destruct s as [|u r]; cbn [uflow] in H.
  - rewrite Z.eqb_refl in H. inversion H; subst. discriminate.
  - destruct (Z.eqb (Z.of_N u) (eof_int ck)) eqn:E; inversion H; subst; [discriminate|].
    exists u, r. auto.
Qed.

Lemma not_good_get : forall ck i c i', is_get ck i = (c, i') -> is_good i = false -> is_good i' = false.
Proof.
  intros ck i c i' H G. unfold is_get in H. rewrite G in H. inversion H; subst.
  unfold is_good, set_fail. cbn. apply andb_false_r.
Qed.

Lemma not_good_set_fail : forall i, is_good (set_fail i) = false.
Proof. intro i. unfold is_good, set_fail. cbn. apply andb_false_r. Qed.

Lemma utf8_read_not_good : forall ck n cp i r i',
  utf8_read ck n cp i = (r, i') -> is_good i = false -> is_good i' = false.
Proof.
  intros ck n. induction n as [|n IH]; intros cp i r i' H G; cbn [utf8_read] in H.
  - destruct (is_get ck i) as [c j] eqn:E. inversion H; subst. eapply not_good_get; eauto.
  - destruct (is_get ck i) as [c j] eqn:E. eapply IH; [exact H|]. eapply not_good_get; eauto.
Qed.

Lemma utf8_read_good : forall ck n cp s r i',
  utf8_read ck n cp (sis s) = (r, i') -> is_good i' = true ->
  exists s', i' = sis s' /\ (length s' < length s)%nat.
Proof.
  intros ck n. induction n as [|n IH]; intros cp s r i' H G; cbn [utf8_read] in H.
  - destruct (is_get ck (sis s)) as [c j] eqn:E. inversion H; subst.
    destruct (get_good _ _ _ _ E G) as (u & r & -> & -> & ->). exists r. cbn. auto.
  - destruct (is_get ck (sis s)) as [c j] eqn:E.
    destruct (is_good j) eqn:Gj.
    + destruct (get_good _ _ _ _ E Gj) as (u & r' & -> & -> & ->).
      destruct (IH _ _ _ _ H G) as (s' & -> & L). exists s'. cbn. split; [reflexivity|lia].
    + apply utf8_read_not_good in H; [congruence|assumption].
Qed.

Lemma decode_string_good : forall e ck s cur c i',
  decode e ck (sis s) cur = (true, c, i') -> is_good i' = true ->
  exists s', i' = sis s' /\ (length s' < length s)%nat.
Proof.
  intros e ck s cur c i' H G. destruct e; cbn [decode] in H.
  - unfold ignore_decode in H. destruct (is_get ck (sis s)) as [x j] eqn:E. inversion H; subst.
    destruct (get_good _ _ _ _ E G) as (u & r & -> & -> & ->). exists r. cbn. auto.
  - unfold utf8_decode in H. unfold is_peek in H. cbn [sis is_good is_eof is_fail negb andb is_buf throws] in H.
    destruct s as [|u r]; cbn [underflow] in H.
    + rewrite Z.eqb_refl in H. cbn in H. discriminate.
    + destruct (Z.eqb (Z.of_N u) (eof_int ck)) eqn:E; cbn [is_eof] in H; [discriminate|].
      change (mkIs (IStr (u :: r)) false false) with (sis (u :: r)) in H.
      destruct (utf8_read ck (utf8_extra_bytes (z_u8 (Z.of_N u))) 0 (sis (u :: r))) as [y k] eqn:R.
      destruct (1114111 <? u32_sub y (utf8_offset (utf8_extra_bytes (z_u8 (Z.of_N u)))));
        inversion H; subst.
      * rewrite not_good_set_fail in G. discriminate.
      * eapply utf8_read_good; eauto.
  - unfold utf16_decode in H. destruct (is_get ck (sis s)) as [x j] eqn:E.
    destruct (is_eof j) eqn:Ej; [discriminate|].
    destruct (is_lead_surrogate (z_u16 x)) eqn:L.
    + destruct (is_get ck j) as [x2 j2] eqn:E2.
      destruct (is_trail_surrogate (z_u16 x2)).
      * destruct (1114111 <? decode_surrogates (z_u16 x) (z_u16 x2)); inversion H; subst.
        { rewrite not_good_set_fail in G. discriminate. }
        destruct (is_good j) eqn:Gj.
        { destruct (get_good _ _ _ _ E Gj) as (u & r & -> & -> & ->).
          destruct (get_good _ _ _ _ E2 G) as (u2 & r2 & -> & -> & ->).
          exists r2. cbn. split; [reflexivity|lia]. }
        { apply not_good_get in E2; [congruence|assumption]. }
      * destruct (1114111 <? z_u16 x); inversion H; subst; rewrite not_good_set_fail in G; discriminate.
    + destruct (1114111 <? z_u16 x); inversion H; subst.
      * rewrite not_good_set_fail in G. discriminate.
      * destruct (get_good _ _ _ _ E G) as (u & r & -> & -> & ->). exists r. cbn. auto.
  - unfold utf32_decode in H. destruct (is_get ck (sis s)) as [x j] eqn:E.
    destruct (is_eof j) eqn:Ej; [discriminate|].
    destruct (1114111 <? z_u32 x); inversion H; subst.
    + rewrite not_good_set_fail in G. discriminate.
    + destruct (get_good _ _ _ _ E G) as (u & r & -> & -> & ->). exists r. cbn. auto.
Qed.

Lemma feeds_string : forall e ck s, exists l t,
  feeds e ck (sis s) l t /\ (length l <= length s)%nat.
Proof.
  intros e ck s. remember (length s) as n eqn:Hn.
  assert (Hl : (length s <= n)%nat) by lia. clear Hn. revert s Hl.
  induction n as [n IH] using lt_wf_ind. intros s Hl.
  destruct (decode e ck (sis s) 0) as [[ok c] i'] eqn:D.
  destruct ok.
  - destruct (is_good i') eqn:G.
    + destruct (decode_string_good _ _ _ _ _ _ D G) as (s' & -> & L).
      destruct (IH (length s') ltac:(lia) s' (le_n _)) as (l & t & F & Hlen).
      exists (c :: l), t. split; [|cbn; lia].
      eapply F_cons; [apply (decode_true_cur _ _ _ _ _ _ D)|assumption|exact F].
    + exists [], (TBad c). split; [|cbn; lia].
      eapply F_bad; [apply (decode_true_cur _ _ _ _ _ _ D)|assumption].
  - exists [], TEof. split; [|cbn; lia].
    eapply F_eof. exact (decode_false_cur _ _ _ _ _ _ D).
Qed.

(** ** Encoded text feeds the code points it was made from *)

(** Units an encoder writes for one code point (None: the encoder fails).  A
    16-bit or 32-bit unit equal to eof() is refused by the stream. *)
Definition enc_units (e : enc) (ck : ckind) (cp : N) : option (list N) :=
  let r := match e with
           | Ignore => Some [narrow ck cp]
           | Utf8 => units8 cp
           | Utf16 => units16 cp
           | Utf32 => units32 cp
           end in
  match r with
  | Some us => if existsb (fun u => Z.eqb (Z.of_N u) (eof_int ck)) us then None else Some us
  | None => None
  end.

Lemma units8_lt : forall cp us, units8 cp = Some us -> Forall (fun u => u < 256) us.
Proof.
  intros cp us H. unfold units8 in H.
  destruct (N.ltb_spec cp 128); [apply some_inj in H; subst; repeat constructor; lia|].
  destruct (N.ltb_spec cp 2048); [apply some_inj in H; subst; repeat constructor; lia|].
  destruct (N.ltb_spec cp 65536); [apply some_inj in H; subst; repeat constructor; lia|].
  destruct (N.ltb_spec cp 1114112); [apply some_inj in H; subst; repeat constructor; lia|discriminate].
Qed.

Lemma bytes_not_eof : forall ck us, Forall (fun u => u < 256) us ->
  existsb (fun u => Z.eqb (Z.of_N u) (eof_int ck)) us = false.
Proof.
  intros ck us H. induction H as [|u us Hu H IH]; [reflexivity|].
  cbn [existsb]. rewrite IH. rewrite orb_false_r. destruct ck; cbn [eof_int]; lia.
Qed.

Lemma encode_units : forall e ck l cp, enc_ok e ck = true ->
  encode e ck (mkOs l false) cp =
  match enc_units e ck cp with Some us => mkOs (l ++ us) false | None => mkOs l true end.
Proof.
  intros e ck l cp Hok. unfold enc_units. destruct e; cbn [encode].
  - unfold ignore_encode, os_put. cbn [os_fail os_units existsb].
    rewrite orb_false_r. destruct (Z.eqb (Z.of_N (narrow ck cp)) (eof_int ck)); reflexivity.
  - rewrite utf8_encode_units. destruct (units8 cp) eqn:U; [|reflexivity].
    rewrite bytes_not_eof; [reflexivity|]. eapply units8_lt; eauto.
  - assert (Hw : ck_wide ck = true) by (destruct ck; [discriminate|reflexivity|reflexivity]).
    destruct (N.eq_dec cp 65535) as [->|Hn].
    + destruct ck; [discriminate| |]; [reflexivity|].
      rewrite utf16_encode_units by auto. reflexivity.
    + rewrite utf16_encode_units by auto.
      destruct (units16 cp) as [us|] eqn:U; [|reflexivity].
      replace (existsb _ us) with false; [reflexivity|].
      symmetry. unfold units16 in U.
      destruct (N.ltb_spec cp 65536).
      * apply some_inj in U; subst. cbn [existsb]. destruct ck; [discriminate| |]; cbn [eof_int]; lia.
      * destruct (N.ltb_spec cp 1114112); [|discriminate].
        apply some_inj in U; subst. cbn [existsb]. destruct ck; [discriminate| |]; cbn [eof_int]; lia.
  - destruct ck; try discriminate. rewrite utf32_encode_units.
    destruct (units32 cp) as [us|] eqn:U; [|reflexivity].
    unfold units32 in U. destruct (N.ltb_spec cp 1114112); [|discriminate].
    apply some_inj in U; subst. cbn [existsb eof_int].
    replace (Z.of_N cp =? 4294967295)%Z with false by lia. reflexivity.
Qed.

(** Code points that survive encode-then-decode in the middle of a text. *)
Definition rt_cp (e : enc) (ck : ckind) (cp : N) : Prop :=
  match e with
  | Ignore => narrow ck cp = cp /\ cp < 128
  | Utf16 => ~ (55296 <= cp <= 56319)
  | _ => True
  end.

Lemma decode_units : forall e ck cp us r cur, enc_ok e ck = true ->
  enc_units e ck cp = Some us -> rt_cp e ck cp ->
  decode e ck (sis (us ++ r)) cur = (true, cp, sis r).
Proof.
  intros e ck cp us r cur Hok H Hrt. unfold enc_units in H. unfold sis. destruct e; cbn [decode].
  - destruct Hrt as [Hn Hlt].
    destruct (existsb _ [narrow ck cp]) eqn:E; [discriminate|].
    apply some_inj in H; subst us. cbn [app]. rewrite Hn in *.
    unfold ignore_decode. rewrite get_unit by (apply byte_unit_ok; lia).
    cbn [is_eof negb]. rewrite z_u32_small by lia. rewrite Hn.
    unfold int_of_char. replace (cp <? 128) with true by lia.
    destruct ck; rewrite z_u32_small by lia; reflexivity.
  - destruct (units8 cp) as [vs|] eqn:U; [|discriminate].
    destruct (existsb _ vs); [discriminate|]. apply some_inj in H; subst vs.
    apply utf8_decode_units; assumption.
  - destruct (units16 cp) as [vs|] eqn:U; [|discriminate].
    destruct (existsb _ vs) eqn:E; [discriminate|]. apply some_inj in H; subst vs.
    apply utf16_decode_units; [destruct ck; [discriminate|reflexivity|reflexivity]| | |assumption].
    + destruct ck; [discriminate| |auto]. left. intros ->. cbn in U.
      apply some_inj in U; subst us. cbn in E. discriminate.
    + cbn [rt_cp] in Hrt. lia.
  - destruct ck; try discriminate.
    destruct (units32 cp) as [vs|] eqn:U; [|discriminate].
    destruct (existsb _ vs) eqn:E; [discriminate|]. apply some_inj in H; subst vs.
    apply utf32_decode_units; assumption.
Qed.

Lemma decode_string_nil : forall e ck cur,
  exists c i', decode e ck (sis []) cur = (false, c, i').
Proof.
  intros e ck cur. unfold sis. destruct e; cbn [decode].
  - unfold ignore_decode. rewrite get_eof. cbn. eauto.
  - unfold utf8_decode. rewrite peek_eof. cbn. eauto.
  - unfold utf16_decode. rewrite get_eof. cbn. eauto.
  - unfold utf32_decode. rewrite get_eof. cbn. eauto.
Qed.

Lemma feeds_nil : forall e ck, feeds e ck (sis []) [] TEof.
Proof.
  intros e ck. destruct (decode_string_nil e ck 0) as (c & i' & H).
  eapply F_eof. exact (decode_false_cur _ _ _ _ _ _ H).
Qed.

(** Encoding of a whole text. *)
Fixpoint enc_text (e : enc) (ck : ckind) (cps : list N) : option (list N) :=
  match cps with
  | [] => Some []
  | cp :: cps' =>
      match enc_units e ck cp, enc_text e ck cps' with
      | Some us, Some s => Some (us ++ s)
      | _, _ => None
      end
  end.

Lemma feeds_enc_text : forall e ck cps s, enc_ok e ck = true ->
  enc_text e ck cps = Some s -> Forall (rt_cp e ck) cps ->
  feeds e ck (sis s) cps TEof.
Proof.
  intros e ck cps s Hok H F. revert s H.
  induction F as [|cp cps Hcp F IH]; intros s H; cbn [enc_text] in H.
  - apply some_inj in H; subst s. apply feeds_nil.
  - destruct (enc_units e ck cp) as [us|] eqn:U; [|discriminate].
    destruct (enc_text e ck cps) as [s'|] eqn:T; [|discriminate].
    apply some_inj in H; subst s.
    apply (F_cons e ck (sis (us ++ s')) cp (sis s')); [|reflexivity|apply IH; reflexivity].
    intro cur. apply decode_units; assumption.
Qed.

(** Well-formed UTF-8 text feeds its code points. *)
Lemma utf8_text_enc : forall ck cps s, utf8_text cps s -> enc_text Utf8 ck cps = Some s.
Proof.
  intros ck cps s H. induction H as [|cp bs cps s Hs H IH]; [reflexivity|].
  cbn [enc_text]. rewrite IH. apply utf8_seq_units in Hs. destruct Hs as [Hs U].
  unfold enc_units. rewrite U. rewrite bytes_not_eof; [reflexivity|]. eapply units8_lt; eauto.
Qed.

Lemma feeds_utf8_text : forall ck cps s, utf8_text cps s -> feeds Utf8 ck (sis s) cps TEof.
Proof.
  intros ck cps s H. apply feeds_enc_text; [destruct ck; reflexivity|apply utf8_text_enc; assumption|].
  clear H. induction cps; constructor; cbn; auto.
Qed.
