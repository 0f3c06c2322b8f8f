(** Lemmas behind PropEncoding.v. *)
From Coq Require Import Lia ZifyBool ZifyNat ZifyN.
From Verif Require Import Base Stream Encoding SpecUnicode EncodingProofs Feeds.
Ltac Zify.zify_post_hook ::= Z.div_mod_to_equations.

Lemma units8_some : forall cp, cp <= 1114111 -> exists us, units8 cp = Some us /\ us <> [] /\ (length us <= 4)%nat.
Proof.
  intros cp H. unfold units8.
  destruct (cp <? 128); [eexists; repeat split; [discriminate|cbn; lia]|].
  destruct (cp <? 2048); [eexists; repeat split; [discriminate|cbn; lia]|].
  destruct (cp <? 65536); [eexists; repeat split; [discriminate|cbn; lia]|].
  destruct (N.ltb_spec cp 1114112); [eexists; repeat split; [discriminate|cbn; lia]|lia].
Qed.

Lemma units8_none : forall cp, 1114111 < cp -> units8 cp = None.
Proof.
  intros cp H. unfold units8.
  destruct (N.ltb_spec cp 128); [lia|]. destruct (N.ltb_spec cp 2048); [lia|].
  destruct (N.ltb_spec cp 65536); [lia|]. destruct (N.ltb_spec cp 1114112); [lia|reflexivity].
Qed.

Lemma units16_some : forall cp, cp <= 1114111 -> exists us, units16 cp = Some us.
Proof.
  intros cp H. unfold units16. destruct (cp <? 65536); [eauto|].
  destruct (N.ltb_spec cp 1114112); [eauto|lia].
Qed.

Lemma utf8_rt : forall ck cp out rest cur, cp <= 1114111 ->
  exists us, us <> [] /\ (length us <= 4)%nat /\
    encode Utf8 ck (mkOs out false) cp = mkOs (out ++ us) false /\
    decode Utf8 ck (is_open (IStr (us ++ rest))) cur = (true, cp, is_open (IStr rest)).
Proof.
  intros ck cp out rest cur H. destruct (units8_some cp H) as (us & U & N & L).
  exists us. repeat split; try assumption.
  - cbn [encode]. rewrite utf8_encode_units, U. reflexivity.
  - cbn [decode]. apply utf8_decode_units. assumption.
Qed.

Lemma utf8_big : forall ck cp out, 1114111 < cp ->
  encode Utf8 ck (mkOs out false) cp = mkOs out true.
Proof. intros. cbn [encode]. rewrite utf8_encode_units, units8_none by assumption. reflexivity. Qed.

Lemma utf16_rt : forall ck cp out rest cur, ck <> C8 -> scalar cp -> (cp = 65535 -> ck = C32) ->
  exists us, utf16_seq cp us /\
    encode Utf16 ck (mkOs out false) cp = mkOs (out ++ us) false /\
    decode Utf16 ck (is_open (IStr (us ++ rest))) cur = (true, cp, is_open (IStr rest)).
Proof.
  intros ck cp out rest cur Hck Hs Hf.
  assert (W : ck_wide ck = true) by (destruct ck; [contradiction|reflexivity..]).
  assert (F : cp <> 65535 \/ ck = C32) by (destruct (N.eq_dec cp 65535); auto).
  destruct (units16_some cp) as (us & U). { unfold scalar in Hs; lia. }
  exists us. repeat split.
  - apply utf16_seq_units. split; assumption.
  - cbn [encode]. rewrite utf16_encode_units, U by assumption. reflexivity.
  - cbn [decode]. apply utf16_decode_units; try assumption. unfold scalar in Hs. lia.
Qed.

Lemma utf32_rt : forall cp out rest cur, cp <= 1114111 ->
    encode Utf32 C32 (mkOs out false) cp = mkOs (out ++ [cp]) false /\
    decode Utf32 C32 (is_open (IStr (cp :: rest))) cur = (true, cp, is_open (IStr rest)).
Proof.
  intros cp out rest cur H.
  assert (U : units32 cp = Some [cp]).
  { unfold units32. destruct (N.ltb_spec cp 1114112); [reflexivity|lia]. }
  split.
  - cbn [encode]. rewrite utf32_encode_units, U. reflexivity.
  - cbn [decode]. apply (utf32_decode_units cp [cp] rest). assumption.
Qed.

Lemma utf16_lone : forall ck lead rest cur, ck <> C8 -> 55296 <= lead <= 56319 ->
  match rest with u :: _ => u < 56320 \/ 57343 < u /\ u < 65535 | [] => True end ->
  exists c i, decode Utf16 ck (is_open (IStr (lead :: rest))) cur = (true, c, i) /\ is_fail i = true.
Proof.
  intros ck lead rest cur Hck Hl Hr. unfold is_open. cbn [decode]. unfold utf16_decode.
  rewrite get_unit by (destruct ck; [contradiction|unfold unit_ok; lia..]).
  rewrite z_u16_small by lia. cbn [is_eof].
  replace (is_lead_surrogate lead) with true by (unfold is_lead_surrogate; lia).
  destruct rest as [|u rest].
  - rewrite get_eof. destruct ck; [contradiction|..]; eexists; eexists; (split; [reflexivity|]);
      unfold is_lead_surrogate in *; match goal with |- context [if ?b then _ else _] => destruct b end; reflexivity.
  - rewrite get_unit by (destruct ck; [contradiction|unfold unit_ok; lia..]).
    rewrite z_u16_small by lia.
    replace (is_trail_surrogate u) with false by (unfold is_trail_surrogate; lia).
    destruct (1114111 <? lead); eexists; eexists; (split; [reflexivity|reflexivity]).
Qed.

Lemma utf8_shortest : forall ck cp out, scalar cp ->
  exists bs, utf8_seq cp bs /\ encode Utf8 ck (mkOs out false) cp = mkOs (out ++ bs) false /\
    (forall bs', utf8_seq cp bs' -> bs' = bs).
Proof.
  intros ck cp out Hs. destruct (units8_some cp) as (us & U & _). { unfold scalar in Hs; lia. }
  exists us. split; [apply utf8_seq_units; split; assumption|]. split.
  - cbn [encode]. rewrite utf8_encode_units, U. reflexivity.
  - intros bs' H. apply utf8_seq_units in H. destruct H as [_ H]. congruence.
Qed.

(** ** Decoding arbitrary bytes *)

Lemma u32_lt : forall n, u32 n < 4294967296.
Proof. intro n. unfold u32. apply N.mod_lt. discriminate. Qed.

Lemma utf8_read_short : forall ck extra cp s r i, utf8_read ck extra cp (sis s) = (r, i) ->
  (length s <= extra)%nat -> is_good i = false.
Proof.
  intros ck extra. induction extra as [|e IH]; intros cp s r i H L; cbn [utf8_read] in H;
    destruct (is_get ck (sis s)) as [c j] eqn:G.
  - destruct s; [|cbn in L; lia]. unfold sis in G. rewrite get_eof in G. inversion G; subst.
    inversion H; subst. reflexivity.
  - destruct s as [|u s].
    + unfold sis in G. rewrite get_eof in G. inversion G; subst.
      eapply utf8_read_not_good; [exact H|reflexivity].
    + destruct (is_good j) eqn:Gj.
      * destruct (get_good _ _ _ _ G Gj) as (u' & r' & E & -> & _). inversion E; subst.
        eapply IH; [exact H|cbn in L; lia].
      * eapply utf8_read_not_good; eassumption.
Qed.

Lemma utf8_read_bytes : forall ck extra cp s, Forall (fun b => b < 256) s -> (extra < length s)%nat ->
  exists r, utf8_read ck extra cp (sis s) = (r, sis (skipn (S extra) s)).
Proof.
  intros ck extra. induction extra as [|e IH]; intros cp s F L; destruct s as [|b s]; cbn [length] in L; try lia;
    inversion F; subst; unfold sis.
  - rewrite utf8_read_O by assumption. cbn [skipn]. eauto.
  - rewrite utf8_read_S by assumption. cbn [skipn]. apply IH; [assumption|lia].
Qed.

Lemma announced_extra : forall b, announced b = S (utf8_extra_bytes b).
Proof.
  intro b. unfold announced, utf8_extra_bytes.
  destruct (b <? 192), (b <? 224), (b <? 240), (b <? 248), (b <? 252); reflexivity.
Qed.

Lemma utf8_decode_step : forall ck b s cur, Forall (fun b => b < 256) (b :: s) ->
  exists c i, decode Utf8 ck (is_open (IStr (b :: s))) cur = (true, c, i) /\
    (is_fail i = true \/
     (c <= 1114111 /\ (announced b <= S (length s))%nat /\
      i = is_open (IStr (skipn (announced b) (b :: s))))).
Proof.
  intros ck b s cur F. assert (Hb : b < 256) by (inversion F; assumption).
  cbn [decode]. unfold utf8_decode, is_open. rewrite peek_unit by (apply byte_unit_ok; assumption).
  cbn [is_eof]. rewrite z_u8_small by assumption.
  fold (sis (b :: s)).
  destruct (utf8_read ck (utf8_extra_bytes b) 0 (sis (b :: s))) as [cp i] eqn:E.
  eexists; eexists; split; [reflexivity|].
  destruct (1114111 <? u32_sub cp (utf8_offset (utf8_extra_bytes b))) eqn:G; [left; reflexivity|].
  destruct (Nat.le_gt_cases (length (b :: s)) (utf8_extra_bytes b)) as [L|L].
  - left. assert (X := utf8_read_short _ _ _ _ _ _ E L).
    assert (Y : is_eof i = true -> is_fail i = true).
    { clear -E. intro He. revert E He. generalize 0 as c0. generalize (sis (b :: s)).
      induction (utf8_extra_bytes b) as [|e IH]; intros j c0 E He; cbn [utf8_read] in E;
        destruct (is_get ck j) as [c k] eqn:Gt.
      - inversion E; subst. eapply is_get_noteof; eassumption.
      - eapply IH; eassumption. }
    unfold is_good in X. destruct (is_eof i), (is_fail i); try discriminate; auto.
  - right. destruct (utf8_read_bytes ck _ 0 _ F L) as (r & R). rewrite R in E. inversion E; subst.
    rewrite announced_extra. cbn [length] in L. repeat split; [|lia].
    apply N.ltb_ge in G. exact G.
Qed.

Lemma utf8_decode_cut : forall ck b s cur, Forall (fun b => b < 256) (b :: s) ->
  (length (b :: s) < announced b)%nat ->
  exists c i, decode Utf8 ck (is_open (IStr (b :: s))) cur = (true, c, i) /\ is_fail i = true.
Proof.
  intros ck b s cur F L. destruct (utf8_decode_step ck b s cur F) as (c & i & D & [H|(A & B & C)]).
  - eauto.
  - cbn [length] in L. lia.
Qed.

Lemma utf8_seq_announced : forall cp b bs, utf8_seq cp (b :: bs) -> announced b = S (length bs).
Proof.
  intros cp b bs H. unfold announced.
  inversion H; subst; unfold cont in *; cbn [length];
    repeat match goal with |- context [?x <? ?y] => destruct (N.ltb_spec x y); try lia end; reflexivity.
Qed.

Lemma surr_split : forall cp, 65536 <= cp <= 1114111 ->
  let '(hi, lo) := encode_surrogates cp in
  (55296 <= hi <= 56319) /\ (56320 <= lo <= 57343) /\ decode_surrogates hi lo = cp.
Proof.
  intros cp [H1 H2]. rewrite encode_surrogates_eq by assumption.
  split; [lia|]. split; [lia|]. rewrite decode_surrogates_eq by lia. lia.
Qed.

Lemma surr_join : forall hi lo, 55296 <= hi <= 56319 -> 56320 <= lo <= 57343 ->
  65536 <= decode_surrogates hi lo <= 1114111 /\
  decode_surrogates hi lo = 65536 + (hi - 55296) * 1024 + (lo - 56320) /\
  encode_surrogates (decode_surrogates hi lo) = (hi, lo).
Proof.
  intros hi lo H1 H2. rewrite decode_surrogates_eq by lia.
  split; [lia|]. split; [reflexivity|]. rewrite encode_surrogates_eq by lia. f_equal; lia.
Qed.

Lemma surr_classes : forall u,
  (is_lead_surrogate u = true <-> exists cp, 65536 <= cp <= 1114111 /\ fst (encode_surrogates cp) = u) /\
  (is_trail_surrogate u = true <-> exists cp, 65536 <= cp <= 1114111 /\ snd (encode_surrogates cp) = u).
Proof.
  intro u. split; split.
  - intro H. unfold is_lead_surrogate in H. destruct (surr_join u 56320) as (A & _ & C); [lia|lia|].
    exists (decode_surrogates u 56320). rewrite C. auto.
  - intros (cp & B & <-). pose proof (surr_split cp B) as S. destruct (encode_surrogates cp) as [hi lo]. cbn [fst snd]. unfold is_lead_surrogate. lia.
  - intro H. unfold is_trail_surrogate in H. destruct (surr_join 55296 u) as (A & _ & C); [lia|lia|].
    exists (decode_surrogates 55296 u). rewrite C. auto.
  - intros (cp & B & <-). pose proof (surr_split cp B) as S. destruct (encode_surrogates cp) as [hi lo]. cbn [fst snd]. unfold is_trail_surrogate. lia.
Qed.
