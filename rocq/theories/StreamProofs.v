(** Adapters and files feed the parser the same code points as strings. *)
From Coq Require Import Lia ZifyBool ZifyNat ZifyN.
From Verif Require Import Base Stream Encoding SpecUnicode Value Token Parser EncodingProofs Feeds ListMachine SimParse Mono SpecStream.
Ltac Zify.zify_post_hook ::= Z.div_mod_to_equations.

Section Stop.
(** what the adapter answers after its text *)
Variable stop_unit : N.

(** ** Buffers without a stored character *)
Inductive fresh (ck : ckind) : list N -> ibuf -> Prop :=
| fr_adapter s src pos : (forall n, src (pos + n)%nat = nth n s stop_unit) ->
    (ck = C8 -> ~ In 255 s) -> fresh ck s (IAdp src pos 0)
| fr_file s : fresh ck s (IFile s 0)
| fr_thrower s src pos : (forall n, (n < length s)%nat -> src (pos + n)%nat = nth n s 0) ->
    (ck = C8 -> ~ In 255 s) -> stop_unit <> eof_unit ck -> fresh ck s (IThr src (pos + length s) pos 0).

Definition cong (ck : ckind) (c c' : Z) : Prop :=
  (c =? eof_int ck)%Z = (c' =? eof_int ck)%Z /\ z_u8 c = z_u8 c' /\ (ck <> C8 -> c = c').

Lemma cong_refl : forall ck c, cong ck c c.
Proof. split; auto. Qed.
Lemma cong_narrow : forall ck c c', cong ck c c' -> narrow ck (z_u32 c) = narrow ck (z_u32 c').
Proof.
  intros ck c c' (_ & H & K). destruct ck; [|rewrite K by discriminate; reflexivity..].
  unfold narrow, u8, z_u32, z_u8 in *. lia.
Qed.
Lemma char_cong : forall ck u, a_unit ck u -> (ck = C8 -> u <> 255) -> cong ck (Z.of_N u) (int_of_char ck u).
Proof.
  intros ck u H N. destruct ck; [|apply cong_refl..]. specialize (N eq_refl). unfold a_unit, eof_unit in H.
  unfold cong, eof_int, int_of_char, z_u8. destruct (N.ltb_spec u 128); repeat split; try lia; congruence.
Qed.
Lemma char_zero : forall ck u, a_unit ck u -> u <> 0 -> int_of_char ck u <> 0%Z.
Proof.
  intros ck u H N. unfold a_unit, eof_unit, int_of_char in *. destruct ck; try lia. destruct (N.ltb_spec u 128); lia.
Qed.
Lemma eof_char : forall ck, int_of_char ck (eof_unit ck) = eof_int ck.
Proof. intros []; reflexivity. Qed.
Lemma eof_not_zero : forall ck, eof_int ck <> 0%Z.
Proof. intros []; discriminate. Qed.

(** taking a character, at once or after looking at it *)
Lemma fresh_nil : forall ck b, fresh ck [] b -> stop_unit = eof_unit ck ->
  throws b = false /\ (exists b', uflow ck b = (eof_int ck, b')) /\ exists b', underflow ck b = (eof_int ck, b').
Proof.
  intros ck b H St. inversion H as [s src pos E C|s|s src pos E C Ne]; subst s b; [| |contradiction]; (split; [reflexivity|]); cbn [uflow underflow Z.eqb fgetc].
  - pose proof (E 0%nat) as E0. rewrite Nat.add_0_r in E0. cbn in E0. rewrite E0, St, eof_char. split; eexists; reflexivity.
  - split; eexists; reflexivity.
Qed.
Lemma fresh_calm : forall ck u s b, fresh ck (u :: s) b -> throws b = false.
Proof. intros ck u s b H. inversion H; subst; try reflexivity. cbn [throws length]. lia. Qed.
Lemma fresh_get : forall ck u s b, fresh ck (u :: s) b -> a_unit ck u ->
  exists c b', uflow ck b = (c, b') /\ cong ck (Z.of_N u) c /\ fresh ck s b'.
Proof.
  intros ck u s b H U. inversion H as [s' src pos E C|s'|s' src pos E C Ne]; subst; cbn [uflow underflow Z.eqb fgetc].
  - pose proof (E 0%nat) as E0. rewrite Nat.add_0_r in E0. cbn in E0. rewrite E0.
    eexists _, _. split; [reflexivity|]. split; [apply char_cong; [assumption|intros K ->; apply (C K); left; reflexivity]|].
    constructor; [|intros K I; apply (C K); right; assumption].
    intro n. rewrite Nat.add_succ_comm. rewrite E. reflexivity.
  - eexists _, _. split; [reflexivity|]. split; [apply cong_refl|constructor].
  - pose proof (E 0%nat ltac:(cbn; lia)) as E0. rewrite Nat.add_0_r in E0. cbn [nth] in E0. rewrite E0.
    eexists _, _. split; [reflexivity|]. split; [apply char_cong; [assumption|intros K ->; apply (C K); left; reflexivity]|].
    cbn [length]. rewrite <- Nat.add_succ_comm. apply fr_thrower; [|intros K I; apply (C K); right; assumption|assumption].
    intros n L. rewrite Nat.add_succ_comm. rewrite E by (cbn; lia). reflexivity.
Qed.
Lemma fresh_peek : forall ck u s b, fresh ck (u :: s) b -> a_unit ck u -> u <> 0 ->
  exists c b1 b', underflow ck b = (c, b1) /\ throws b1 = false /\ uflow ck b1 = (c, b') /\ cong ck (Z.of_N u) c /\ fresh ck s b'.
Proof.
  intros ck u s b H U Z. destruct (fresh_get ck u s b H U) as (c & b' & G & Cg & F).
  exists c. inversion H as [s' src pos E C|s'|s' src pos E C Ne]; subst; cbn [uflow underflow Z.eqb fgetc] in *.
  - pose proof (E 0%nat) as E0. rewrite Nat.add_0_r in E0. cbn in E0. rewrite E0 in *. injection G as <- <-.
    eexists _, _. split; [reflexivity|]. split; [reflexivity|]. split; [|split; [assumption|eassumption]].
    cbn [uflow underflow]. destruct (Z.eqb_spec (int_of_char ck u) 0) as [K|K]; [exfalso; revert K; apply char_zero; assumption|].
    reflexivity.
  - injection G as <- <-. eexists _, _. split; [reflexivity|]. split; [reflexivity|]. split; [|split; [assumption|eassumption]].
    cbn [uflow underflow]. destruct (Z.eqb_spec (Z.of_N u) 0) as [K|K]; [lia|]. reflexivity.
  - pose proof (E 0%nat ltac:(cbn; lia)) as E0. rewrite Nat.add_0_r in E0. cbn [nth] in E0. rewrite E0 in *. injection G as <- <-.
    assert (K : (int_of_char ck u =? 0)%Z = false) by (apply Z.eqb_neq; apply char_zero; assumption).
    eexists _, _. split; [reflexivity|]. split; [cbn [throws]; rewrite K; reflexivity|]. split; [|split; [assumption|eassumption]].
    cbn [uflow underflow]. rewrite K. reflexivity.
Qed.

(** ** Streams *)
Inductive like (ck : ckind) : istream -> istream -> Prop :=
| lk_good s b : fresh ck s b -> Forall (a_unit ck) s -> like ck (sis s) (mkIs b false false)
| lk_bad i j : is_good i = false -> is_eof i = is_eof j -> is_fail i = is_fail j -> like ck i j.

Lemma like_flags : forall ck i j, like ck i j -> is_eof i = is_eof j /\ is_fail i = is_fail j.
Proof. intros ck i j H. inversion H; subst; auto. Qed.
Lemma like_fail : forall ck i j, like ck i j -> like ck (set_fail i) (set_fail j).
Proof.
  intros ck i j H. apply lk_bad; [apply not_good_set_fail| |]; cbn; [|reflexivity]. apply (like_flags ck); assumption.
Qed.

Lemma get_like : forall ck i j c i', like ck i j -> is_get ck i = (c, i') -> stop_unit = eof_unit ck \/ is_good i' = true ->
  exists c' j', is_get ck j = (c', j') /\ cong ck c c' /\ like ck i' j'.
Proof.
  intros ck i j c i' L G Hz. inversion L as [s b F U|? ? B E1 E2]; subst.
  - unfold is_get, is_good, sis in *. cbn [is_eof is_fail negb andb is_buf throws] in *. destruct s as [|u s]; cbn [uflow] in G.
    + rewrite Z.eqb_refl in *. injection G as <- <-.
      destruct Hz as [Hz|Hz]; [|discriminate]. destruct (fresh_nil _ _ F Hz) as [-> [[b' ->] _]]. rewrite Z.eqb_refl.
      eexists _, _. split; [reflexivity|]. split; [apply cong_refl|]. apply lk_bad; reflexivity.
    + inversion U; subst. rewrite (fresh_calm _ _ _ _ F). destruct (fresh_get _ _ _ _ F) as (c' & b' & -> & Cg & F'); [assumption|].
      injection G as <- <-. eexists _, _. split; [reflexivity|]. split; [assumption|].
      destruct Cg as (Ce & _). rewrite <- Ce. destruct (Z.of_N u =? eof_int ck)%Z.
      * apply lk_bad; reflexivity.
      * apply lk_good; assumption.
  - unfold is_get in *. rewrite B in G. assert (B' : is_good j = false).
    { unfold is_good in *. rewrite <- E1, <- E2. assumption. }
    rewrite B'. injection G as <- <-. eexists _, _. split; [reflexivity|]. split; [apply cong_refl|]. apply (like_fail ck). assumption.
Qed.

Definition settled (ck : ckind) (i : istream) : Prop := stop_unit = eof_unit ck \/ is_good i = true.
Lemma settled_get : forall ck i c i', is_get ck i = (c, i') -> settled ck i' -> settled ck i.
Proof.
  intros ck i c i' G [H|H]; [left; assumption|]. right. destruct (is_good i) eqn:E; [reflexivity|].
  rewrite (not_good_get _ _ _ _ G E) in H. discriminate.
Qed.
Lemma settled_fail : forall ck (b : bool) i, settled ck (if b then set_fail i else i) -> settled ck i.
Proof.
  intros ck [] i [H|H]; [left; assumption| |left; assumption|right; assumption]. rewrite not_good_set_fail in H. discriminate.
Qed.
Lemma settled_read : forall ck n cp i r i', utf8_read ck n cp i = (r, i') -> settled ck i' -> settled ck i.
Proof.
  intros ck n cp i r i' R [H|H]; [left; assumption|]. right. destruct (is_good i) eqn:E; [reflexivity|].
  rewrite (utf8_read_not_good _ _ _ _ _ _ R E) in H. discriminate.
Qed.

Lemma read_like : forall ck n cp i j r i', like ck i j -> utf8_read ck n cp i = (r, i') -> settled ck i' ->
  exists j', utf8_read ck n cp j = (r, j') /\ like ck i' j'.
Proof.
  intros ck n. induction n as [|n IH]; intros cp i j r i' L H St; cbn [utf8_read] in *; destruct (is_get ck i) as [c i1] eqn:G.
  - injection H as <- <-. destruct (get_like _ _ _ _ _ L G St) as (c' & j1 & -> & (_ & C & _) & L1). rewrite <- C. exists j1. auto.
  - destruct (get_like _ _ _ _ _ L G (settled_read _ _ _ _ _ _ H St)) as (c' & j1 & -> & (_ & C & _) & L1); rewrite <- C.
    eapply IH; eassumption.
Qed.

(** bytes the UTF-8 decoder, which looks at the first one, can take *)
Definition no_nul (e : enc) (s : list N) : Prop := e = Utf8 -> ~ In 0 s.

Lemma decode_like : forall e ck s b cur ok c i', enc_ok e ck = true -> no_nul e s ->
  fresh ck s b -> Forall (a_unit ck) s -> decode e ck (sis s) cur = (ok, c, i') -> settled ck i' ->
  exists j', decode e ck (mkIs b false false) cur = (ok, c, j') /\ like ck i' j'.
Proof.
  intros e ck s b cur ok c i' Ok Z F U D St. pose proof (lk_good _ _ _ F U) as L. destruct e; cbn [decode] in *.
  - unfold ignore_decode in *. destruct (is_get ck (sis s)) as [x i1] eqn:G. injection D as <- <- <-.
    destruct (get_like _ _ _ _ _ L G St) as (x' & j1 & -> & Cg & L1). rewrite <- (cong_narrow _ _ _ Cg).
    destruct (like_flags _ _ _ L1) as [E _]. rewrite E. exists j1. auto.
  - unfold utf8_decode in *. unfold is_peek at 1. unfold is_peek in D at 1.
    unfold sis, is_good in D. unfold is_good. cbn [is_eof is_fail negb andb is_buf throws] in *.
    destruct s as [|u s].
    + cbn [underflow] in D. rewrite Z.eqb_refl in *. cbn [is_eof] in *. injection D as <- <- <-.
      destruct St as [St|St]; [|discriminate]. destruct (fresh_nil _ _ F St) as [-> [_ [b' ->]]]. rewrite Z.eqb_refl. cbn [is_eof].
      eexists. split; [reflexivity|]. apply lk_bad; reflexivity.
    + cbn [underflow] in D. inversion U as [|? ? U1 U2]; subst x l.
      rewrite (fresh_calm _ _ _ _ F). destruct (fresh_peek _ _ _ _ F U1) as (x & b1 & b' & -> & G0 & G1 & Cg & F'); [intros ->; apply Z; [reflexivity|left; reflexivity]|].
      destruct Cg as (Ce & C8' & Cw). rewrite <- Ce, <- C8'. destruct (Z.of_N u =? eof_int ck)%Z eqn:Eu; cbn [is_eof] in *.
      { injection D as <- <- <-. eexists. split; [reflexivity|]. apply lk_bad; reflexivity. }
      set (extra := utf8_extra_bytes (z_u8 (Z.of_N u))) in *.
      assert (R : forall r i2, utf8_read ck extra 0 (sis (u :: s)) = (r, i2) -> settled ck i2 ->
                  exists j2, utf8_read ck extra 0 (mkIs b1 false false) = (r, j2) /\ like ck i2 j2).
      { intros r i2 R St2. assert (E1 : is_get ck (sis (u :: s)) = (Z.of_N u, sis s)).
        { unfold is_get, is_good, sis. cbn [is_eof is_fail negb andb is_buf throws uflow]. rewrite Eu. reflexivity. }
        assert (E2 : is_get ck (mkIs b1 false false) = (x, mkIs b' false false)).
        { unfold is_get, is_good. cbn [is_eof is_fail negb andb is_buf throws]. rewrite G0, G1, <- Ce. reflexivity. }
        pose proof (lk_good _ _ _ F' U2) as L'. destruct extra; cbn [utf8_read] in *; rewrite E1 in R; rewrite E2, <- C8'.
        - injection R as <- <-. eexists. split; [reflexivity|assumption].
        - eapply read_like; eassumption. }
      change (mkIs (IStr (u :: s)) false false) with (sis (u :: s)) in D.
      destruct (utf8_read ck extra 0 (sis (u :: s))) as [r i2] eqn:E. injection D as <- <- <-.
      destruct (R _ _ eq_refl (settled_fail _ _ _ St)) as (j2 & -> & L2).
      eexists. split; [reflexivity|]. destruct (1114111 <? _); [apply like_fail|]; assumption.
  - unfold utf16_decode in *. destruct (is_get ck (sis s)) as [x i1] eqn:G.
    assert (S1 : settled ck i1).
    { destruct (is_eof i1); [injection D as <- <- <-; assumption|]. destruct (is_lead_surrogate (z_u16 x)).
      - destruct (is_get ck i1) as [y i2] eqn:G2. apply (settled_get _ _ _ _ G2).
        destruct (is_trail_surrogate (z_u16 y)); injection D as <- <- <-; apply settled_fail in St; [assumption|].
        apply (settled_fail ck true). assumption.
      - injection D as <- <- <-. apply settled_fail in St. assumption. }
    destruct (get_like _ _ _ _ _ L G S1) as (x' & j1 & -> & Cg & L1).
    assert (Ec : x' = x) by (symmetry; apply Cg; intros ->; discriminate). subst x'.
    destruct (like_flags _ _ _ L1) as [E _]. rewrite <- E. destruct (is_eof i1); [injection D as <- <- <-; eauto|].
    destruct (is_lead_surrogate (z_u16 x)).
    + destruct (is_get ck i1) as [y i2] eqn:G2. assert (S2 : settled ck i2).
      { destruct (is_trail_surrogate (z_u16 y)); injection D as <- <- <-; apply settled_fail in St; [assumption|].
        apply (settled_fail ck true). assumption. }
      destruct (get_like _ _ _ _ _ L1 G2 S2) as (y' & j2 & -> & Cg2 & L2).
      assert (Ec : y' = y) by (symmetry; apply Cg2; intros ->; discriminate). subst y'.
      destruct (is_trail_surrogate (z_u16 y)); injection D as <- <- <-; (eexists; split; [reflexivity|]);
        destruct (1114111 <? _); repeat apply like_fail; assumption.
    + injection D as <- <- <-; (eexists; split; [reflexivity|]); destruct (1114111 <? _); [apply like_fail|]; assumption.
  - unfold utf32_decode in *. destruct (is_get ck (sis s)) as [x i1] eqn:G.
    assert (S1 : settled ck i1).
    { destruct (is_eof i1); injection D as <- <- <-; [assumption|]. apply settled_fail in St. assumption. }
    destruct (get_like _ _ _ _ _ L G S1) as (x' & j1 & -> & Cg & L1).
    assert (Ec : x' = x) by (symmetry; apply Cg; intros ->; discriminate). subst x'.
    destruct (like_flags _ _ _ L1) as [E _]. rewrite <- E. destruct (is_eof i1); injection D as <- <- <-;
      (eexists; split; [reflexivity|]); [assumption|]. destruct (1114111 <? _); [apply like_fail|]; assumption.
Qed.
End Stop.

Lemma decode_suffix : forall e ck s cur c i', decode e ck (sis s) cur = (true, c, i') -> is_good i' = true ->
  exists pre s', s = pre ++ s' /\ i' = sis s'.
Proof.
  assert (G : forall ck s c i', is_get ck (sis s) = (c, i') -> is_good i' = true -> exists u s', s = u :: s' /\ i' = sis s').
  { intros ck s c i' E H. destruct (get_good _ _ _ _ E H) as (u & r & -> & -> & _). eauto. }
  assert (R : forall ck n cp s r i', utf8_read ck n cp (sis s) = (r, i') -> is_good i' = true ->
              exists pre s', s = pre ++ s' /\ i' = sis s').
  { intros ck n. induction n as [|n IH]; intros cp s r i' H Gd; cbn [utf8_read] in H; destruct (is_get ck (sis s)) as [c j] eqn:E.
    - injection H as <- <-. destruct (G _ _ _ _ E Gd) as (u & s' & -> & ->). exists [u], s'. auto.
    - destruct (is_good j) eqn:Gj; [|rewrite (utf8_read_not_good _ _ _ _ _ _ H Gj) in Gd; discriminate].
      destruct (G _ _ _ _ E Gj) as (u & s' & -> & ->). destruct (IH _ _ _ _ H Gd) as (pre & s2 & -> & ->). exists (u :: pre), s2. auto. }
  assert (SF : forall (b : bool) i, is_good (if b then set_fail i else i) = true -> b = false).
  { intros [] i H; [rewrite not_good_set_fail in H; discriminate|reflexivity]. }
  intros e ck s cur c i' D Gd. destruct e; cbn [decode] in D.
  - unfold ignore_decode in D. destruct (is_get ck (sis s)) as [x i1] eqn:E. injection D as _ _ <-.
    destruct (G _ _ _ _ E Gd) as (u & s' & -> & ->). exists [u], s'. auto.
  - unfold utf8_decode in D. destruct (is_peek ck (sis s)) as [x i1] eqn:E. destruct (is_eof i1) eqn:Ee; [discriminate|].
    assert (i1 = sis s) as ->.
    { unfold is_peek, sis, is_good in E. cbn [is_eof is_fail negb andb is_buf throws] in E. destruct s as [|u s]; cbn [underflow] in E;
        injection E as _ <-; cbn [is_eof] in Ee; rewrite Ee; reflexivity. }
    destruct (utf8_read ck _ 0 (sis s)) as [r i2] eqn:E2. injection D as _ <-. pose proof (SF _ _ Gd) as K. rewrite K in *.
    eapply R; eassumption.
  - unfold utf16_decode in D. destruct (is_get ck (sis s)) as [x i1] eqn:E. destruct (is_eof i1) eqn:Ee; [discriminate|].
    destruct (is_lead_surrogate (z_u16 x)).
    + destruct (is_get ck i1) as [y i2] eqn:E2. destruct (is_trail_surrogate (z_u16 y)); injection D as _ <-; pose proof (SF _ _ Gd) as K; rewrite K in *.
      * destruct (is_good i1) eqn:G1; [|rewrite (not_good_get _ _ _ _ E2 G1) in Gd; discriminate].
        destruct (G _ _ _ _ E G1) as (u & s' & -> & ->). destruct (G _ _ _ _ E2 Gd) as (u2 & s2 & -> & ->). exists [u; u2], s2. auto.
      * rewrite not_good_set_fail in Gd. discriminate.
    + injection D as _ <-. pose proof (SF _ _ Gd) as K. rewrite K in *.
      destruct (G _ _ _ _ E Gd) as (u & s' & -> & ->). exists [u], s'. auto.
  - unfold utf32_decode in D. destruct (is_get ck (sis s)) as [x i1] eqn:E. destruct (is_eof i1) eqn:Ee; [discriminate|].
    injection D as _ <-. pose proof (SF _ _ Gd) as K. rewrite K in *. destruct (G _ _ _ _ E Gd) as (u & s' & -> & ->). exists [u], s'. auto.
Qed.

Lemma feeds_like : forall e ck i l t, feeds e ck i l t -> enc_ok e ck = true ->
  forall s b, i = sis s -> no_nul e s -> fresh (eof_unit ck) ck s b -> Forall (a_unit ck) s -> feeds e ck (mkIs b false false) l t.
Proof.
  intros e ck i l t H Ok. assert (St : forall i, settled (eof_unit ck) ck i) by (intro; left; reflexivity).
  induction H as [i i' H|i c i' H G|i c i' l t H G HF IH]; intros s b -> Z F U.
  - destruct (H 0) as [c D]. destruct (decode_like _ _ _ _ _ _ _ _ _ Ok Z F U D (St _)) as (j' & D' & _).
    apply F_eof with j'. intro cur. eapply decode_false_cur. eassumption.
  - destruct (decode_like _ _ _ _ _ _ _ _ _ Ok Z F U (H 0) (St _)) as (j' & D' & L). apply F_bad with j'.
    + eapply decode_true_cur. eassumption.
    + destruct (like_flags _ _ _ _ L) as [E1 E2]. unfold is_good in *. rewrite <- E1, <- E2. assumption.
  - destruct (decode_like _ _ _ _ _ _ _ _ _ Ok Z F U (H 0) (St _)) as (j' & D' & L). apply F_cons with j'.
    + eapply decode_true_cur. eassumption.
    + destruct (like_flags _ _ _ _ L) as [E1 E2]. unfold is_good in *. rewrite <- E1, <- E2. assumption.
    + destruct (decode_suffix _ _ _ _ _ _ (H 0) G) as (pre & s' & -> & ->).
      inversion L as [s2 b2 F2 U2|]; subst; [|congruence]. apply (IH s' b2 eq_refl); try assumption.
      intros K I. apply (Z K). apply in_or_app. right. assumption.
Qed.

Lemma behind_fresh : forall ck s b, behind ck s b -> fresh (eof_unit ck) ck s b.
Proof. intros ck s b H. inversion H; subst; constructor; assumption. Qed.

Theorem same_outcome : forall cf h c s b n, enc_ok (src_enc cf) (src_ck cf) = true ->
  behind (src_ck cf) s b -> Forall (a_unit (src_ck cf)) s -> (src_enc cf = Utf8 -> ~ In 0 s) ->
  (fuel_for s <= n)%nat -> parse_ibuf cf h n c b = parse_into cf h c s /\ fst (snd (parse_into cf h c s)) <> OutOfFuel.
Proof.
  intros cf h c s b n Ok B U Z N. destruct (feeds_string (src_enc cf) (src_ck cf) s) as (l & t & F & L).
  pose proof (feeds_like _ _ _ _ _ F Ok s b eq_refl Z (behind_fresh _ _ _ B) U) as F'.
  rewrite (parse_into_top cf h c s l t F). split; [|apply (top_nofuel cf t h c l (IStr s)); exact F].
  apply parse_ibuf_top; [exact F'|]. unfold fuel_for, need in *. lia.
Qed.

(** ** NULs in ASCII texts *)
Lemma ascii_step : forall ck u s, u < 128 -> forall cur, decode Utf8 ck (sis (u :: s)) cur = (true, u, sis s).
Proof.
  intros ck u s H cur. cbn [decode]. unfold utf8_decode, is_peek, sis, is_good. cbn [is_eof is_fail negb andb is_buf throws underflow].
  destruct (Z.eqb_spec (Z.of_N u) (eof_int ck)) as [E|E]; [destruct ck; cbn in E; lia|]. cbn [is_eof].
  assert (E8 : z_u8 (Z.of_N u) = u) by (unfold z_u8; lia). rewrite E8.
  replace (utf8_extra_bytes u) with 0%nat by (unfold utf8_extra_bytes; destruct (N.ltb_spec u 192); [reflexivity|lia]).
  cbn [utf8_read]. unfold is_get, is_good. cbn [is_eof is_fail negb andb is_buf throws uflow].
  destruct (Z.eqb_spec (Z.of_N u) (eof_int ck)) as [E'|_]; [contradiction|]. rewrite E8.
  replace (u32_sub (u32 (0 + u)) (utf8_offset 0)) with u by (unfold u32_sub, u32, utf8_offset; lia).
  destruct (N.ltb_spec 1114111 u); [lia|]. reflexivity.
Qed.

Lemma nul_feeds : forall ck n s b, (length s <= n)%nat -> Forall (fun u => u < 128) s -> fresh (eof_unit ck) ck s b ->
  forall l t, feeds Utf8 ck (sis (after_nuls s)) l t -> feeds Utf8 ck (mkIs b false false) l t.
Proof.
  intros ck n. induction n as [|n IH]; intros s b L A F l t H.
  - destruct s as [|]; [|cbn in L; lia]. apply (feeds_like _ _ _ _ _ H eq_refl [] b eq_refl); [intros _ []|assumption|constructor].
  - destruct s as [|u s].
    { apply (feeds_like _ _ _ _ _ H eq_refl [] b eq_refl); [intros _ []|assumption|constructor]. }
    cbn in L. inversion A as [|? ? A1 A2]; subst. cbn [after_nuls] in H. destruct (N.eqb_spec u 0) as [->|Nz].
    + (* the NUL is dropped *)
      assert (P : exists b1, underflow ck b = (0%Z, b1) /\ fresh (eof_unit ck) ck s b1).
      { inversion F as [s' src pos E C|s'|s' src pos E C Ne]; subst; [| |contradiction]; cbn [underflow Z.eqb fgetc].
        - pose proof (E 0%nat) as E0. rewrite Nat.add_0_r in E0. cbn in E0. rewrite E0.
          replace (int_of_char ck 0) with 0%Z by (destruct ck; reflexivity).
          eexists. split; [reflexivity|]. constructor; [|intros K I; apply (C K); right; assumption].
          intro k. rewrite Nat.add_succ_comm, E. reflexivity.
        - eexists. split; [reflexivity|constructor]. }
      destruct P as (b1 & P & F1).
      assert (D : forall cur, decode Utf8 ck (mkIs b false false) cur =
        let '(x, i) := is_get ck (mkIs b1 false false) in (true, z_u8 x, i)).
      { intro cur. cbn [decode]. unfold utf8_decode. unfold is_peek, is_good. cbn [is_eof is_fail negb andb is_buf throws].
        rewrite (fresh_calm _ _ _ _ _ F), P. destruct (Z.eqb_spec 0 (eof_int ck)) as [K|_]; [symmetry in K; destruct (eof_not_zero _ K)|]. cbn [is_eof].
        change (utf8_extra_bytes (z_u8 0)) with 0%nat. cbn [utf8_read]. destruct (is_get ck (mkIs b1 false false)) as [x i].
        assert (z_u8 x < 256) by (unfold z_u8; lia).
        replace (u32_sub (u32 (0 + z_u8 x)) (utf8_offset 0)) with (z_u8 x) by (unfold u32_sub, u32, utf8_offset; lia).
        destruct (N.ltb_spec 1114111 (z_u8 x)); [lia|]. reflexivity. }
      unfold is_get, is_good in D. cbn [is_eof is_fail negb andb is_buf throws] in D.
      destruct s as [|v s].
      * destruct (fresh_nil _ _ _ F1 eq_refl) as [T0 [[b2 E] _]]. rewrite T0, E, Z.eqb_refl in D.
        assert (H' : feeds Utf8 ck (sis [194]) [] (TBad 255)).
        { destruct ck; (eapply F_bad; [intros; vm_compute; reflexivity|vm_compute; reflexivity]). }
        destruct (feeds_det _ _ _ _ _ H _ _ H') as [-> ->]. replace (z_u8 (eof_int ck)) with 255 in D by (destruct ck; reflexivity). eapply F_bad; [exact D|reflexivity].
      * cbn in L. inversion A2 as [|? ? A3 A4]; subst.
        assert (U : a_unit ck v) by (unfold a_unit, eof_unit; destruct ck; lia).
        destruct (fresh_get _ _ _ _ _ F1 U) as (x & b2 & E & (Ce & C8' & _) & F2). rewrite (fresh_calm _ _ _ _ _ F1), E, <- Ce, <- C8' in D.
        destruct (Z.eqb_spec (Z.of_N v) (eof_int ck)) as [K|K]; [destruct ck; cbn in K; lia|].
        replace (z_u8 (Z.of_N v)) with v in D by (unfold z_u8; lia).
        pose proof (ascii_step ck v (after_nuls s) A3) as Sv.
        inversion H as [i i' Q|i c i' Q G|i c i' l' t' Q G HF]; subst.
        -- destruct (Q 0) as [c0 Q0]. rewrite Sv in Q0. discriminate.
        -- pose proof (Q 0) as Q0. rewrite Sv in Q0. injection Q0 as <- <-. discriminate.
        -- pose proof (Q 0) as Q0. rewrite Sv in Q0. injection Q0 as <- <-. eapply F_cons; [exact D|reflexivity|].
           apply (IH s b2); try assumption. lia.
    + assert (U : a_unit ck u) by (unfold a_unit, eof_unit; destruct ck; lia).
      pose proof (ascii_step ck u (after_nuls s) A1) as Su.
      assert (D : exists b2, (forall cur, decode Utf8 ck (mkIs b false false) cur = (true, u, mkIs b2 false false)) /\ fresh (eof_unit ck) ck s b2).
      { destruct (fresh_peek _ _ _ _ _ F U Nz) as (x & b1 & b2 & E1 & T1 & E2 & (Ce & C8' & _) & F2). exists b2. split; [|assumption].
        intro cur. cbn [decode]. unfold utf8_decode, is_peek, is_good. cbn [is_eof is_fail negb andb is_buf throws]. rewrite (fresh_calm _ _ _ _ _ F), E1, <- Ce, <- C8'.
        destruct (Z.eqb_spec (Z.of_N u) (eof_int ck)) as [E|E]; [destruct ck; cbn in E; lia|]. cbn [is_eof].
        assert (E8 : z_u8 (Z.of_N u) = u) by (unfold z_u8; lia). rewrite E8.
        replace (utf8_extra_bytes u) with 0%nat by (unfold utf8_extra_bytes; destruct (N.ltb_spec u 192); [reflexivity|lia]).
        cbn [utf8_read]. unfold is_get, is_good. cbn [is_eof is_fail negb andb is_buf throws]. rewrite T1, E2, <- Ce.
        destruct (Z.eqb_spec (Z.of_N u) (eof_int ck)) as [E'|_]; [contradiction|]. rewrite <- C8', E8.
        replace (u32_sub (u32 (0 + u)) (utf8_offset 0)) with u by (unfold u32_sub, u32, utf8_offset; lia).
        destruct (N.ltb_spec 1114111 u); [lia|]. reflexivity. }
      destruct D as (b2 & D & F2).
      inversion H as [i i' Q|i c i' Q G|i c i' l' t' Q G HF]; subst.
      * destruct (Q 0) as [c0 Q0]. rewrite Su in Q0. discriminate.
      * pose proof (Q 0) as Q0. rewrite Su in Q0. injection Q0 as <- <-. discriminate.
      * pose proof (Q 0) as Q0. rewrite Su in Q0. injection Q0 as <- <-. eapply F_cons; [exact D|reflexivity|].
        apply (IH s b2); try assumption. lia.
Qed.

Lemma after_nuls_len : forall n s, (length s <= n)%nat -> (length (after_nuls s) <= length s)%nat.
Proof.
  induction n as [|n IH]; intros [|u s] L; cbn in *; try lia. destruct (u =? 0).
  - destruct s as [|v s]; cbn in *; [lia|]. pose proof (IH s). lia.
  - pose proof (IH s). cbn. lia.
Qed.

Theorem nul_outcome : forall cf h c s b n, src_enc cf = Utf8 -> behind (src_ck cf) s b -> Forall (fun u => u < 128) s ->
  (fuel_for s <= n)%nat -> parse_ibuf cf h n c b = parse_into cf h c (after_nuls s).
Proof.
  intros cf h c s b n E B A N. destruct (feeds_string (src_enc cf) (src_ck cf) (after_nuls s)) as (l & t & F & L).
  rewrite (parse_into_top cf h c _ l t F). apply parse_ibuf_top.
  - rewrite E in *. apply (nul_feeds _ (length s) s b (le_n _) A (behind_fresh _ _ _ B) _ _ F).
  - pose proof (after_nuls_len (length s) s (le_n _)). unfold fuel_for, need in *. lia.
Qed.
