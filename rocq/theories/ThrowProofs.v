(** Adapters that throw. *)
From Coq Require Import Lia ZifyBool ZifyNat ZifyN.
From Verif Require Import Base Stream Encoding SpecUnicode Value Token Message Parser EncodingProofs Feeds ListMachine SimParse Mono SpecStream StreamProofs.
Ltac Zify.zify_post_hook ::= Z.div_mod_to_equations.

Ltac split_limit := match goal with |- context [1114111 <? ?z] => destruct (1114111 <? z) end.
Definition is_thr (b : ibuf) : Prop := match b with IThr _ _ _ _ => True | _ => False end.
Definition thr (ck : ckind) (s : list N) (b : ibuf) : Prop := fresh 0 ck s b /\ is_thr b.

Lemma thr_end : forall ck b, thr ck [] b -> throws b = true.
Proof. intros ck b [F T]. inversion F; subst; try contradiction. cbn [throws length]. lia. Qed.
Lemma thr_uflow : forall ck b c b', is_thr b -> uflow ck b = (c, b') -> is_thr b'.
Proof. intros ck [] c b' T E; try contradiction. cbn [uflow underflow] in E. destruct (last =? 0)%Z; injection E as _ <-; exact Logic.I. Qed.
Lemma thr_underflow : forall ck b c b', is_thr b -> underflow ck b = (c, b') -> is_thr b'.
Proof. intros ck [] c b' T E; try contradiction. cbn [underflow] in E. destruct (last =? 0)%Z; injection E as _ <-; exact Logic.I. Qed.

Section Kinds.
Variable ck : ckind.
Definition below (u : N) : Prop := u < eof_unit ck.
Lemma below_unit : forall u, below u -> a_unit ck u.
Proof. unfold below, a_unit. intros. lia. Qed.
Lemma below_int : forall u, below u -> (Z.of_N u =? eof_int ck)%Z = false.
Proof. unfold below, eof_unit, eof_int. intros u H. destruct ck; lia. Qed.

Definition paired (i j : istream) : Prop :=
  (exists s b, i = sis s /\ j = mkIs b false false /\ thr ck s b /\ Forall below s) \/
  (is_good i = false /\ is_good j = false /\ is_eof j = false).

Lemma get_paired : forall i j c i', paired i j -> is_get ck i = (c, i') ->
  exists c' j', is_get ck j = (c', j') /\ paired i' j' /\ is_eof j' = false /\ (is_good i' = true -> cong ck c c').
Proof.
  intros i j c i' P G. destruct P as [(s & b & -> & -> & T & B)|(Gi & Gj & Ej)].
  - unfold is_get, is_good, sis in *. cbn [is_eof is_fail negb andb is_buf throws] in *. destruct s as [|u s]; cbn [uflow] in G.
    + rewrite Z.eqb_refl in G. injection G as <- <-. rewrite (thr_end _ _ T). do 2 eexists. split; [reflexivity|].
      split; [right; repeat split; reflexivity|]. split; [reflexivity|discriminate].
    + inversion B as [|? ? B1 B2]; subst. rewrite (below_int _ B1) in G. injection G as <- <-. destruct T as [F T].
      rewrite (fresh_calm _ _ _ _ _ F). destruct (fresh_get _ _ _ _ _ F (below_unit _ B1)) as (c' & b' & U & Cg & F'). rewrite U.
      pose proof Cg as (Ce & _). rewrite <- Ce, (below_int _ B1). do 2 eexists. split; [reflexivity|].
      split; [left; exists s, b'; repeat split; try assumption; eapply thr_uflow; eassumption|]. split; [reflexivity|]. intros _. exact Cg.
  - unfold is_get in *. rewrite Gi in G. rewrite Gj. injection G as <- <-. do 2 eexists. split; [reflexivity|].
    split; [right; rewrite !not_good_set_fail; auto|]. split; [exact Ej|]. intros _. apply cong_refl.
Qed.
Lemma paired_good : forall i j, paired i j -> is_good i = is_good j.
Proof. intros i j [(s & b & -> & -> & _)|(A & B & _)]; [reflexivity|congruence]. Qed.
Lemma paired_eof : forall i j, paired i j -> is_eof j = false.
Proof. intros i j [(s & b & -> & -> & _)|(A & B & C)]; [reflexivity|assumption]. Qed.
Lemma paired_fail : forall i j, paired i j -> paired (set_fail i) (set_fail j).
Proof. intros i j P. right. rewrite !not_good_set_fail. repeat split. exact (paired_eof _ _ P). Qed.

Lemma read_paired : forall n cp cp' i j r i', paired i j -> utf8_read ck n cp i = (r, i') -> (is_good i = true -> cp = cp') ->
  exists r' j', utf8_read ck n cp' j = (r', j') /\ paired i' j' /\ (is_good i' = true -> r = r').
Proof.
  induction n as [|n IH]; intros cp cp' i j r i' P R E; cbn [utf8_read] in *; destruct (is_get ck i) as [c i1] eqn:G;
    destruct (get_paired _ _ _ _ P G) as (c' & j1 & G' & P1 & _ & Cg); rewrite G'.
  - injection R as <- <-. do 2 eexists. split; [reflexivity|]. split; [exact P1|]. intro Gd. destruct (Cg Gd) as (_ & C8' & _). rewrite C8'.
    rewrite E; [reflexivity|]. destruct (is_good i) eqn:Gi; [reflexivity|]. rewrite (not_good_get _ _ _ _ G Gi) in Gd. discriminate.
  - eapply IH; [exact P1|exact R|]. intro Gd. destruct (Cg Gd) as (_ & C8' & _). rewrite C8'. f_equal. f_equal. f_equal. f_equal.
    apply E. destruct (is_good i) eqn:Gi; [reflexivity|]. rewrite (not_good_get _ _ _ _ G Gi) in Gd. discriminate.
Qed.

Lemma decode_paired : forall e s b cur ok c i', enc_ok e ck = true -> no_nul e s -> thr ck s b -> Forall below s ->
  decode e ck (sis s) cur = (ok, c, i') ->
  exists c' j', (forall cur, decode e ck (mkIs b false false) cur = (true, c', j')) /\ paired i' j' /\ (is_good i' = true -> c = c').
Proof.
  intros e s b cur ok c i' Ok Z T B D. assert (P : paired (sis s) (mkIs b false false)) by (left; exists s, b; auto). destruct e; cbn [decode] in *.
  - unfold ignore_decode in *. destruct (is_get ck (sis s)) as [x i1] eqn:G. injection D as <- <- <-.
    destruct (get_paired _ _ _ _ P G) as (x' & j1 & -> & P1 & E & Cg). rewrite E. do 2 eexists. split; [reflexivity|]. split; [exact P1|].
    intro Gd. rewrite (cong_narrow _ _ _ (Cg Gd)). reflexivity.
  - unfold utf8_decode in *. unfold is_peek, is_good, sis in D. unfold is_peek, is_good. cbn [is_eof is_fail negb andb is_buf throws] in *. destruct s as [|u s].
    + cbn [underflow] in D. rewrite Z.eqb_refl in D. cbn [is_eof] in D. injection D as <- <- <-. rewrite (thr_end _ _ T). unfold set_fail. cbn [is_eof is_buf].
      destruct (utf8_read ck _ 0 _) as [r j] eqn:R. do 2 eexists. split; [reflexivity|].
      assert (Pd : paired (mkIs (IStr []) true true) (mkIs b false true)) by (right; auto).
      destruct (utf8_read ck (utf8_extra_bytes (z_u8 (eof_int ck))) 0 (mkIs (IStr []) true true)) as [r0 i0] eqn:R0.
      destruct (read_paired _ 0 0 _ _ _ _ Pd R0 ltac:(reflexivity)) as (r1 & j1 & R1 & P1 & _). rewrite R in R1. injection R1 as <- <-.
      assert (Gd : is_good i0 = false) by (eapply utf8_read_not_good; [exact R0|reflexivity]). pose proof (paired_good _ _ P1) as Gj. rewrite Gd in Gj.
      split; [|discriminate]. right. split; [reflexivity|]. pose proof (paired_eof _ _ P1) as Ej. split_limit; split; try exact Ej; [apply not_good_set_fail|symmetry; exact Gj].
    + cbn [underflow] in D. inversion B as [|? ? B1 B2]; subst. rewrite (below_int _ B1) in D. cbn [is_eof] in D. destruct T as [F T].
      rewrite (fresh_calm _ _ _ _ _ F). destruct (fresh_peek _ _ _ _ _ F (below_unit _ B1)) as (x & b1 & b' & U & G0 & G1 & Cg & F'); [intros ->; apply Z; [reflexivity|left; reflexivity]|].
      rewrite U. pose proof Cg as (Ce & C8' & _). rewrite <- Ce, (below_int _ B1), <- C8'. cbn [is_eof].
      assert (T1 : is_thr b') by (eapply thr_uflow; [|exact G1]; eapply thr_underflow; eassumption).
      assert (P' : paired (sis s) (mkIs b' false false)) by (left; exists s, b'; repeat split; assumption).
      assert (E1 : is_get ck (mkIs (IStr (u :: s)) false false) = (Z.of_N u, sis s)).
      { unfold is_get, is_good. cbn [is_eof is_fail negb andb is_buf throws uflow]. rewrite (below_int _ B1). reflexivity. }
      assert (E2 : is_get ck (mkIs b1 false false) = (x, mkIs b' false false)).
      { unfold is_get, is_good. cbn [is_eof is_fail negb andb is_buf throws]. rewrite G0, G1, <- Ce, (below_int _ B1). reflexivity. }
      set (extra := utf8_extra_bytes (z_u8 (Z.of_N u))) in *.
      assert (R : exists r i2 r' j2, utf8_read ck extra 0 (mkIs (IStr (u :: s)) false false) = (r, i2) /\ utf8_read ck extra 0 (mkIs b1 false false) = (r', j2) /\
                  paired i2 j2 /\ (is_good i2 = true -> r = r')).
      { destruct extra as [|n]; cbn [utf8_read]; rewrite E1, E2, <- C8'.
        - do 4 eexists. split; [reflexivity|]. split; [reflexivity|]. split; [exact P'|reflexivity].
        - destruct (utf8_read ck n (u32 (N.shiftl (u32 (0 + z_u8 (Z.of_N u))) 6)) (sis s)) as [r i2] eqn:R.
          destruct (read_paired _ _ _ _ _ _ _ P' R ltac:(reflexivity)) as (r' & j2 & R' & P2 & E). rewrite R'. eauto 10. }
      destruct R as (r & i2 & r' & j2 & R & R' & P2 & E). rewrite R in D. rewrite R'. injection D as <- <- <-.
      do 2 eexists. split; [reflexivity|]. pose proof (paired_good _ _ P2) as Gd. destruct (is_good i2) eqn:G2.
      * rewrite <- (E eq_refl). split_limit.
        -- split; [apply paired_fail; exact P2|]. reflexivity.
        -- split; [exact P2|]. reflexivity.
      * split.
        -- right. assert (forall (q : bool) k, is_good k = false -> is_good (if q then set_fail k else k) = false) as H by (intros [] k K; [apply not_good_set_fail|exact K]).
           split; [apply H; assumption|]. split; [apply H; symmetry; assumption|]. split_limit; cbn [set_fail is_eof]; exact (paired_eof _ _ P2).
        -- intro K. exfalso. assert (forall (q : bool) k, is_good k = false -> is_good (if q then set_fail k else k) = false) as H by (intros [] k K0; [apply not_good_set_fail|exact K0]).
           pose proof (H (1114111 <? u32_sub r (utf8_offset extra)) i2 G2) as K2. unfold is_good in K2. congruence.
  - unfold utf16_decode in *. destruct (is_get ck (sis s)) as [x i1] eqn:G. destruct (get_paired _ _ _ _ P G) as (x' & j1 & -> & P1 & E & Cg). rewrite E.
    destruct (is_good i1) eqn:G1.
    + assert (x' = x) as -> by (symmetry; apply Cg; [reflexivity|intros ->; discriminate Ok]).
      assert (E1 : is_eof i1 = false) by (unfold is_good in G1; destruct (is_eof i1); [discriminate|reflexivity]). rewrite E1 in D.
      destruct (is_lead_surrogate (z_u16 x)).
      * destruct (is_get ck i1) as [y i2] eqn:G2. destruct (get_paired _ _ _ _ P1 G2) as (y' & j2 & -> & P2 & E2 & Cg2).
        destruct (is_good i2) eqn:G3.
        -- assert (y' = y) as -> by (symmetry; apply Cg2; [reflexivity|intros ->; discriminate Ok]).
           destruct (is_trail_surrogate (z_u16 y)); injection D as <- <- <-; do 2 eexists; (split; [reflexivity|]);
             (split; [split_limit; repeat apply paired_fail; exact P2|reflexivity]).
        -- assert (Gj : is_good j2 = false) by (rewrite <- (paired_good _ _ P2); exact G3).
           assert (H : forall (q : bool) k, is_good k = false -> is_good (if q then set_fail k else k) = false) by (intros [] k K; [apply not_good_set_fail|exact K]).
           assert (N1 : is_good i' = false).
           { destruct (is_trail_surrogate (z_u16 y)); injection D as <- <- <-; apply H; [exact G3|apply not_good_set_fail]. }
           destruct (is_trail_surrogate (z_u16 y')); do 2 eexists; (split; [reflexivity|]); (split; [|rewrite N1; discriminate]); right; (split; [exact N1|]);
             (split; [apply H; [exact Gj] || (apply H; apply not_good_set_fail)|]); split_limit; cbn [set_fail is_eof]; exact E2.
      * injection D as <- <- <-. do 2 eexists. split; [reflexivity|]. split; [split_limit; repeat apply paired_fail; exact P1|reflexivity].
    + assert (Gj : is_good j1 = false) by (rewrite <- (paired_good _ _ P1); exact G1).
      assert (H : forall (q : bool) k, is_good k = false -> is_good (if q then set_fail k else k) = false) by (intros [] k K; [apply not_good_set_fail|exact K]).
      assert (N1 : is_good i' = false).
      { destruct (is_eof i1); [injection D as <- <- <-; exact G1|]. destruct (is_lead_surrogate (z_u16 x)).
        - destruct (is_get ck i1) as [y i2] eqn:G2. pose proof (not_good_get _ _ _ _ G2 G1).
          destruct (is_trail_surrogate (z_u16 y)); injection D as <- <- <-; apply H; [assumption|apply not_good_set_fail].
        - injection D as <- <- <-. apply H. exact G1. }
      destruct (is_lead_surrogate (z_u16 x')).
      * destruct (is_get ck j1) as [y' j2] eqn:G2. pose proof (not_good_get _ _ _ _ G2 Gj) as Gj2.
        assert (E2 : is_eof j2 = false) by (unfold is_get in G2; rewrite Gj in G2; injection G2 as _ <-; exact E).
        destruct (is_trail_surrogate (z_u16 y')); do 2 eexists; (split; [reflexivity|]); (split; [|rewrite N1; discriminate]); right; (split; [exact N1|]).
        -- split; [apply H; exact Gj2|]. split_limit; exact E2.
        -- split; [apply H; apply not_good_set_fail|]. split_limit; exact E2.
      * do 2 eexists. split; [reflexivity|]. split; [|rewrite N1; discriminate]. right. split; [exact N1|]. split; [apply H; exact Gj|]. split_limit; exact E.
  - unfold utf32_decode in *. destruct (is_get ck (sis s)) as [x i1] eqn:G. destruct (get_paired _ _ _ _ P G) as (x' & j1 & -> & P1 & E & Cg). rewrite E.
    assert (H : forall (q : bool) k, is_good k = false -> is_good (if q then set_fail k else k) = false) by (intros [] k K; [apply not_good_set_fail|exact K]).
    destruct (is_good i1) eqn:G1.
    + assert (x' = x) as -> by (symmetry; apply Cg; [reflexivity|intros ->; discriminate Ok]).
      assert (E1 : is_eof i1 = false) by (unfold is_good in G1; destruct (is_eof i1); [discriminate|reflexivity]). rewrite E1 in D. injection D as <- <- <-.
      do 2 eexists. split; [reflexivity|]. split; [split_limit; [apply paired_fail|]; exact P1|reflexivity].
    + assert (Gj : is_good j1 = false) by (rewrite <- (paired_good _ _ P1); exact G1).
      assert (N1 : is_good i' = false) by (destruct (is_eof i1); injection D as <- <- <-; [exact G1|apply H; exact G1]).
      do 2 eexists. split; [reflexivity|]. split; [|rewrite N1; discriminate]. right. split; [exact N1|]. split; [apply H; exact Gj|]. split_limit; exact E.
Qed.

Lemma end_code : forall e b cur, enc_ok e ck = true -> thr ck [] b -> exists j, decode e ck (mkIs b false false) cur = (true, broken_code e ck, j).
Proof.
  intros e b cur Ok T. pose proof (thr_end _ _ T) as Th.
  assert (G : is_get ck (mkIs b false false) = (eof_int ck, mkIs b false true)) by (unfold is_get, is_good; cbn [is_eof is_fail negb andb is_buf]; rewrite Th; reflexivity).
  destruct e; cbn [decode].
  - unfold ignore_decode. rewrite G. destruct ck; eexists; reflexivity.
  - unfold utf8_decode, is_peek, is_good. cbn [is_eof is_fail negb andb is_buf]. rewrite Th. destruct ck; eexists; vm_compute; reflexivity.
  - unfold utf16_decode. rewrite G. destruct ck; try discriminate Ok; eexists; vm_compute; reflexivity.
  - unfold utf32_decode. rewrite G. destruct ck; try discriminate Ok; eexists; vm_compute; reflexivity.
Qed.

Lemma feeds_thrower : forall e i l t, feeds e ck i l t -> enc_ok e ck = true -> forall s b, i = sis s -> no_nul e s -> thr ck s b -> Forall below s ->
  exists c, feeds e ck (mkIs b false false) l (TBad c) /\ (t = TEof -> c = broken_code e ck).
Proof.
  intros e i l t F Ok. induction F as [i i' D|i c i' D G|i c i' l t D G F IH]; intros s b -> Z T B.
  - destruct (D 0) as [c D0]. assert (s = []) as ->.
    { pose proof (decode_false_eof _ _ _ _ _ _ D0) as E. destruct s as [|u s]; [reflexivity|exfalso]. inversion B as [|? ? B1 B2]; subst.
      destruct (decode_paired e (u :: s) b 0 _ _ _ Ok Z T B D0) as (c' & j' & D' & P & _). revert D0. clear - B1 Ok. intro D0.
      assert (E1 : is_get ck (sis (u :: s)) = (Z.of_N u, sis s)) by (unfold is_get, is_good, sis; cbn [is_eof is_fail negb andb is_buf throws uflow]; rewrite (below_int _ B1); reflexivity).
      destruct e; cbn [decode] in D0.
      - unfold ignore_decode in D0. rewrite E1 in D0. discriminate.
      - unfold utf8_decode, is_peek, is_good, sis in D0. cbn [is_eof is_fail negb andb is_buf throws underflow] in D0. rewrite (below_int _ B1) in D0. cbn [is_eof] in D0.
        destruct (utf8_read _ _ _ _). discriminate.
      - unfold utf16_decode in D0. rewrite E1 in D0. cbn [sis is_eof] in D0. destruct (is_lead_surrogate _); [destruct (is_get ck _); destruct (is_trail_surrogate _)|]; discriminate.
      - unfold utf32_decode in D0. rewrite E1 in D0. discriminate. }
    destruct (decode_paired e [] b 0 _ _ _ Ok Z T B D0) as (c' & j' & D' & P & _). exists c'.
    pose proof (decode_false_eof _ _ _ _ _ _ D0) as E.
    split; [|intros _; destruct (end_code e b 0 Ok T) as [j Ec]; rewrite D' in Ec; congruence].
    eapply F_bad; [exact D'|]. rewrite <- (paired_good _ _ P). unfold is_good. rewrite E. reflexivity.
  - destruct (decode_paired e s b 0 _ _ _ Ok Z T B (D 0)) as (c' & j' & D' & P & _). exists c'. split; [|discriminate].
    eapply F_bad; [exact D'|]. rewrite <- (paired_good _ _ P). exact G.
  - destruct (decode_paired e s b 0 _ _ _ Ok Z T B (D 0)) as (c' & j' & D' & P & C). rewrite <- (C G) in D'.
    destruct P as [(s' & b' & -> & -> & T' & B')|(Gi & _)]; [|congruence].
    destruct (IH s' b' eq_refl) as (k & F' & K); try assumption.
    { intros -> I. apply (Z eq_refl). destruct (decode_suffix _ _ _ _ _ _ (D 0) G) as (pre & s2 & -> & E). injection E as ->. apply in_or_app. right. exact I. }
    exists k. split; [|exact K]. eapply F_cons; [exact D'|reflexivity|exact F'].
Qed.
End Kinds.
