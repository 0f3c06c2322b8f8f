(** Where parsing hits the assertion or signed overflow, and where it fails:
    proofs on the list machine. *)
From Coq Require Import Lia ZifyBool ZifyNat ZifyN Floats.SpecFloat.
From Verif Require Import Base Stream Encoding Value Token Parser EncodingProofs Feeds ListMachine Simulation SimParse
  SpecUnicode SpecGrammar GrammarLex GrammarTok ObjFacts GrammarProofs SpecPos.

(** [isX true]: the assertion failed; [isX false]: undefined behaviour *)
Definition isX (b : bool) {A} (o : outcome A) : Prop :=
  match o with Abort => b = true | UB => b = false | _ => False end.

Lemma isX_stop : forall b A B (o : outcome A), (forall a, o <> Ret a) -> isX b (@stop A B o) <-> isX b o.
Proof. intros b A B [] H; cbn; try tauto. exfalso. eapply H. reflexivity. Qed.

Lemma isX_bind : forall b A B (m : outcome A) (k : A -> outcome B),
  isX b (bind m k) <-> isX b m \/ exists a, m = Ret a /\ isX b (k a).
Proof.
  intros b A B m k. destruct m; cbn [bind isX]; (split; [|intros [H|(a0 & E & H)]; [|inversion E; subst]]);
    try tauto; try contradiction; try assumption. intro H. right. eauto.
Qed.

Lemma isX_guard : forall b A t l (k : outcome A), isX b (guard t l k) <-> isX b k /\ ok t l.
Proof. intros b A t l k. destruct l, t; cbn; unfold ok; cbn; tauto || (split; [tauto|intros [_ H]; discriminate]). Qed.

Lemma nox_skip : forall b n t l, (length l <= n)%nat -> forall m, ~ isX b (a_skip m t l).
Proof.
  intros b n t. induction n as [n IH] using lt_wf_ind. intros l Hn m H.
  assert (IHs : forall l', (length l' < length l)%nat -> forall m, ~ isX b (a_skip m t l')).
  { intros l' L. exact (IH (length l') ltac:(lia) l' (le_n _)). }
  destruct l as [|c l1]; [destruct m; exact H|]. destruct m.
  - rewrite skip_ws_eq in H. destruct (is_space c).
    { apply isX_guard in H. eapply IHs; [|apply H]. cbn; lia. }
    destruct (c =? 47); [|exact H]. apply isX_guard in H. destruct H as [H _].
    destruct l1 as [|c1 l2]; [exact H|]. destruct (c1 =? 47); [eapply IHs; [|exact H]; cbn; lia|].
    destruct (c1 =? 42); [eapply IHs; [|exact H]; cbn; lia|exact H].
  - rewrite skip_line_eq in H. apply isX_guard in H. destruct H as [H _]. destruct l1 as [|c1 l2]; [exact H|].
    destruct (is_nl c1); (eapply IHs; [|exact H]; cbn; lia).
  - rewrite skip_block_eq in H. apply isX_guard in H. destruct H as [H _]. destruct l1 as [|c1 l2]; [exact H|].
    destruct (c1 =? 42); [|eapply IHs; [|exact H]; cbn; lia].
    apply isX_guard in H. destruct H as [H _]. destruct l2 as [|c2 l3]; [exact H|].
    destruct (c2 =? 47); [|eapply IHs; [|exact H]; cbn; lia].
    apply isX_guard in H. destruct H as [H _]. eapply IHs; [|exact H]; cbn; lia.
Qed.

Lemma nox_literal : forall b cf t x w l, ~ isX b (a_literal cf t x w l).
Proof.
  intros b cf t x w. induction w as [|c w IH]; intros l H; [exact H|]. cbn [a_literal] in H.
  destruct (_ =? _); [|exact H]. apply isX_guard in H. eapply IH. apply H.
Qed.

Lemma nox_expd : forall b cf t l ex, ~ isX b (a_expd cf t ex l).
Proof.
  intros b cf t l. induction l as [|c l IH]; intros ex H; [exact H|]. cbn [a_expd] in H.
  apply isX_guard in H. destruct H as [H _]. destruct (is_digit cf (hd0 l)); [eapply IH; exact H|exact H].
Qed.

Lemma nox_exponent : forall b cf t f l, ~ isX b (a_exponent cf t f l).
Proof.
  intros b cf t f l H. unfold a_exponent in H. cbv zeta in H. apply isX_guard in H. destruct H as [H _].
  destruct (negb _); [exact H|]. apply isX_guard in H. destruct H as [H _].
  apply isX_bind in H. destruct H as [H|(a & _ & H)]; [eapply nox_expd; exact H|exact H].
Qed.

Lemma nox_frac : forall b cf t l fr f, ~ isX b (a_frac cf t fr f l).
Proof.
  intros b cf t l. induction l as [|c l IH]; intros fr f H; [exact H|]. cbn [a_frac] in H.
  apply isX_guard in H. destruct H as [H _].
  destruct (_ || _); [eapply nox_exponent; exact H|]. destruct (is_digit _ _); [eapply IH; exact H|exact H].
Qed.

Lemma nox_float_num : forall b cf t z l, ~ isX b (a_float_num cf t z l).
Proof.
  intros b cf t z l H. unfold a_float_num in H. apply isX_bind in H. destruct H as [H|(a & _ & H)]; [|exact H].
  unfold a_float in H. destruct (_ || _); [eapply nox_exponent; exact H|]. apply isX_guard in H. destruct H as [H _].
  destruct (negb _); [exact H|eapply nox_frac; exact H].
Qed.

Lemma nox_u : forall b t l, ~ isX b (a_u t l).
Proof.
  assert (Hx : forall b t fs code l, ~ isX b (a_hex t fs code l)).
  { intros b t fs. induction fs as [|f fs IH]; intros code l H; [exact H|]. cbn [a_hex] in H.
    apply isX_guard in H. destruct H as [H _]. destruct (hex_val _); [eapply IH; exact H|exact H]. }
  intros b t l H. unfold a_u in H. apply isX_bind in H. destruct H as [H|([cp r] & _ & H)]; [eapply Hx; exact H|].
  destruct (is_lead_surrogate cp); [|exact H]. cbv zeta in H. apply isX_guard in H. destruct H as [H _].
  destruct (negb _); [exact H|]. apply isX_guard in H. destruct H as [H _].
  destruct (negb _); [exact H|]. apply isX_bind in H. destruct H as [H|([tr r2] & _ & H)]; [eapply Hx; exact H|].
  destruct (negb _); exact H.
Qed.

Lemma nox_string : forall b cf t n o l, ~ isX b (snd (a_string cf t n o l)).
Proof.
  intros b cf t n. induction n as [|n IH]; intros o l H; [exact H|]. cbn [a_string] in H.
  destruct (tl l) as [|c l2]; [destruct t; exact H|].
  destruct (c =? 34).
  { cbn [snd] in H. apply isX_guard in H. destruct H as [H _]. exact H. }
  destruct (c <=? 31); [exact H|]. destruct (c =? 92).
  - destruct (at_bad t l2); [exact H|]. destruct (simple_escape _); [eapply IH; exact H|].
    destruct (_ =? _); [|exact H]. destruct (a_u t l2) as [[cp l3]| | | |] eqn:E.
    + destruct (os_fail _); [exact H|eapply IH; exact H].
    + exact H.
    + pose proof (nox_u true t l2) as X. rewrite E in X. contradiction X. reflexivity.
    + pose proof (nox_u false t l2) as X. rewrite E in X. contradiction X. reflexivity.
    + exact H.
  - destruct (os_fail _); [exact H|eapply IH; exact H].
Qed.

Lemma nox_get_string : forall b cf t n l, ~ isX b (snd (a_get_string cf t n l)).
Proof.
  intros b cf t n l H. unfold a_get_string in H. pose proof (nox_string b cf t n (mkOs [] false) l) as X.
  destruct (a_string cf t n (mkOs [] false) l). exact (X H).
Qed.

(** ** Numbers *)

Lemma intd_x : forall b cf t l x z, (0 <= z <= max_int)%Z ->
  (isX b (a_intd cf t z (x :: l)) <->
   b = false /\ exists ds l1, l = ds ++ l1 /\ Forall (digit (src_ck cf)) ds /\ (max_int < dec z ds)%Z).
Proof.
  intros b cf t l. induction l as [|c l IH]; intros x z Hz;
    (change (a_intd cf t z (x :: ?l)) with
       (guard t l (if (hd0 l =? 46) || (hd0 l =? 101) || (hd0 l =? 69) then a_float_num cf t z l
         else if is_digit cf (hd0 l) then
           let* z := chk64 (z * 10)%Z in
           let* z := chk64 (z + Z.of_N (u32_sub (hd0 l) 48))%Z in
           a_intd cf t z l
         else Ret (NI z, l)))); rewrite isX_guard.
  - cbn [hd0 hd]. change ((0 =? 46) || (0 =? 101) || (0 =? 69)) with false. cbv iota. rewrite is_digit0.
    split; [intros [[] _]|]. intros (_ & ds & l1 & E & F & M). symmetry in E. apply app_eq_nil in E.
    destruct E as [-> ->]. cbn [dec] in M. lia.
  - destruct ((hd0 (c :: l) =? 46) || (hd0 (c :: l) =? 101) || (hd0 (c :: l) =? 69)) eqn:Ee.
    { split; [intros [H _]; exfalso; eapply nox_float_num; exact H|].
      intros (_ & ds & l1 & E & F & M). exfalso. destruct ds as [|d ds]; [cbn [dec] in M; lia|].
      inversion E; subst. inversion F as [|? ? D]; subst. cbn [hd0 hd] in Ee.
      destruct D as [D1 D2]. rewrite low_small in * by lia. lia. }
    cbn [hd0 hd]. destruct (is_digit cf c) eqn:D.
    + apply is_digit_iff in D. rewrite !dval_eq.
      split.
      * intros [H _]. unfold chk64 at 1 in H. destruct (in_int64 (z * 10)) eqn:I1; cbn [bind] in H.
        -- unfold chk64 in H. destruct (in_int64 (z * 10 + Z.of_N (dval c))) eqn:I2; cbn [bind] in H.
           ++ apply IH in H; [|unfold in_int64, int64_min, int64_max, max_int in *; lia].
              destruct H as (-> & ds & l1 & -> & F & M). split; [reflexivity|]. exists (c :: ds), l1. auto.
           ++ cbn in H. split; [assumption|]. exists [c], l. split; [reflexivity|]. split; [constructor; [assumption|constructor]|].
              cbn [dec]. unfold in_int64, int64_min, int64_max, max_int in *. lia.
        -- cbn in H. split; [assumption|]. exists [c], l. split; [reflexivity|]. split; [constructor; [assumption|constructor]|].
           cbn [dec]. unfold in_int64, int64_min, int64_max, max_int in *. lia.
      * intros (-> & ds & l1 & E & F & M). split; [|apply ok_cons].
        destruct ds as [|d ds]; [cbn [dec] in M; lia|]. inversion E; subst. inversion F; subst. cbn [dec] in M.
        unfold chk64 at 1. destruct (in_int64 (z * 10)) eqn:I1; cbn [bind]; [|reflexivity].
        unfold chk64. destruct (in_int64 (z * 10 + Z.of_N (dval d))) eqn:I2; cbn [bind]; [|reflexivity].
        apply IH; [unfold in_int64, int64_min, int64_max, max_int in *; lia|]. split; [reflexivity|].
        exists ds, l1. auto.
    + apply is_digit_false in D. split; [intros [[] _]|].
      intros (_ & ds & l1 & E & F & M). exfalso. destruct ds as [|d ds]; [cbn [dec] in M; lia|].
      inversion E; subst. inversion F; subst. contradiction.
Qed.

Lemma unsigned_x : forall b cf t l, ok t l ->
  (isX b (a_unsigned cf t l) <->
   hd0 l <> 48 /\
   if b then ndebug cf = false /\ ~ digit (src_ck cf) (hd0 l)
   else (ndebug cf = true \/ digit (src_ck cf) (hd0 l)) /\
     exists c ds l1, l = c :: ds ++ l1 /\ Forall (digit (src_ck cf)) ds /\
       (max_int < dec (Z.of_N (dval c)) ds)%Z).
Proof.
  intros b cf t l O. unfold a_unsigned. destruct (N.eqb_spec (hd0 l) 48) as [E|E].
  { cbv zeta. rewrite isX_guard. split; [|intros [X _]; contradiction].
    intros [H _]. exfalso. destruct (hd0 (tl l) =? 46); [eapply nox_float_num; exact H|].
    destruct (_ || _); exact H. }
  unfold a_integer.
  destruct (negb (ndebug cf) && negb (is_digit cf (hd0 l))) eqn:G.
  - apply andb_true_iff in G. destruct G as [G1 G2]. apply negb_true_iff in G1, G2. apply is_digit_false in G2.
    rewrite G1. cbn [isX]. destruct b.
    + split; [intros _; auto|reflexivity].
    + split; [discriminate|]. intros (_ & [X|X] & _); [discriminate|contradiction].
  - assert (G' : ndebug cf = true \/ digit (src_ck cf) (hd0 l)).
    { rewrite <- is_digit_iff. destruct (ndebug cf), (is_digit cf (hd0 l)); auto; discriminate. }
    destruct l as [|x l].
    { cbn [a_intd]. split; [intros []|]. intros [_ H]. destruct b.
      - destruct H as [H1 H2]. destruct G'; [congruence|contradiction].
      - destruct H as (_ & c & ds & l1 & X & _). discriminate. }
    cbn [hd0 hd] in *. rewrite intd_x by (rewrite dval_eq; apply dval_max). rewrite dval_eq. split.
    + intros (-> & ds & l1 & -> & F & M). split; [assumption|]. split; [assumption|]. exists x, ds, l1. auto.
    + intros [_ H]. destruct b.
      * destruct H as [H1 H2]. destruct G'; [congruence|contradiction].
      * destruct H as (_ & c & ds & l1 & X & F & M). inversion X; subst. eauto 6.
Qed.

Definition badtok (b : bool) (cf : pcfg) (t : term) (r : list N) : Prop :=
  if b then ndebug cf = false /\ bad_sign (src_ck cf) r /\ ok t (tl r)
  else overflow (src_ck cf) (ndebug cf) r.

Lemma scan_tok_x : forall b cf t r, isX b (a_scan_tok cf t r) <-> badtok b cf t r.
Proof.
  intros b cf t r. unfold a_scan_tok. destruct r as [|c l].
  { split; [intros []|]. destruct b; cbn [badtok].
    - intros (_ & H & _). inversion H.
    - intro H. inversion H. }
  assert (Nb : (forall b, ~ isX b (if b then Abort else UB : outcome unit)) -> False).
  { intro H. apply (H true). reflexivity. }
  assert (No : num_start c = false -> ~ badtok b cf t (c :: l)).
  { intros Hs H. destruct b; cbn [badtok] in H.
    - destruct H as (_ & H & _). inversion H as [s l0 x l' S]; subst. unfold num_start in Hs. lia.
    - inversion H as [x ds l0 L1 L2|s x ds l0 S]; subst; unfold num_start in Hs; lia. }
  unfold punct.
  destruct (N.eqb_spec c 91) as [->|N91]; [rewrite isX_guard; split; [intros [[] _]|intro H; exfalso; exact (No eq_refl H)]|].
  destruct (N.eqb_spec c 93) as [->|N93]; [rewrite isX_guard; split; [intros [[] _]|intro H; exfalso; exact (No eq_refl H)]|].
  destruct (N.eqb_spec c 123) as [->|N123]; [rewrite isX_guard; split; [intros [[] _]|intro H; exfalso; exact (No eq_refl H)]|].
  destruct (N.eqb_spec c 125) as [->|N125]; [rewrite isX_guard; split; [intros [[] _]|intro H; exfalso; exact (No eq_refl H)]|].
  destruct (N.eqb_spec c 58) as [->|N58]; [rewrite isX_guard; split; [intros [[] _]|intro H; exfalso; exact (No eq_refl H)]|].
  destruct (N.eqb_spec c 44) as [->|N44]; [rewrite isX_guard; split; [intros [[] _]|intro H; exfalso; exact (No eq_refl H)]|].
  destruct (N.eqb_spec c 116) as [->|N116].
  { rewrite isX_bind. split; [|intro H; exfalso; exact (No eq_refl H)].
    intros [H|(a & _ & [])]. exfalso. eapply nox_literal; exact H. }
  destruct (N.eqb_spec c 102) as [->|N102].
  { rewrite isX_bind. split; [|intro H; exfalso; exact (No eq_refl H)].
    intros [H|(a & _ & [])]. exfalso. eapply nox_literal; exact H. }
  destruct (N.eqb_spec c 110) as [->|N110].
  { rewrite isX_bind. split; [|intro H; exfalso; exact (No eq_refl H)].
    intros [H|(a & _ & [])]. exfalso. eapply nox_literal; exact H. }
  destruct (N.eqb_spec c 34) as [->|N34]; [split; [intros []|intro H; exfalso; exact (No eq_refl H)]|].
  change ((c =? 45) || (c =? 43) || ((48 <=? c) && (c <=? 57))) with (num_start c).
  destruct (num_start c) eqn:Ns.
  2: { split; [destruct (c =? 0); intros []|]. intro H. exfalso. exact (No eq_refl H). }
  unfold a_number. cbn [hd0 hd tl]. cbv zeta. rewrite isX_guard, isX_bind.
  assert (R : forall l1, (isX b (a_unsigned cf t l1) \/
     (exists a, a_unsigned cf t l1 = Ret a /\ isX b (Ret (signed (c =? 45) (fst a), snd a)))) <-> isX b (a_unsigned cf t l1)).
  { intro l1. split; [intros [H|(a & _ & [])]; exact H|auto]. }
  rewrite R. clear R Nb No.
  destruct ((c =? 45) || (c =? 43)) eqn:Sg.
  - assert (S : c = 43 \/ c = 45) by lia. split.
    + intros [H O]. apply unsigned_x in H; [|assumption]. destruct H as [N48 H]. destruct b; cbn [badtok].
      * destruct H as [H1 H2]. split; [assumption|]. split; [|assumption]. econstructor; [assumption| |exact H2].
        apply next_hd. split; reflexivity.
      * destruct H as (H1 & x & ds & l1 & -> & F & M). cbn [hd0 hd] in *. apply ov_sign; assumption.
    + destruct b; cbn [badtok].
      * intros (H1 & H2 & O). cbn [tl] in O. split; [|assumption]. apply unsigned_x; [assumption|].
        inversion H2 as [s l0 x l' S' Nx Nd]; subst. apply next_hd in Nx. destruct Nx as [-> _].
        split; [|auto]. intros E. apply Nd. rewrite E. split; rewrite low_small; lia.
      * intro H. inversion H as [x ds l0 L1 L2|s x ds l0 S' N48 D F M]; subst.
        { exfalso. lia. }
        split; [|apply ok_cons]. apply unsigned_x; [apply ok_cons|]. cbn [hd0 hd]. split; [assumption|].
        split; [assumption|]. exists x, ds, l0. auto.
  - assert (Dg : 48 <= c <= 57) by (unfold num_start in Ns; lia). split.
    + intros [H O]. apply unsigned_x in H; [|assumption]. cbn [hd0 hd] in H. destruct H as [N48 H]. destruct b; cbn [badtok].
      * destruct H as [_ H]. exfalso. apply H. split; rewrite low_small; lia.
      * destruct H as (H1 & x & ds & l1 & E & F & M). inversion E; subst. apply ov_plain; auto; lia.
    + destruct b; cbn [badtok].
      * intros (_ & H & _). inversion H; subst. lia.
      * intro H. inversion H as [x ds l0 L1 L2 F M|s x ds l0 S' N48 D F M]; subst; [|lia].
        split; [|apply ok_cons]. apply unsigned_x; [apply ok_cons|]. cbn [hd0 hd]. split; [lia|].
        split; [right; split; rewrite low_small; lia|]. exists c, ds, l0. auto.
Qed.

Lemma scan_x : forall b cf t l, ok t l ->
  (isX b (a_scan cf t l) <-> exists r, blank l r /\ ok t r /\ badtok b cf t r).
Proof.
  intros b cf t l O. unfold a_scan. rewrite isX_bind. split.
  - intros [H|(r & S & H)]; [exfalso; eapply nox_skip; [apply le_n|exact H]|].
    apply skip_iff in S; [|assumption]. destruct S as [B Or]. exists r. rewrite <- scan_tok_x. auto.
  - intros (r & B & Or & H). right. exists r. rewrite scan_tok_x. split; [|assumption]. apply skip_iff; auto.
Qed.

(** a position where a token is bad is never at the end of the text *)
Lemma badtok_ok : forall b cf t r, badtok b cf t r -> forall t', ok t' r.
Proof.
  intros b cf t r H t'. destruct b; cbn [badtok] in H.
  - destruct H as (_ & H & _). inversion H; subst. apply ok_cons.
  - inversion H; subst; apply ok_cons.
Qed.
