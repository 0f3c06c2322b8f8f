(** When the list machine's scanners throw, and what: blanks, literals and
    numbers, against SpecMessage.v. *)
From Coq Require Import Lia ZifyBool ZifyNat ZifyN Ascii Floats.SpecFloat.
From Verif Require Import Base Stream Encoding Value Token FloatFmt Message Parser EncodingProofs Feeds ListMachine Simulation
  SimParse SpecUnicode SpecGrammar GrammarLex GrammarTok ObjFacts GrammarProofs SpecPos SpecGap PosSound Mono Context
  SpecMessage.

(** ** Numbers in messages *)

Lemma hexc_eq : forall d, d < 16 -> ascii_of_N (hex_digit d mod 256) = hexc d.
Proof.
  intros d H. unfold hexc, hex_digit. destruct (d <? 10) eqn:E; rewrite N.mod_small by lia; reflexivity.
Qed.

Lemma bytes_app : forall a b, bytes (a ++ b) = (bytes a ++ bytes b)%string.
Proof. induction a as [|x a IH]; intro b; cbn [app bytes]; [reflexivity|]. rewrite IH. reflexivity. Qed.

Lemma hexs_app : forall k n s, hexs k n s = (hexs k n "" ++ s)%string.
Proof.
  assert (A : forall a b c : string, ((a ++ b) ++ c = a ++ (b ++ c))%string).
  { induction a as [|x a IH]; intros; cbn; [reflexivity|]. rewrite IH. reflexivity. }
  induction k as [|k IH]; intros n s; cbn [hexs]; [reflexivity|].
  rewrite IH, (IH _ (String _ "")), A. reflexivity.
Qed.

(** leading zeros *)
Lemma hexs_zero : forall j s, hexs j 0 s = (bytes (repeat 48 j) ++ s)%string.
Proof.
  induction j as [|j IH]; intro s; cbn [hexs repeat bytes]; [reflexivity|].
  change (0 / 16) with 0. change (hexc (0 mod 16)) with "0"%char. rewrite IH.
  change (ascii_of_N (48 mod 256)) with "0"%char. clear IH.
  induction j as [|j IH]; cbn [repeat bytes]; [reflexivity|]. change (ascii_of_N (48 mod 256)) with "0"%char.
  cbn [String.append]. rewrite IH. reflexivity.
Qed.

Fixpoint pow16 (k : nat) : N := match k with O => 1 | S k => 16 * pow16 k end.

Lemma pow16_pos : forall k, 1 <= pow16 k.
Proof. induction k; cbn [pow16]; lia. Qed.

(** k digits are enough from the first k with n < 16^k *)
Lemma hex_aux : forall f n acc, n < pow16 (S f) -> exists k,
  length (hex_digits_aux f n acc) = (k + length acc)%nat /\ (1 <= k)%nat /\ n < pow16 k /\ (pow16 (k - 1) <= n \/ k = 1%nat) /\
  bytes (hex_digits_aux f n acc) = hexs k n (bytes acc).
Proof.
  induction f as [|f IH]; intros n acc H; cbn [hex_digits_aux].
  - exists 1%nat. cbn [length hexs bytes]. cbn [pow16] in H. repeat split; auto; try lia.
    rewrite hexc_eq by lia. rewrite N.mod_small by lia. reflexivity.
  - destruct (n <? 16) eqn:E.
    + exists 1%nat. cbn [length hexs bytes pow16]. repeat split; auto; try lia.
      rewrite hexc_eq by lia. rewrite N.mod_small by lia. reflexivity.
    + assert (E1 : n = 16 * (n / 16) + n mod 16) by (apply N.div_mod; lia).
      pose proof (N.mod_lt n 16 ltac:(lia)) as M.
      destruct (IH (n / 16) (hex_digit (n mod 16) :: acc)) as (k & L & K1 & K2 & K3 & B).
      { apply N.div_lt_upper_bound; [lia|]. exact H. }
      exists (S k). cbn [length] in L. split; [lia|]. split; [lia|]. split.
      { cbn [pow16]. lia. }
      split.
      { left. replace (S k - 1)%nat with (S (k - 1)) by lia. cbn [pow16]. destruct K3 as [K3| ->]; [lia|]. cbn. lia. }
      rewrite B. cbn [hexs bytes]. rewrite hexc_eq by assumption. reflexivity.
Qed.

Lemma size_pow16 : forall n, n < pow16 (S (N.to_nat (N.size n))).
Proof.
  intro n. assert (H : forall k, N.of_nat k < N.of_nat k + 1 /\ 2 ^ N.of_nat k <= pow16 k).
  { induction k; [cbn; lia|]. split; [lia|]. rewrite Nat2N.inj_succ, N.pow_succ_r by lia. cbn [pow16]. lia. }
  destruct (H (N.to_nat (N.size n))) as [_ H1]. rewrite N2Nat.id in H1.
  assert (n < 2 ^ N.size n) by apply N.size_gt. cbn [pow16]. lia.
Qed.

Lemma pow16_pow : forall k, pow16 k = 2 ^ (4 * N.of_nat k).
Proof.
  induction k; [reflexivity|]. cbn [pow16]. rewrite IHk. rewrite Nat2N.inj_succ.
  replace (4 * N.succ (N.of_nat k)) with (4 + 4 * N.of_nat k) by lia. rewrite N.pow_add_r. reflexivity.
Qed.

Lemma places_eq : forall n k, (1 <= k)%nat -> n < pow16 k -> (pow16 (k - 1) <= n \/ k = 1%nat) ->
  S (N.to_nat (N.log2 n / 4)) = k.
Proof.
  intros n k K1 K2 K3. rewrite pow16_pow in K2. destruct K3 as [K3| ->].
  - rewrite pow16_pow in K3. assert (0 < n).
    { pose proof (N.pow_nonzero 2 (4 * N.of_nat (k - 1)) ltac:(lia)). lia. }
    assert (L1 : N.log2 n < 4 * N.of_nat k) by (apply N.log2_lt_pow2; assumption).
    assert (L2 : 4 * N.of_nat (k - 1) <= N.log2 n) by (apply N.log2_le_pow2; assumption).
    pose proof (N.div_mod (N.log2 n) 4 ltac:(lia)). pose proof (N.mod_lt (N.log2 n) 4 ltac:(lia)). lia.
  - assert (N.log2 n < 4).
    { destruct (N.eq_dec n 0) as [->|]; [reflexivity|]. apply N.log2_lt_pow2; [lia|]. exact K2. }
    rewrite N.div_small by assumption. reflexivity.
Qed.

Lemma code_text : forall n, bytes (pad_left 4 48 (hex_digits n)) = hexs (places n) n "".
Proof.
  intro n. unfold pad_left, hex_digits.
  destruct (hex_aux (N.to_nat (N.size n)) n [] (size_pow16 n)) as (k & L & K1 & K2 & K3 & B).
  cbn [length] in L. rewrite Nat.add_0_r in L. rewrite L, bytes_app, B. cbn [bytes].
  unfold places. rewrite (places_eq n k K1 K2 K3).
  assert (G : forall j m s, m < pow16 k -> hexs (k + j) m s = (bytes (repeat 48%N j) ++ hexs k m s)%string).
  { clear. induction k as [|k IH]; intros j m s H.
    - cbn [pow16] in H. assert (m = 0) as -> by lia. cbn [Nat.add hexs]. apply hexs_zero.
    - cbn [Nat.add hexs]. apply IH. cbn [pow16] in H. apply N.div_lt_upper_bound; lia. }
  rewrite <- G by assumption. f_equal. lia.
Qed.

Lemma with_code_eq : forall m c, with_code m c = with_number m c.
Proof.
  intros m c. unfold with_code, with_number, json_hex. cbn [bytes]. rewrite code_text.
  change (ascii_of_N (c_bslash mod 256)) with "\"%char. change (ascii_of_N (c_u mod 256)) with "u"%char.
  reflexivity.
Qed.

(** ** Throwing *)

Definition T {A} (o : outcome A) (m : string) : Prop := o = Throw (EDeser m).

Lemma T_fail : forall A x m, T (@fail A x) m <-> m = x.
Proof. intros. unfold T, fail. split; [intro H; injection H; auto|intros ->; reflexivity]. Qed.
Lemma T_code : forall A x c m, T (@fail_code A x c) m <-> m = with_number x c.
Proof. intros. unfold fail_code. rewrite with_code_eq. apply T_fail. Qed.
Lemma T_ret : forall A (a : A) m, T (Ret a) m <-> False.
Proof. intros. unfold T. split; [discriminate|tauto]. Qed.
Lemma T_guard : forall A t l (k : outcome A) m,
  T (guard t l k) m <-> (l = [] /\ undecodable t m) \/ (ok t l /\ T k m).
Proof.
  intros A t l k m. destruct l as [|c l]; [destruct t as [|b]|].
  - cbn [guard]. split; [intro H; right; split; [reflexivity|exact H]|].
    intros [[_ (c & H & _)]|[_ H]]; [discriminate|exact H].
  - cbn [guard]. rewrite T_code. split.
    + intros ->. left. split; [reflexivity|]. exists b. auto.
    + intros [[_ (c & H & ->)]|[H _]]; [injection H as ->; reflexivity|discriminate H].
  - cbn [guard]. split; [intro H; right; split; [reflexivity|exact H]|].
    intros [[H _]|[_ H]]; [discriminate|exact H].
Qed.
Lemma T_bind : forall A B (o : outcome A) (k : A -> outcome B) m,
  T (bind o k) m <-> T o m \/ exists a, o = Ret a /\ T (k a) m.
Proof.
  intros A B o k m. destruct o; cbn [bind]; unfold T; split; intro H; try discriminate; eauto.
  - destruct H as [H|(a0 & H & H')]; [discriminate|]. injection H as ->. exact H'.
  - left. injection H as ->. reflexivity.
  - destruct H as [H|(a0 & H & H')]; [|discriminate]. injection H as ->. reflexivity.
  - destruct H as [H|(a0 & H & H')]; discriminate.
  - destruct H as [H|(a0 & H & H')]; discriminate.
  - destruct H as [H|(a0 & H & H')]; discriminate.
Qed.
(** only the error can stop at a value that is always returned *)
Lemma T_bind_ret : forall A B (o : outcome A) (f : A -> B) m, T (let* r := o in Ret (f r)) m <-> T o m.
Proof.
  intros. rewrite T_bind. split; [|auto]. intros [H|(a & _ & H)]; [exact H|]. apply T_ret in H. contradiction.
Qed.

Lemma ok_sees : forall t l, ok t l -> sees t l (hd0 l).
Proof. intros [|b] [|c l] H; cbn; auto. discriminate H. Qed.
Lemma sees_ok : forall t l c, sees t l c -> ok t l /\ c = hd0 l.
Proof. intros t [|x l] c H; cbn in H; [destruct H as [-> ->]; split; reflexivity|split; [reflexivity|exact H]]. Qed.
Lemma sees_iff : forall t l c, sees t l c <-> ok t l /\ c = hd0 l.
Proof. intros. split; [apply sees_ok|]. intros [H ->]. apply ok_sees. assumption. Qed.
Lemma more_ok : forall t l, more t l <-> ok t l.
Proof.
  intros t l. unfold more, ok. destruct l as [|c l], t as [|b]; cbn; split; intro H; auto;
    try discriminate; try (left; discriminate); destruct H as [H|H]; congruence.
Qed.
Lemma undec_ok : forall t l m, undecodable t m -> ok t l -> l <> [].
Proof. intros t l m (c & -> & _) O ->. discriminate O. Qed.

(** ** Blanks *)

Lemma unclosed_or : forall n b, (length b <= n)%nat ->
  unclosed b \/ exists b' l, b = b' ++ 42 :: 47 :: l /\ comment_body b'.
Proof.
  induction n as [n IH] using lt_wf_ind. intros b L. destruct b as [|c b]; [left; left; constructor|].
  destruct (N.eq_dec c 42) as [->|Hc].
  - destruct b as [|d b].
    + left. right. exists []. split; [reflexivity|constructor].
    + destruct (N.eq_dec d 47) as [->|Hd]; [right; exists [], b; split; [reflexivity|constructor]|].
      cbn [length] in L. destruct (IH (length b) ltac:(lia) b (le_n _)) as [[C|(b' & -> & C)]|(b' & l & -> & C)].
      * left. left. apply cb_star; assumption.
      * left. right. exists (42 :: d :: b'). split; [reflexivity|apply cb_star; assumption].
      * right. exists (42 :: d :: b'), l. split; [reflexivity|apply cb_star; assumption].
  - cbn [length] in L. destruct (IH (length b) ltac:(lia) b (le_n _)) as [[C|(b' & -> & C)]|(b' & l & -> & C)].
    + left. left. apply cb_char; assumption.
    + left. right. exists (c :: b'). split; [reflexivity|apply cb_char; assumption].
    + right. exists (c :: b'), l. split; [reflexivity|apply cb_char; assumption].
Qed.

Lemma line_or : forall b, Forall (fun c => ~ newline c) b \/
  exists b' n l, b = b' ++ n :: l /\ Forall (fun c => ~ newline c) b' /\ newline n.
Proof.
  induction b as [|c b IH]; [left; constructor|].
  destruct (is_nl c) eqn:E.
  - right. exists [], c, b. split; [reflexivity|]. split; [constructor|apply is_nl_iff; assumption].
  - assert (Hc : ~ newline c) by (intro H; apply is_nl_iff in H; congruence).
    destruct IH as [F|(b' & n & l & -> & F & Hn)]; [left; constructor; assumption|].
    right. exists (c :: b'), n, l. split; [reflexivity|]. split; [constructor; assumption|assumption].
Qed.

(** what stands after the closed blanks *)
Inductive front : list N -> Prop :=
| fr_end : front []
| fr_char c l : ~ space c -> c <> 47 -> front (c :: l)
| fr_slash_end : front [47]
| fr_slash c l : c <> 47 -> c <> 42 -> front (47 :: c :: l)
| fr_line b : Forall (fun c => ~ newline c) b -> front (47 :: 47 :: b)
| fr_block b : unclosed b -> front (47 :: 42 :: b).

Lemma split_blanks : forall n l, (length l <= n)%nat -> exists g r, l = g ++ r /\ gap g /\ front r.
Proof.
  induction n as [n IH] using lt_wf_ind. intros l L.
  assert (IH' : forall l', (length l' < length l)%nat -> exists g r, l' = g ++ r /\ gap g /\ front r).
  { intros l' L'. exact (IH (length l') ltac:(lia) l' (le_n _)). }
  clear IH L. destruct l as [|c l]; [exists [], []; repeat split; constructor|].
  destruct (is_space c) eqn:Es.
  { apply is_space_iff in Es. destruct (IH' l ltac:(cbn; lia)) as (g & r & -> & G & F).
    exists (c :: g), r. repeat split; [constructor; assumption|assumption]. }
  assert (Ns : ~ space c) by (intro H; apply is_space_iff in H; congruence).
  destruct (N.eq_dec c 47) as [->|Hc]; [|exists [], (c :: l); repeat split; constructor; assumption].
  destruct l as [|d l]; [exists [], [47]; repeat split; [constructor|apply fr_slash_end]|].
  destruct (N.eq_dec d 47) as [->|Hd].
  { destruct (line_or l) as [F|(b & n' & l' & -> & F & Hn)]; [exists [], (47 :: 47 :: l); repeat split; [constructor|apply fr_line; assumption]|].
    destruct (IH' l' ltac:(cbn; rewrite app_length; cbn; lia)) as (g & r & -> & G & Fr).
    exists (47 :: 47 :: b ++ n' :: g), r. split; [cbn [app]; rewrite <- app_assoc; reflexivity|].
    split; [apply gp_line; assumption|assumption]. }
  destruct (N.eq_dec d 42) as [->|Hd2]; [|exists [], (47 :: d :: l); repeat split; [constructor|apply fr_slash; assumption]].
  destruct (unclosed_or (length l) l (le_n _)) as [U|(b & l' & -> & C)].
  { exists [], (47 :: 42 :: l). repeat split; [constructor|apply fr_block; assumption]. }
  destruct (IH' l' ltac:(cbn; rewrite app_length; cbn; lia)) as (g & r & -> & G & Fr).
  exists (47 :: 42 :: b ++ 42 :: 47 :: g), r. split; [cbn [app]; rewrite <- app_assoc; reflexivity|].
  split; [apply gp_block; assumption|assumption].
Qed.

Lemma skip_gap_end : forall c g, gap g -> g <> [] -> a_skip MWs (TBad c) g = fail_code "decoding failed with codepoint" c.
Proof.
  intros c g H. induction H as [|x g S G IH|b n g F Hn G IH|b g C G IH]; intro N; [congruence|..].
  - rewrite skip_ws_eq. apply is_space_iff in S. rewrite S. destruct g; [reflexivity|]. apply IH. discriminate.
  - rewrite skip_ws_eq; cbn [guard]. change (is_space 47) with false. change (47 =? 47) with true. cbv iota.
    apply line_complete; [assumption|assumption|]. rewrite skip_ws_eq.
    replace (is_space n) with true by (symmetry; apply is_space_iff, newline_space; assumption).
    destruct g; [reflexivity|]. apply IH. discriminate.
  - rewrite skip_ws_eq; cbn [guard]. change (is_space 47) with false. change (47 =? 47) with true.
    change (42 =? 47) with false. change (42 =? 42) with true. cbv iota. clear N.
    assert (Gd : forall x, a_skip MBlock (TBad c) (x :: b ++ 42 :: 47 :: g) = guard (TBad c) g (a_skip MWs (TBad c) g)).
    { induction C as [|y b Hy C IHb|y b Hy C IHb]; intro x; cbn [app]; rewrite skip_block_eq; cbn [guard].
      - change (42 =? 42) with true. change (47 =? 47) with true. reflexivity.
      - replace (y =? 42) with false by lia. apply IHb.
      - change (42 =? 42) with true. cbv iota. replace (y =? 47) with false by lia. apply IHb. }
    rewrite Gd. destruct g; [reflexivity|]. apply IH. discriminate.
Qed.

Lemma skip_line_bad : forall c b x, Forall (fun c => ~ newline c) b ->
  a_skip MLine (TBad c) (x :: b) = fail_code "decoding failed with codepoint" c.
Proof.
  intros c b. induction b as [|d b IH]; intros x F; rewrite skip_line_eq; cbn [guard]; [reflexivity|].
  inversion F; subst. destruct (is_nl d) eqn:E; [apply is_nl_iff in E; contradiction|]. apply IH; auto.
Qed.

Definition block_out (t : term) : outcome (list N) :=
  match t with TEof => fail "unexpected eof while reading comment" | TBad c => fail_code "decoding failed with codepoint" c end.

Lemma skip_block_open : forall t b, unclosed b -> forall x, a_skip MBlock t (x :: b) = block_out t.
Proof.
  intros t b [C|(b' & -> & C)].
  - induction C as [|y b Hy C IHb|y b Hy C IHb]; intro x; rewrite skip_block_eq; cbn [guard].
    + destruct t; reflexivity.
    + replace (y =? 42) with false by lia. apply IHb.
    + change (42 =? 42) with true. cbv iota. replace (y =? 47) with false by lia. apply IHb.
  - induction C as [|y b Hy C IHb|y b Hy C IHb]; intro x; cbn [app]; rewrite skip_block_eq; cbn [guard].
    + change (42 =? 42) with true. destruct t; reflexivity.
    + replace (y =? 42) with false by lia. apply IHb.
    + change (42 =? 42) with true. cbv iota. replace (y =? 47) with false by lia. apply IHb.
Qed.

(** what blanks can get *)
Inductive bad_front (t : term) : list N -> string -> Prop :=
| bf_slash l c : sees t l c -> c <> 47 -> c <> 42 -> bad_front t (47 :: l) "unexpected character '/'"
| bf_block b : t = TEof -> unclosed b -> bad_front t (47 :: 42 :: b) "unexpected eof while reading comment".

Lemma skip_bad_front : forall t r m, bad_front t r m -> T (a_skip MWs t r) m.
Proof.
  intros t r m H. destruct H as [l c S H1 H2|b -> U].
  - apply sees_iff in S. destruct S as [O ->]. rewrite skip_ws_eq. change (is_space 47) with false. change (47 =? 47) with true.
    cbv iota. rewrite ok_guard by assumption. destruct l as [|c l]; [reflexivity|]. cbn [hd0 hd] in *.
    replace (c =? 47) with false by lia. replace (c =? 42) with false by lia. reflexivity.
  - rewrite skip_ws_eq; cbn [guard]. change (is_space 47) with false. change (47 =? 47) with true.
    change (42 =? 47) with false. change (42 =? 42) with true. cbv iota. rewrite skip_block_open by assumption. reflexivity.
Qed.

Lemma skip_lost : forall t l m, undecodable t m -> l <> [] -> blank_tail l -> T (a_skip MWs t l) m.
Proof.
  intros t l m (c & -> & ->) N H.
  destruct H as [g G|g G|g b G F|g b G U].
  - rewrite skip_gap_end by assumption. apply T_code. reflexivity.
  - rewrite skip_gap by (assumption || discriminate). apply T_code. reflexivity.
  - rewrite skip_gap by (assumption || discriminate). rewrite skip_ws_eq; cbn [guard].
    change (is_space 47) with false. change (47 =? 47) with true. cbv iota. rewrite skip_line_bad by assumption. apply T_code. reflexivity.
  - rewrite skip_gap by (assumption || discriminate). rewrite skip_ws_eq; cbn [guard]. change (is_space 47) with false. change (47 =? 47) with true.
    change (42 =? 47) with false. change (42 =? 42) with true. cbv iota. rewrite skip_block_open by assumption. apply T_code. reflexivity.
Qed.

Lemma skip_T : forall t l m, ok t l ->
  (T (a_skip MWs t l) m <->
   (undecodable t m /\ l <> [] /\ blank_tail l) \/ exists g r, l = g ++ r /\ gap g /\ bad_front t r m).
Proof.
  intros t l m O. split.
  - intro H. destruct (split_blanks (length l) l (le_n _)) as (g & r & -> & G & F).
    destruct F as [|c l Hs Hc| |c l H1 H2|b F|b U].
    + rewrite app_nil_r in *. destruct t as [|c].
      * rewrite (skip_complete TEof g []) in H; [apply T_ret in H; contradiction| |reflexivity].
        rewrite <- (app_nil_r g). apply gap_blank; [assumption|apply bl_none; exact I].
      * destruct g as [|x g]; [discriminate O|]. left. rewrite skip_gap_end in H by (assumption || discriminate).
        apply T_code in H. split; [exists c; auto|]. split; [discriminate|constructor; assumption].
    + rewrite (skip_complete t _ (c :: l)) in H; [apply T_ret in H; contradiction| |apply ok_cons].
      apply gap_blank; [assumption|apply bl_none; auto].
    + rewrite skip_gap in H by (assumption || discriminate). change (a_skip MWs t [47]) with (guard t [] (@fail (list N) "unexpected character '/'")) in H.
      apply T_guard in H. destruct H as [[_ U]|[O1 H]].
      * left. split; [assumption|]. split; [apply app_cons_ne|constructor; assumption].
      * right. apply T_fail in H. subst m. exists g, [47]. repeat split; auto.
        apply bf_slash with (c := 0); [apply sees_iff; auto|lia|lia].
    + rewrite skip_gap in H by (assumption || discriminate). right. exists g, (47 :: c :: l). repeat split; auto.
      assert (B : bad_front t (47 :: c :: l) "unexpected character '/'") by (apply bf_slash with (c := c); auto; reflexivity).
      pose proof (skip_bad_front _ _ _ B) as H'. unfold T in H, H'. rewrite H in H'. injection H' as ->. exact B.
    + rewrite skip_gap in H by (assumption || discriminate). destruct t as [|c].
      * rewrite (skip_complete TEof _ []) in H; [apply T_ret in H; contradiction|apply bl_line_end; assumption|reflexivity].
      * left. rewrite skip_ws_eq in H; cbn [guard] in H.
        change (is_space 47) with false in H. change (47 =? 47) with true in H. cbv iota in H.
        rewrite skip_line_bad in H by assumption. apply T_code in H. split; [exists c; auto|].
        split; [apply app_cons_ne|constructor; assumption].
    + rewrite skip_gap in H by (assumption || discriminate). rewrite skip_ws_eq in H; cbn [guard] in H.
      change (is_space 47) with false in H. change (47 =? 47) with true in H.
      change (42 =? 47) with false in H. change (42 =? 42) with true in H. cbv iota in H. rewrite skip_block_open in H by assumption.
      destruct t as [|c]; cbn [block_out] in H.
      * apply T_fail in H. subst m. right. exists g, (47 :: 42 :: b). repeat split; auto. apply bf_block; auto.
      * apply T_code in H. left. split; [exists c; auto|]. split; [apply app_cons_ne|constructor; assumption].
  - intros [(U & N & B)|(g & r & -> & G & B)]; [apply skip_lost; assumption|].
    rewrite skip_gap; [apply skip_bad_front; assumption|assumption|]. destruct B; discriminate.
Qed.

(** ** Literals *)

Lemma T_literal : forall cf t whole text l m, ok t l -> Forall (fun c => c <> 0 /\ c < 256) text ->
  (T (a_literal cf t whole text l) m <->
   (exists w x rest l' c, l = w ++ l' /\ text = map (low (src_ck cf)) w ++ x :: rest /\ sees t l' c /\
      low (src_ck cf) c <> x /\ m = literal_msg c whole) \/
   (undecodable t m /\ text <> [] /\ exists w, map (low (src_ck cf)) (l ++ w) = text)).
Proof.
  intros cf t whole text. induction text as [|c text IH]; intros l m O F; cbn [a_literal].
  { rewrite T_ret. split; [contradiction|]. intros [(w & x & rest & l' & c & _ & E & _)|(_ & N & _)].
    - destruct w; discriminate.
    - congruence. }
  inversion F as [|? ? [C0 C1] F']; subst. rewrite narrow_low. destruct (N.eqb_spec c (low (src_ck cf) (hd0 l))) as [E|E].
  - destruct l as [|a l].
    { exfalso. cbn [hd0 hd] in E. rewrite low_small in E by lia. congruence. }
    cbn [hd0 hd tl] in *. subst c. rewrite T_guard. split.
    + intros [[-> U]|[O1 H]].
      * right. split; [assumption|]. split; [discriminate|]. exists text. cbn [app map]. f_equal.
        clear - F'. induction F' as [|y text [Y0 Y1] F' IH]; cbn [map]; [reflexivity|]. rewrite IH, low_small by assumption. reflexivity.
      * apply IH in H; [|assumption|assumption]. destruct H as [(w & x & rest & l' & c & -> & -> & S & D & M)|(U & N & w & E)].
        -- left. exists (a :: w), x, rest, l', c. repeat split; auto.
        -- right. split; [assumption|]. split; [discriminate|]. exists w. cbn [app map]. rewrite E. reflexivity.
    + intros [(w & x & rest & l' & c & El & Et & S & D & M)|(U & N & w & E)].
      * destruct w as [|y w]; cbn [app map] in *.
        { injection Et as <- _. subst l'. apply sees_iff in S. destruct S as [_ ->]. cbn [hd0 hd] in D. congruence. }
        injection El as -> ->. injection Et as ->. right.
        assert (O1 : ok t (w ++ l')) by (apply ok_app; apply sees_iff in S; apply S).
        split; [assumption|]. apply IH; [assumption|assumption|]. left. exists w, x, rest, l', c. repeat split; auto.
      * cbn [app map] in E. injection E as E. destruct l as [|b l]; [left; auto|]. right. split; [reflexivity|].
        apply IH; [reflexivity|assumption|]. right. split; [assumption|]. split; [|eauto]. intros ->. discriminate E.
  - rewrite T_fail. split.
    + intros ->. left. exists [], c, text, l, (hd0 l). repeat split; [apply ok_sees; assumption|congruence].
    + intros [(w & x & rest & l' & c' & El & Et & S & D & M)|(U & N & w & E')].
      * destruct w as [|y w]; cbn [app map] in *.
        { injection Et as -> ->. subst l'. apply sees_iff in S. destruct S as [_ ->]. assumption. }
        subst l. injection Et as -> _. contradiction E. reflexivity.
      * destruct l as [|a l]; [destruct U as (b & -> & _); discriminate O|]. cbn [app map] in E'. injection E' as <- _.
        contradiction E. reflexivity.
Qed.
