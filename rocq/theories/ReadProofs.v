(** Reading through the buffers of Read. *)
From Coq Require Import Lia ZifyBool ZifyNat ZifyN.
From Verif Require Import Base Stream Read SpecStream SpecRead.
Open Scope N_scope.

(** ** Stream has the same buffers *)
Lemma nth_skip : forall (s : list N) i, nth_error s i = match skipn i s with [] => None | u :: _ => Some u end.
Proof. induction s as [|u s IH]; destruct i; try reflexivity. cbn. apply IH. Qed.
Lemma skip_next : forall (s : list N) i, skipn (S i) s = match skipn i s with [] => [] | _ :: r => r end.
Proof. induction s as [|u s IH]; intros i; [destruct i; reflexivity|]. destruct i; [reflexivity|]. cbn [skipn] in *. apply IH. Qed.

Lemma plain_under : forall ck b, underflow ck (plain b) = let '(c, b') := r_underflow ck b in (c, plain b').
Proof.
  intros ck [s i|s i|src p l|r l]; cbn [plain underflow r_underflow].
  1, 2: rewrite nth_skip; cbn [plain]; destruct (skipn i s) eqn:E; reflexivity.
  - destruct (l =? 0)%Z; reflexivity.
  - destruct (l =? 0)%Z; [|reflexivity]. destruct (fgetc ck r); reflexivity.
Qed.
Lemma plain_uflow : forall ck b, uflow ck (plain b) = let '(c, b') := r_uflow ck b in (c, plain b').
Proof.
  intros ck [s i|s i|src p l|r l]; cbn [plain uflow r_uflow r_underflow].
  1, 2: rewrite nth_skip, skip_next; destruct (skipn i s) eqn:E; reflexivity.
  - unfold r_uflow, r_underflow. cbn [underflow]. destruct (l =? 0)%Z; reflexivity.
  - unfold r_uflow, r_underflow. cbn [underflow]. destruct (l =? 0)%Z; [|reflexivity]. destruct (fgetc ck r); reflexivity.
Qed.
Lemma plain_throws : forall b, throws (plain b) = false.
Proof. intros [s i|s i|src p l|r l]; reflexivity. Qed.
Lemma plain_get : forall ck i, exists i' c, rexec ck Get i = Ret (i', GotC c) /\ is_get ck (plain_is i) = (c, plain_is i').
Proof.
  intros ck [b e f]. unfold rexec, is_get, r_good, is_good, plain_is, set_fail. cbn. destruct e, f; cbn; try (do 2 eexists; split; reflexivity).
  rewrite plain_throws, plain_uflow. destruct (r_uflow ck b) as [c b']. do 2 eexists. split; reflexivity.
Qed.
Lemma plain_peek : forall ck i, exists i' c, rexec ck Peek i = Ret (i', GotC c) /\ is_peek ck (plain_is i) = (c, plain_is i').
Proof.
  intros ck [b e f]. unfold rexec, is_peek, r_good, is_good, plain_is, set_fail. cbn. destruct e, f; cbn; try (do 2 eexists; split; reflexivity).
  rewrite plain_throws, plain_under. destruct (r_underflow ck b) as [c b']. do 2 eexists. split; reflexivity.
Qed.

(** ** One step: the buffer b is at position p of the text *)
Definition char_at (code : N -> Z) (eof : Z) (s : list N) (p : nat) : Z := match nth_error s p with None => eof | Some u => code u end.
Section Sim.
Variables (ck : ckind) (code : N -> Z) (s : list N).
Hypothesis Proper : forall u, In u s -> code u <> eof_int ck.
Variable A : nat -> rbuf -> Prop.
Hypothesis A_under : forall p b c b', A p b -> r_underflow ck b = (c, b') -> c = char_at code (eof_int ck) s p /\ A p b'.
Hypothesis A_uflow : forall p b c b', A p b -> r_uflow ck b = (c, b') -> c = char_at code (eof_int ck) s p /\ A (if nth_error s p then S p else p) b'.

Definition At (i : rin) (d : rd) : Prop := A (at_ d) (r_buf i) /\ r_eof i = eof_ d /\ r_fail i = fail_ d.
Lemma bad_good : forall i d, At i d -> ~ rd_good d -> r_good i = false.
Proof. intros i d (_ & E & F) N. unfold r_good. rewrite E, F. unfold rd_good in N. destruct (eof_ d), (fail_ d); try reflexivity. exfalso. auto. Qed.

Lemma step_plain : forall i d op d' r, At i d -> reads code (eof_int ck) s d op d' r -> (forall n, op <> Read n) ->
  exists i', rexec ck op i = Ret (i', r) /\ At i' d'.
Proof.
  intros [b e f] d op d' r H R N. destruct R as [p u E|p E|d0 B|p u E|p E|d0 B|p l n X L|p l n X L|d0 n B|d0]; try (exfalso; eapply N; reflexivity).
  - destruct H as (H & He & Hf). cbn in H, He, Hf. subst e f. cbn [rexec r_good r_buf r_eof r_fail negb andb]. destruct (r_uflow ck b) as [c b'] eqn:U.
    destruct (A_uflow _ _ _ _ H U) as [-> H']. unfold char_at in *. rewrite E in *.
    replace (code u =? eof_int ck)%Z with false by (pose proof (Proper u (nth_error_In _ _ E)); lia). eexists. split; [reflexivity|]. split; [exact H'|]. split; reflexivity.
  - destruct H as (H & He & Hf). cbn in H, He, Hf. subst e f. cbn [rexec r_good r_buf r_eof r_fail negb andb]. destruct (r_uflow ck b) as [c b'] eqn:U.
    destruct (A_uflow _ _ _ _ H U) as [-> H']. unfold char_at in *. rewrite E in *. rewrite Z.eqb_refl. eexists. split; [reflexivity|]. split; [exact H'|]. split; reflexivity.
  - cbn [rexec]. rewrite (bad_good _ _ H B). eexists. split; [reflexivity|]. destruct H as (H & He & Hf). split; [exact H|]. split; [exact He|reflexivity].
  - destruct H as (H & He & Hf). cbn in H, He, Hf. subst e f. cbn [rexec r_good r_buf r_eof r_fail negb andb]. destruct (r_underflow ck b) as [c b'] eqn:U.
    destruct (A_under _ _ _ _ H U) as [-> H']. unfold char_at in *. rewrite E in *.
    replace (code u =? eof_int ck)%Z with false by (pose proof (Proper u (nth_error_In _ _ E)); lia). eexists. split; [reflexivity|]. split; [exact H'|]. split; reflexivity.
  - destruct H as (H & He & Hf). cbn in H, He, Hf. subst e f. cbn [rexec r_good r_buf r_eof r_fail negb andb]. destruct (r_underflow ck b) as [c b'] eqn:U.
    destruct (A_under _ _ _ _ H U) as [-> H']. unfold char_at in *. rewrite E in *. rewrite Z.eqb_refl. eexists. split; [reflexivity|]. split; [exact H'|]. split; reflexivity.
  - cbn [rexec]. rewrite (bad_good _ _ H B). eexists. split; [reflexivity|]. destruct H as (H & He & Hf). split; [exact H|]. split; [exact He|reflexivity].
  - cbn [rexec]. eexists. split; [reflexivity|]. destruct H as (H & _). split; [exact H|]. split; reflexivity.
Qed.
Lemma run_plain : forall d ops d' rs, reads_all code (eof_int ck) s d ops d' rs -> Forall (fun op => ~ is_read op) ops -> forall i, At i d ->
  exists i', rexec_all ck ops i = Ret (i', rs) /\ At i' d'.
Proof.
  intros d ops d' rs R. induction R as [d|d op d1 r ops d2 rs R RA IH]; intros F i H; [exists i; auto|]. inversion F; subst.
  destruct (step_plain _ _ _ _ _ H R) as (i1 & E1 & H1). { intros n ->. apply H2. exists n. reflexivity. }
  destruct (IH H3 _ H1) as (i2 & E2 & H2'). exists i2. cbn [rexec_all]. rewrite E1. cbn [bind]. rewrite E2. auto.
Qed.
End Sim.

(** the four buffers *)
Section Buffers.
Variables (ck : ckind) (s : list N).
Definition A_list (mk : list N -> nat -> rbuf) (p : nat) (b : rbuf) : Prop := exists i, b = mk s i /\ (i = p \/ (length s <= i)%nat /\ (length s <= p)%nat).
Lemma at_list : forall p i, i = p \/ (length s <= i)%nat /\ (length s <= p)%nat -> nth_error s i = nth_error s p.
Proof. intros p i [->|[H1 H2]]; [reflexivity|]. rewrite (proj2 (nth_error_None s i) H1), (proj2 (nth_error_None s p) H2). reflexivity. Qed.
Lemma list_next : forall p i, i = p \/ (length s <= i)%nat /\ (length s <= p)%nat ->
  S i = (if nth_error s p then S p else p) \/ (length s <= S i)%nat /\ (length s <= (if nth_error s p then S p else p))%nat.
Proof. intros p i H. destruct (nth_error s p) eqn:E; [|apply nth_error_None in E; lia]. assert (p < length s)%nat by (apply nth_error_Some; congruence). lia. Qed.

Lemma str_under : forall p b c b', A_list RStr p b -> r_underflow ck b = (c, b') -> c = char_at Z.of_N (eof_int ck) s p /\ A_list RStr p b'.
Proof. intros p b c b' (i & -> & H) U. cbn in U. injection U as <- <-. split; [|exists i; auto]. unfold char_at. rewrite (at_list _ _ H). destruct (nth_error s p); reflexivity. Qed.
Lemma str_uflow : forall p b c b', A_list RStr p b -> r_uflow ck b = (c, b') -> c = char_at Z.of_N (eof_int ck) s p /\ A_list RStr (if nth_error s p then S p else p) b'.
Proof.
  intros p b c b' (i & -> & H) U. cbn in U. injection U as <- <-. split; [|exists (S i); split; [reflexivity|apply list_next; exact H]].
  unfold char_at. rewrite (at_list _ _ H). destruct (nth_error s p); reflexivity.
Qed.
Lemma buf_under : forall p b c b', A_list RBuf p b -> r_underflow ck b = (c, b') -> c = char_at Z.of_N (eof_int ck) s p /\ A_list RBuf p b'.
Proof. intros p b c b' (i & -> & H) U. cbn in U. injection U as <- <-. split; [|exists i; auto]. unfold char_at. rewrite (at_list _ _ H). destruct (nth_error s p); reflexivity. Qed.
Lemma buf_uflow : forall p b c b', A_list RBuf p b -> r_uflow ck b = (c, b') -> c = char_at Z.of_N (eof_int ck) s p /\ A_list RBuf (if nth_error s p then S p else p) b'.
Proof.
  intros p b c b' (i & -> & H) U. cbn in U. injection U as <- <-. split; [|exists (S i); split; [reflexivity|apply list_next; exact H]].
  unfold char_at. rewrite (at_list _ _ H). destruct (nth_error s p); reflexivity.
Qed.

(** a file: with or without a pending character *)
Definition A_file (p : nat) (b : rbuf) : Prop :=
  b = RFile (skipn p s) 0 \/ b = RFile (skipn (S p) s) (char_at Z.of_N (eof_int ck) s p).
Hypothesis NoNul : forall u, In u s -> u <> 0.
Lemma eof_nz : (eof_int ck =? 0)%Z = false.
Proof. destruct ck; reflexivity. Qed.
Lemma file_nz : forall p, (char_at Z.of_N (eof_int ck) s p =? 0)%Z = false.
Proof. intros p. unfold char_at. destruct (nth_error s p) eqn:E; [|apply eof_nz]. apply nth_error_In in E. pose proof (NoNul _ E). lia. Qed.
Lemma fgetc_at : forall p, fgetc ck (skipn p s) = (char_at Z.of_N (eof_int ck) s p, skipn (S p) s).
Proof. intros p. unfold char_at. rewrite nth_skip, skip_next. destruct (skipn p s); reflexivity. Qed.
Lemma file_under : forall p b c b', A_file p b -> r_underflow ck b = (c, b') -> c = char_at Z.of_N (eof_int ck) s p /\ b' = RFile (skipn (S p) s) c.
Proof.
  intros p b c b' [->| ->] U; cbn [r_underflow] in U.
  - change (0 =? 0)%Z with true in U. cbv iota in U. rewrite fgetc_at in U. injection U as <- <-. auto.
  - rewrite file_nz in U. injection U as <- <-. auto.
Qed.
Lemma file_uflow : forall p b c b', A_file p b -> r_uflow ck b = (c, b') -> c = char_at Z.of_N (eof_int ck) s p /\ A_file (if nth_error s p then S p else p) b'.
Proof.
  intros p b c b' H U. unfold r_uflow in U. destruct (r_underflow ck b) as [c1 b1] eqn:E. destruct (file_under _ _ _ _ H E) as [-> ->]. injection U as <- <-.
  split; [reflexivity|]. left. destruct (nth_error s p) eqn:X; [reflexivity|]. apply nth_error_None in X.
  assert (Y : skipn (S p) s = skipn p s) by (rewrite !skipn_all2 by lia; reflexivity). exact (f_equal (fun l => RFile l 0) Y).
Qed.
End Buffers.

(** an adapter *)
Section Adapter.
Variables (ck : ckind) (s : list N) (src : nat -> N).
Hypothesis Ad : adapts ck s src.
Notation ch := (char_at (int_of_char ck) (eof_int ck) s).
(** at position p: between characters, or with the next one pending; beyond
    the end the position of the adapter does not matter *)
Definition clean (p : nat) (b : rbuf) : Prop := exists q, b = RAdp src q 0 /\ (q = p \/ (length s <= q)%nat /\ (length s <= p)%nat).
Definition pend (p : nat) (b : rbuf) : Prop := exists q, b = RAdp src (S q) (ch p) /\ (q = p \/ (length s <= q)%nat /\ (length s <= p)%nat).
Definition A_adp (p : nat) (b : rbuf) : Prop := clean p b \/ pend p b.

Lemma eof_unit_int : int_of_char ck (eof_unit ck) = eof_int ck.
Proof. destruct ck; reflexivity. Qed.
Lemma src_ch : forall p q, q = p \/ (length s <= q)%nat /\ (length s <= p)%nat -> int_of_char ck (src q) = ch p.
Proof.
  intros p q H. destruct Ad as [E _]. rewrite E. unfold char_at. rewrite <- (at_list s p q H). destruct (nth_error s q) eqn:X.
  - rewrite (nth_error_nth _ _ _ X). reflexivity.
  - apply nth_error_None in X. rewrite nth_overflow by exact X. apply eof_unit_int.
Qed.
Lemma fine_int : forall u, u <> 0 /\ u < eof_unit ck -> int_of_char ck u <> 0%Z /\ int_of_char ck u <> eof_int ck.
Proof. clear Ad. intros u [H1 H2]. destruct ck; cbn in *; try destruct (N.ltb_spec u 128); lia. Qed.
Lemma ch_nz : forall p, (ch p =? 0)%Z = false.
Proof.
  intros p. unfold char_at. destruct (nth_error s p) eqn:E; [|apply eof_nz]. apply nth_error_In in E. destruct Ad as [_ F]. rewrite Forall_forall in F.
  apply Z.eqb_neq. apply fine_int. apply F. exact E.
Qed.
Lemma adp_under : forall p b c b', A_adp p b -> r_underflow ck b = (c, b') -> c = ch p /\ pend p b'.
Proof.
  intros p b c b' [(q & -> & H)|(q & -> & H)] U; cbn [r_underflow] in U.
  - change (0 =? 0)%Z with true in U. cbv iota in U. injection U as <- <-. rewrite (src_ch _ _ H). split; [reflexivity|exists q; auto].
  - rewrite ch_nz in U. injection U as <- <-. split; [reflexivity|exists q; auto].
Qed.
Lemma adp_uflow : forall p b c b', A_adp p b -> r_uflow ck b = (c, b') -> c = ch p /\ clean (if nth_error s p then S p else p) b'.
Proof.
  intros p b c b' H U. unfold r_uflow in U. destruct (r_underflow ck b) as [c1 b1] eqn:E. destruct (adp_under _ _ _ _ H E) as (-> & q & -> & Hq). injection U as <- <-.
  split; [reflexivity|]. exists (S q). split; [reflexivity|]. apply list_next. exact Hq.
Qed.
Lemma adp_proper : forall u, In u s -> int_of_char ck u <> eof_int ck.
Proof. intros u H. destruct Ad as [_ F]. rewrite Forall_forall in F. apply fine_int. apply F. exact H. Qed.

Lemma map_src : forall n p, (p + n <= length s)%nat -> map src (seq p n) = firstn n (skipn p s).
Proof.
  induction n as [|n IH]; intros p L; [reflexivity|]. cbn [seq map]. rewrite IH by lia. destruct Ad as [E _]. rewrite E.
  rewrite skip_next. destruct (skipn p s) as [|u r] eqn:X.
  - exfalso. assert (length (skipn p s) = 0)%nat by (rewrite X; reflexivity). rewrite skipn_length in H. lia.
  - cbn [firstn]. f_equal. pose proof (nth_skip s p) as Y. rewrite X in Y. apply nth_error_nth with (d := eof_unit ck) in Y. exact Y.
Qed.

(** the step relation knows whether a character may be pending; at the end
    that does not matter *)
Definition Ats (pending : bool) (i : rin) (d : rd) : Prop :=
  (clean (at_ d) (r_buf i) \/ (pending = true \/ (length s <= at_ d)%nat) /\ pend (at_ d) (r_buf i)) /\
  (r_eof i = eof_ d /\ r_fail i = fail_ d) /\ (~ rd_good d -> (length s <= at_ d)%nat).
Definition pends (pending : bool) (op : rop) : bool := match op with Peek => true | Clear => pending | _ => false end.
Lemma ats_at : forall p i d, Ats p i d -> At A_adp i d.
Proof. intros p i d ([H|[_ H]] & E & _); (split; [|exact E]); [left|right]; exact H. Qed.
Lemma ats_bad : forall pd i d op, Ats pd i d -> ~ rd_good d -> Ats (pends pd op) (mkIn (r_buf i) (r_eof i) true) (mkRd (at_ d) (eof_ d) true).
Proof.
  intros pd i d op (H & (He & _) & G) B. specialize (G B). split; [|split; [split; [exact He|reflexivity]|intros _; exact G]]. cbn [at_ r_buf].
  destruct H as [H|[_ H]]; [left; exact H|right; split; [right; exact G|exact H]].
Qed.

Lemma adp_step : forall pd i d op d' r, Ats pd i d -> reads (int_of_char ck) (eof_int ck) s d op d' r ->
  (forall n, op = Read n -> pd = false /\ n <> 0%nat /\ (rd_good d -> exists l, r = GotN l n)) -> exists i', rexec ck op i = Ret (i', r) /\ Ats (pends pd op) i' d'.
Proof.
  intros pd [b e f] d op d' r H R N. assert (H0 := ats_at _ _ _ H).
  assert (Gd : forall p, rd_good (mkRd p false false)) by (split; reflexivity).
  destruct R as [p u E|p E|d0 B|p u E|p E|d0 B|p l n X L|p l n X L|d0 n B|d0].
  1, 2, 4, 5, 7, 8: destruct H0 as (H0 & He & Hf); cbn in H0, He, Hf; subst e f; cbn [rexec r_good r_buf r_eof r_fail negb andb].
  - destruct (r_uflow ck b) as [c b'] eqn:U; destruct (adp_uflow _ _ _ _ H0 U) as [-> H']. unfold char_at in *. rewrite E in *.
    replace (int_of_char ck u =? eof_int ck)%Z with false by (pose proof (adp_proper u (nth_error_In _ _ E)); lia).
    eexists. split; [reflexivity|]. split; [left; exact H'|]. split; [split; reflexivity|]. intros Nx. destruct (Nx (Gd _)).
  - destruct (r_uflow ck b) as [c b'] eqn:U; destruct (adp_uflow _ _ _ _ H0 U) as [-> H']. unfold char_at in *. rewrite E in *. rewrite Z.eqb_refl.
    eexists. split; [reflexivity|]. split; [left; exact H'|]. split; [split; reflexivity|]. intros _. apply nth_error_None. exact E.
  - destruct (r_underflow ck b) as [c b'] eqn:U; destruct (adp_under _ _ _ _ H0 U) as [-> H']. unfold char_at in *. rewrite E in *.
    replace (int_of_char ck u =? eof_int ck)%Z with false by (pose proof (adp_proper u (nth_error_In _ _ E)); lia).
    eexists. split; [reflexivity|]. split; [right; split; [left; reflexivity|exact H']|]. split; [split; reflexivity|]. intros Nx. destruct (Nx (Gd _)).
  - destruct (r_underflow ck b) as [c b'] eqn:U; destruct (adp_under _ _ _ _ H0 U) as [-> H']. unfold char_at in *. rewrite E in *. rewrite Z.eqb_refl.
    eexists. split; [reflexivity|]. split; [right; split; [left; reflexivity|exact H']|]. split; [split; reflexivity|]. intros _. apply nth_error_None. exact E.
  - destruct (N n eq_refl) as (-> & Nz & _). destruct X as [rest X].
    assert (Ln : (p + n <= length s)%nat).
    { assert (length (skipn p s) = length l + length rest)%nat by (rewrite X; apply app_length). rewrite skipn_length in H1. lia. }
    destruct H as ([(q & Eb & Hq)|[[Y|Y] _]] & _); [|discriminate|cbn in Y; lia]. cbn in Eb, Hq. subst b.
    assert (q = p) as -> by lia. cbn [xsgetn]. change (0 =? 0)%Z with true. cbv iota. rewrite Nat.eqb_refl. rewrite (map_src n p Ln), X.
    replace (firstn n (l ++ rest)) with l by (rewrite <- L, firstn_app, Nat.sub_diag, firstn_all, firstn_O, app_nil_r; reflexivity).
    eexists. split; [reflexivity|]. split; [left; exists (p + n)%nat; auto|]. split; [split; reflexivity|]. intros Nx. destruct (Nx (Gd _)).
  - destruct (N n eq_refl) as (_ & _ & Y). destruct (Y (Gd _)) as [l' Z]. injection Z. intros. lia.
  - cbn [rexec]. rewrite (bad_good A_adp _ _ H0 B). eexists. split; [reflexivity|]. apply (ats_bad _ _ _ Get H B).
  - cbn [rexec]. rewrite (bad_good A_adp _ _ H0 B). eexists. split; [reflexivity|]. apply (ats_bad _ _ _ Peek H B).
  - cbn [rexec]. rewrite (bad_good A_adp _ _ H0 B). eexists. split; [reflexivity|]. apply (ats_bad _ _ _ (Read n) H B).
  - cbn [rexec]. eexists. split; [reflexivity|]. destruct H as (H & _ & _). split; [exact H|]. split; [split; reflexivity|]. intros Nx. destruct (Nx (Gd _)).
Qed.

Definition calm (pd : bool) (ops : list rop) : Prop :=
  no_read_after_peek ops /\ (pd = true -> forall cs n post, ops = cs ++ Read n :: post -> Forall (eq Clear) cs -> False).
Lemma calm_next : forall pd op ops, calm pd (op :: ops) -> calm (pends pd op) ops.
Proof.
  intros pd op ops [C P]. split.
  - intros pre cs n post E. apply (C (op :: pre) cs n post). cbn. rewrite E. reflexivity.
  - intros Pd cs n post E F. destruct op; try discriminate.
    + apply (C [] cs n post); [cbn; rewrite E; reflexivity|exact F].
    + cbn in Pd. apply (P Pd (Clear :: cs) n post); [cbn; rewrite E; reflexivity|constructor; [reflexivity|exact F]].
Qed.
Lemma adp_run : forall d ops d' rs, reads_full (int_of_char ck) (eof_int ck) s d ops d' rs -> forall pd i, calm pd ops -> ~ In (Read 0) ops -> Ats pd i d ->
  exists i', rexec_all ck ops i = Ret (i', rs) /\ r_eof i' = eof_ d' /\ r_fail i' = fail_ d'.
Proof.
  intros d ops d' rs R. induction R as [d|d op d1 r ops d2 rs R Fu RA IH]; intros pd i C Nz H; [exists i; destruct H as (_ & E & _); auto|].
  destruct (adp_step pd i d op d1 r H R) as (i1 & E1 & H1).
  { intros n ->. split; [|split; [intros ->; apply Nz; left; reflexivity|exact (Fu n eq_refl)]].
    destruct pd; [|reflexivity]. exfalso. destruct C as [_ C]. apply (C eq_refl [] n ops eq_refl). constructor. }
  destruct (IH (pends pd op) i1 (calm_next _ _ _ C)) as (i2 & E2 & H2); [intro X; apply Nz; right; exact X|exact H1|].
  exists i2. cbn [rexec_all]. rewrite E1. cbn [bind]. rewrite E2. auto.
Qed.
End Adapter.

(** ** The statements *)
Lemma over_plain : forall ck s b code ops d rs, over ck s b code -> Forall (fun op => ~ is_read op) ops -> reads_all code (eof_int ck) s start_rd ops d rs ->
  exists i, rexec_all ck ops (r_open b) = Ret (i, rs) /\ r_eof i = eof_ d /\ r_fail i = fail_ d.
Proof.
  intros ck s b code ops d rs O F R.
  assert (X : forall A : nat -> rbuf -> Prop, (forall u, In u s -> code u <> eof_int ck) ->
    (forall p b c b', A p b -> r_underflow ck b = (c, b') -> c = char_at code (eof_int ck) s p /\ A p b') ->
    (forall p b c b', A p b -> r_uflow ck b = (c, b') -> c = char_at code (eof_int ck) s p /\ A (if nth_error s p then S p else p) b') ->
    A 0%nat b -> exists i, rexec_all ck ops (r_open b) = Ret (i, rs) /\ r_eof i = eof_ d /\ r_fail i = fail_ d).
  { intros A P U1 U2 A0. destruct (run_plain ck code s P A U1 U2 _ _ _ _ R F (r_open b)) as (i & E & _ & H); [split; [exact A0|split; reflexivity]|]. exists i. auto. }
  destruct O as [P|P|src Ad|P].
  - rewrite Forall_forall in P. apply (X (A_list s RStr)); [exact P|apply str_under|apply str_uflow|exists 0%nat; auto].
  - rewrite Forall_forall in P. apply (X (A_list s RBuf)); [exact P|apply buf_under|apply buf_uflow|exists 0%nat; auto].
  - apply (X (A_adp ck s src)).
    + apply (adp_proper ck s src Ad).
    + intros p b c b' H U. destruct (adp_under ck s src Ad _ _ _ _ H U). split; [assumption|right; assumption].
    + intros p b c b' H U. destruct (adp_uflow ck s src Ad _ _ _ _ H U). split; [assumption|left; assumption].
    + left. exists 0%nat. auto.
  - rewrite Forall_forall in P. apply (X (A_file ck s)).
    + intros u H. apply (P u H).
    + intros p b c b' H U. destruct (file_under ck s (fun u H => proj1 (P u H)) _ _ _ _ H U) as [-> ->]. split; [reflexivity|right; reflexivity].
    + intros p b c b' H U. apply (file_uflow ck s (fun u H => proj1 (P u H)) _ _ _ _ H U).
    + left. reflexivity.
Qed.

Lemma adapter_reads : forall ck s src ops d rs, adapts ck s src -> no_read_after_peek ops -> ~ In (Read 0) ops ->
  reads_full (int_of_char ck) (eof_int ck) s start_rd ops d rs ->
  exists i, rexec_all ck ops (r_open (RAdp src 0 0)) = Ret (i, rs) /\ r_eof i = eof_ d /\ r_fail i = fail_ d.
Proof.
  intros ck s src ops d rs Ad C Nz R. apply (adp_run ck s src Ad _ _ _ _ R false); [split; [exact C|discriminate]|exact Nz|].
  split; [left; exists 0%nat; auto|]. split; [split; reflexivity|]. intros N. exfalso. apply N. split; reflexivity.
Qed.

Lemma fine_pending : forall ck u, u <> 0 -> u <= eof_unit ck -> (int_of_char ck u =? 0)%Z = false.
Proof. intros ck u H L. destruct ck; cbn in *; try destruct (N.ltb_spec u 128); lia. Qed.
Lemma pending_char : forall ck u, u <= eof_unit ck -> narrow ck (z_u32 (int_of_char ck u)) = u.
Proof.
  intros ck u L. destruct ck; cbn [narrow int_of_char eof_unit] in *; unfold u8, u16, u32, z_u32.
  - destruct (N.ltb_spec u 128).
    + rewrite Z.mod_small, N2Z.id by lia. apply N.mod_small. lia.
    + replace (Z.of_N u - 256)%Z with (Z.of_N u + 4294967040 + (-1) * 4294967296)%Z by lia. rewrite Z.mod_add, Z.mod_small by lia.
      replace (Z.to_N (Z.of_N u + 4294967040)) with (u + 16777215 * 256) by lia. rewrite N.mod_add, N.mod_small by lia. reflexivity.
  - rewrite Z.mod_small, N2Z.id by lia. apply N.mod_small. lia.
  - rewrite Z.mod_small, N2Z.id by lia. apply N.mod_small. lia.
Qed.
Lemma peek_read : forall ck src pos n, src pos <> 0 -> src pos < eof_unit ck ->
  rexec_all ck [Peek; Read (S n)] (r_open (RAdp src pos 0)) =
  Ret (mkIn (RAdp src (pos + S n) 0) true true, [GotC (int_of_char ck (src pos)); GotN (map src (seq pos (S n))) n]).
Proof.
  intros ck src pos n Nz L. cbn [rexec_all rexec r_open r_good r_eof r_fail r_buf negb andb r_underflow]. change (0 =? 0)%Z with true. cbv iota. cbv zeta.
  assert (Ne : (int_of_char ck (src pos) =? eof_int ck)%Z = false) by (apply Z.eqb_neq; exact (proj2 (fine_int ck (src pos) (conj Nz L)))). rewrite Ne.
  cbn [bind r_good r_eof r_fail negb andb r_buf xsgetn]. rewrite fine_pending by lia. rewrite pending_char by lia.
  replace (n =? S n)%nat with false by (symmetry; apply Nat.eqb_neq; lia). cbn [negb bind seq map]. replace (pos + S n)%nat with (S pos + n)%nat by lia. reflexivity.
Qed.
Lemma peek_read0 : forall ck src pos, src pos <> 0 -> src pos < eof_unit ck -> rexec_all ck [Peek; Read 0] (r_open (RAdp src pos 0)) = UB.
Proof.
  intros ck src pos Nz L. cbn [rexec_all rexec r_open r_good r_eof r_fail r_buf negb andb r_underflow]. change (0 =? 0)%Z with true. cbv iota. cbv zeta.
  assert (Ne : (int_of_char ck (src pos) =? eof_int ck)%Z = false) by (apply Z.eqb_neq; exact (proj2 (fine_int ck (src pos) (conj Nz L)))). rewrite Ne.
  cbn [bind r_good r_eof r_fail negb andb r_buf xsgetn]. rewrite fine_pending by lia. reflexivity.
Qed.
Lemma read_past : forall ck src pos n, rexec ck (Read n) (r_open (RAdp src pos 0)) = Ret (r_open (RAdp src (pos + n) 0), GotN (map src (seq pos n)) n).
Proof. intros. cbn [rexec r_open r_good r_eof r_fail r_buf negb andb xsgetn]. change (0 =? 0)%Z with true. cbv iota. rewrite Nat.eqb_refl. reflexivity. Qed.

(** strings and buffers *)
Lemma rexec_app : forall ck a b i, rexec_all ck (a ++ b) i =
  bind (rexec_all ck a i) (fun '(i1, r1) => bind (rexec_all ck b i1) (fun '(i2, r2) => Ret (i2, r1 ++ r2))).
Proof.
  intros ck a. induction a as [|op a IH]; intros b i; cbn [app rexec_all bind].
  - destruct (rexec_all ck b i) as [[i2 r2]| | | |]; reflexivity.
  - destruct (rexec ck op i) as [[i1 r]| | | |]; try reflexivity. cbn [bind]. rewrite IH. destruct (rexec_all ck a i1) as [[i2 r1]| | | |]; try reflexivity. cbn [bind].
    destruct (rexec_all ck b i2) as [[i3 r3]| | | |]; reflexivity.
Qed.
Lemma exact_step : forall (mk : list N -> nat -> rbuf) ck s d op d' r i i' r', mk = RStr \/ mk = RBuf -> reads Z.of_N (eof_int ck) s d op d' r -> (op = Get \/ op = Peek) ->
  r_eof i = eof_ d /\ r_fail i = fail_ d -> (rd_good d -> r_buf i = mk s (at_ d)) -> rexec ck op i = Ret (i', r') -> rd_good d' -> r_buf i' = mk s (at_ d').
Proof.
  intros mk ck s d op d' r [b e f] i' r' M R O [He Hf] H E G. cbn in He, Hf, H.
  destruct R as [p u X|p X|d0 B|p u X|p X|d0 B|p l n X L|p l n X L|d0 n B|d0]; try (destruct G as [G1 G2]; discriminate); try (destruct O; discriminate);
    cbn in He, Hf; subst e f; cbn in H; rewrite H in E by (split; reflexivity); destruct M as [-> | ->]; cbn in E; injection E as <- _; reflexivity.
Qed.
Lemma exact_run : forall (mk : list N -> nat -> rbuf) ck s, mk = RStr \/ mk = RBuf -> Forall (fun u => Z.of_N u <> eof_int ck) s -> over ck s (mk s 0%nat) Z.of_N ->
  forall d ops d' rs, reads_all Z.of_N (eof_int ck) s d ops d' rs -> Forall (fun op => op = Get \/ op = Peek) ops ->
  forall i, (exists j, r_buf i = mk s j /\ (j = at_ d \/ (length s <= j)%nat /\ (length s <= at_ d)%nat)) -> r_eof i = eof_ d /\ r_fail i = fail_ d -> (rd_good d -> r_buf i = mk s (at_ d)) ->
  exists i', rexec_all ck ops i = Ret (i', rs) /\ (r_eof i' = eof_ d' /\ r_fail i' = fail_ d') /\ (rd_good d' -> r_buf i' = mk s (at_ d')).
Proof.
  intros mk ck s M P O d ops d' rs R. rewrite Forall_forall in P. induction R as [d|d op d1 r ops d2 rs R RA IH]; intros F i J B H; [exists i; auto|].
  inversion F; subst.
  assert (S1 : exists i1, rexec ck op i = Ret (i1, r) /\ At (A_list s mk) i1 d1).
  { assert (Nr : forall n, op <> Read n) by (intros n ->; destruct H2; discriminate). assert (A0 : At (A_list s mk) i d) by (split; [exact J|exact B]).
    destruct M as [-> | ->]; [apply (step_plain ck Z.of_N s P (A_list s RStr) (str_under ck s) (str_uflow ck s) i d op d1 r A0 R Nr)
      |apply (step_plain ck Z.of_N s P (A_list s RBuf) (buf_under ck s) (buf_uflow ck s) i d op d1 r A0 R Nr)]. }
  destruct S1 as (i1 & E1 & (J1 & B1)). destruct (IH H3 i1 J1 B1) as (i2 & E2 & B2 & H4).
  { eapply exact_step; [exact M|exact R|exact H2|exact B|exact H|exact E1]. }
  exists i2. cbn [rexec_all]. rewrite E1. cbn [bind]. rewrite E2. auto.
Qed.
Lemma at_most : forall code eof s d ops d' rs, reads_all code eof s d ops d' rs -> Forall (fun op => op = Get \/ op = Peek) ops -> (at_ d <= length s)%nat -> (at_ d' <= length s)%nat.
Proof.
  intros code eof s d ops d' rs R. induction R as [d|d op d1 r ops d2 rs R RA IH]; intros F L; [exact L|]. inversion F; subst. apply IH; [assumption|].
  destruct R; cbn in *; try exact L; try (destruct H1; discriminate). assert (p < length s)%nat by (apply nth_error_Some; congruence). lia.
Qed.
Lemma split_last : forall code eof s op ops d0 d rs, reads_all code eof s d0 (ops ++ [op]) d rs -> exists d1 rs1 r,
  reads_all code eof s d0 ops d1 rs1 /\ reads code eof s d1 op d r /\ rs = rs1 ++ [r].
Proof.
  intros code eof s o ops. induction ops as [|op ops IH]; intros d0 d rs R; cbn in R; inversion R as [|? ? ? r ? ? ? R1 R2]; subst.
  - inversion R2; subst. exists d0, [], r. split; [constructor|]. auto.
  - destruct (IH _ _ _ R2) as (d1 & rs1 & r1 & A & B & ->). exists d1, (r :: rs1), r1. split; [econstructor; eassumption|]. auto.
Qed.
Lemma string_read : forall ck s ops d rs n, Forall (fun u => Z.of_N u <> eof_int ck) s -> Forall (fun op => op = Get \/ op = Peek) ops ->
  reads_all Z.of_N (eof_int ck) s start_rd (ops ++ [Read n]) d rs ->
  exists i, rexec_all ck (ops ++ [Read n]) (r_open (RStr s 0)) = Ret (i, rs) /\ r_eof i = eof_ d /\ r_fail i = fail_ d.
Proof.
  intros ck s ops d rs n P F R.
  destruct (split_last _ _ _ _ _ _ _ _ R) as (d1 & rs1 & r & R1 & R2 & ->).
  destruct (exact_run RStr ck s (or_introl eq_refl) P (over_string _ _ P) _ _ _ _ R1 F (r_open (RStr s 0))) as (i & E & (He & Hf) & H).
  { exists 0%nat. auto. } { split; reflexivity. } { intros _. reflexivity. }
  pose proof (at_most _ _ _ _ _ _ _ R1 F ltac:(cbn; lia)) as L1.
  rewrite rexec_app, E. cbn [bind rexec_all].
  assert (X : exists i', rexec ck (Read n) i = Ret (i', r) /\ r_eof i' = eof_ d /\ r_fail i' = fail_ d).
  { clear R1 E. remember (Read n) as op eqn:Eo. cbn [rexec]. destruct R2 as [p u E|p E|d0 B|p u E|p E|d0 B|p l m Y L|p l m Y L|d0 m B|d0]; try discriminate; injection Eo as ->; cbn in He, Hf, H, L1.
    - cbn [rexec]. unfold r_good. rewrite He, Hf. cbn [negb andb]. rewrite H by (split; reflexivity). cbn [xsgetn]. destruct Y as [rest Y].
      replace (firstn n (skipn p s)) with l by (rewrite Y, <- L, firstn_app, Nat.sub_diag, firstn_all, firstn_O, app_nil_r; reflexivity).
      destruct (Nat.ltb_spec (length s) p); [lia|]. rewrite L, Nat.eqb_refl. eexists. split; [reflexivity|]. split; reflexivity.
    - cbn [rexec]. unfold r_good. rewrite He, Hf. cbn [negb andb]. rewrite H by (split; reflexivity). cbn [xsgetn].
      rewrite Y, firstn_all2 by lia. destruct (Nat.ltb_spec (length s) p); [lia|]. replace (length l =? n)%nat with false by (symmetry; apply Nat.eqb_neq; lia).
      eexists. split; [reflexivity|]. split; reflexivity.
    - cbn [rexec]. assert (G : r_good i = false).
      { unfold r_good. rewrite He, Hf. unfold rd_good in B. destruct (eof_ d0), (fail_ d0); try reflexivity. exfalso. auto. }
      rewrite G. eexists. split; [reflexivity|]. split; [exact He|reflexivity]. }
  destruct X as (i' & -> & B). cbn [bind]. exists i'. auto.
Qed.
Lemma buffer_read : forall ck s ops p rs n, Forall (fun u => Z.of_N u <> eof_int ck) s -> Forall (fun op => op = Get \/ op = Peek) ops ->
  reads_all Z.of_N (eof_int ck) s start_rd ops (mkRd p false false) rs ->
  exists i, rexec_all ck (ops ++ [Read n]) (r_open (RBuf s 0)) = Ret (i, rs ++ [GotN (firstn (Nat.min n (length s - p)) s) (Nat.min n (length s - p))]).
Proof.
  intros ck s ops p rs n P F R.
  destruct (exact_run RBuf ck s (or_intror eq_refl) P (over_buffer _ _ P) _ _ _ _ R F (r_open (RBuf s 0))) as (i & E & (He & Hf) & H).
  { exists 0%nat. auto. } { split; reflexivity. } { intros _. reflexivity. }
  pose proof (at_most _ _ _ _ _ _ _ R F ltac:(cbn; lia)) as L1. cbn in L1.
  rewrite rexec_app, E. cbn [bind rexec_all rexec]. cbn in He, Hf, H. unfold r_good. rewrite He, Hf. cbn [negb andb]. rewrite H by (split; reflexivity). cbn [xsgetn].
  destruct (Nat.leb_spec (length s) (p + n)).
  - replace (Nat.min n (length s - p)) with (length s - p)%nat by lia. destruct (Nat.ltb_spec (length s) p); [lia|].
    destruct (Nat.eqb_spec (length s - p) 0) as [Z|Z]; [rewrite Z|]; cbn [bind]; eexists; reflexivity.
  - replace (Nat.min n (length s - p)) with n by lia. destruct (Nat.eqb_spec n 0) as [->|Z]; cbn [bind]; eexists; reflexivity.
Qed.

(** files *)
Lemma fgets_split : forall n l, let '(g, r) := fgets n l in l = g ++ r /\ (length g <= n)%nat.
Proof.
  induction n as [|n IH]; intros l; [split; [reflexivity|cbn; lia]|]. destruct l as [|u l]; [split; [reflexivity|cbn; lia]|]. cbn [fgets].
  destruct (u =? 10); [split; [reflexivity|cbn; lia]|]. specialize (IH l). destruct (fgets n l) as [g r]. destruct IH as [-> L]. split; [reflexivity|cbn; lia].
Qed.
Lemma file_read : forall ck rest last n, exists i r, rexec ck (Read (S n)) (r_open (RFile rest last)) = Ret (i, r) /\
  (rest = [] /\ r = GotN [] 0 \/ exists l rest', rest = l ++ rest' /\ (length l <= n)%nat /\ r = GotN (l ++ [0]) (S n) /\ i = r_open (RFile rest' last)).
Proof.
  intros ck rest last n. cbn [rexec r_open r_good r_eof r_fail r_buf negb andb xsgetn].
  pose proof (fgets_split n rest) as X. destruct n as [|n].
  - destruct rest as [|u rest]; cbn [fgets] in *; rewrite Nat.eqb_refl; do 2 eexists; (split; [reflexivity|]); right; [exists [], []|exists [], (u :: rest)]; auto.
  - destruct rest as [|u rest]; [do 2 eexists; split; [reflexivity|]; left; auto|]. destruct (fgets (S n) (u :: rest)) as [g r] eqn:E. destruct X as [X L]. rewrite Nat.eqb_refl.
    do 2 eexists. split; [reflexivity|]. right. exists g, r. auto.
Qed.

Lemma reads_total : forall code eof s d op, exists d' r, reads code eof s d op d' r.
Proof.
  intros code eof s [p e f] op. assert (B : e = true \/ f = true -> ~ rd_good (mkRd p e f)) by (intros [-> | ->] [X Y]; discriminate).
  destruct e, f; try (specialize (B ltac:(auto)); destruct op; do 2 eexists; [apply get_bad|apply peek_bad|apply read_bad|apply clear]; exact B).
  clear B. destruct op as [| |n|].
  - destruct (nth_error s p) eqn:E; do 2 eexists; [eapply get_char|eapply get_end]; exact E.
  - destruct (nth_error s p) eqn:E; do 2 eexists; [eapply peek_char|eapply peek_end]; exact E.
  - destruct (Nat.le_gt_cases n (length (skipn p s))) as [L|L].
    + do 2 eexists. eapply (read_all _ _ _ p (firstn n (skipn p s))); [exists (skipn n (skipn p s)); symmetry; apply firstn_skipn|apply firstn_length_le; exact L].
    + do 2 eexists. eapply read_some; [reflexivity|exact L].
  - do 2 eexists. apply clear.
Qed.
Lemma reads_all_total : forall code eof s ops d, exists d' rs, reads_all code eof s d ops d' rs.
Proof.
  intros code eof s. induction ops as [|op ops IH]; intros d; [do 2 eexists; constructor|].
  destruct (reads_total code eof s d op) as (d1 & r & R). destruct (IH d1) as (d2 & rs & RA). do 2 eexists. econstructor; eassumption.
Qed.
Lemma over_run : forall ck s b code ops, over ck s b code -> Forall (fun op => ~ is_read op) ops ->
  exists d rs i, reads_all code (eof_int ck) s start_rd ops d rs /\ rexec_all ck ops (r_open b) = Ret (i, rs) /\ r_eof i = eof_ d /\ r_fail i = fail_ d.
Proof.
  intros ck s b code ops O F. destruct (reads_all_total code (eof_int ck) s ops start_rd) as (d & rs & R).
  destruct (over_plain _ _ _ _ _ _ _ O F R) as (i & H). exists d, rs, i. auto.
Qed.
Lemma string_run : forall ck s ops n, Forall (fun u => Z.of_N u <> eof_int ck) s -> Forall (fun op => op = Get \/ op = Peek) ops ->
  exists d rs i, reads_all Z.of_N (eof_int ck) s start_rd (ops ++ [Read n]) d rs /\
    rexec_all ck (ops ++ [Read n]) (r_open (RStr s 0)) = Ret (i, rs) /\ r_eof i = eof_ d /\ r_fail i = fail_ d.
Proof.
  intros ck s ops n P F. destruct (reads_all_total Z.of_N (eof_int ck) s (ops ++ [Read n]) start_rd) as (d & rs & R).
  destruct (string_read _ _ _ _ _ _ P F R) as (i & H). exists d, rs, i. auto.
Qed.

(** ** A string past its end *)
Lemma get_run : forall ck s n i, Forall (fun u => Z.of_N u <> eof_int ck) s -> (i + n = length s)%nat ->
  exists rs, rexec_all ck (repeat Get n) (r_open (RStr s i)) = Ret (r_open (RStr s (length s)), rs).
Proof.
  intros ck s n. induction n as [|n IH]; intros i F E.
  - replace i with (length s) by lia. exists []. reflexivity.
  - destruct (nth_error s i) as [u|] eqn:U; [|apply nth_error_None in U; lia].
    assert (X : rexec ck Get (r_open (RStr s i)) = Ret (r_open (RStr s (S i)), GotC (Z.of_N u))).
    { cbn [rexec r_open r_good r_buf r_eof r_fail negb andb]. unfold r_uflow, r_underflow. rewrite U. rewrite Forall_forall in F. specialize (F u (nth_error_In _ _ U)).
      apply Z.eqb_neq in F. rewrite F. reflexivity. }
    destruct (IH (S i) F ltac:(lia)) as [rs R]. exists (GotC (Z.of_N u) :: rs). cbn [repeat rexec_all]. rewrite X. cbn [bind]. rewrite R. reflexivity.
Qed.
Lemma string_past : forall ck s n, Forall (fun u => Z.of_N u <> eof_int ck) s ->
  exists rs, rexec_all ck (repeat Get (length s) ++ [Get; Clear; Read n]) (r_open (RStr s 0)) =
    Ret (mkIn (RStr s (S (length s))) false true, rs ++ [GotC (eof_int ck); Cleared; GotN [] 0]).
Proof.
  intros ck s n F. destruct (get_run ck s (length s) 0 F eq_refl) as [rs R]. exists rs. rewrite rexec_app, R. cbn [bind].
  cbn [rexec_all rexec r_open r_good r_buf r_eof r_fail negb andb]. unfold r_uflow, r_underflow.
  rewrite (proj2 (nth_error_None s (length s)) ltac:(lia)). rewrite Z.eqb_refl. cbn [bind rexec r_buf r_good r_eof r_fail negb andb xsgetn].
  replace (length s <? S (length s))%nat with true by (symmetry; apply Nat.ltb_lt; lia). reflexivity.
Qed.

Lemma none_read : forall ck b,
  match b with RStr s i | RBuf s i => (i <= length s)%nat | RAdp _ _ last => last = 0%Z | RFile _ _ => True end ->
  rexec ck (Read 0) (r_open b) = Ret (r_open b, GotN [] 0).
Proof.
  intros ck b H. cbn [rexec r_open r_good r_eof r_fail negb andb r_buf]. destruct b as [s i|s i|src pos last|rest last]; cbn [xsgetn].
  - destruct (Nat.ltb_spec (length s) i); [lia|]. reflexivity.
  - destruct (Nat.leb_spec (length s) (i + 0)); [destruct (Nat.ltb_spec (length s) i); [lia|]|reflexivity].
    replace (length s - i)%nat with 0%nat by lia. reflexivity.
  - subst last. rewrite Nat.add_0_r. reflexivity.
  - reflexivity.
Qed.
