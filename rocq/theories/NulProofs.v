(** Adapters that answer NUL after their text. *)
From Coq Require Import Lia ZifyBool ZifyNat ZifyN.
From Verif Require Import Base Stream Encoding SpecUnicode SpecGrammar Value Token Message Parser EncodingProofs Feeds ListMachine SimParse Mono
  SpecStream StreamProofs.
Ltac Zify.zify_post_hook ::= Z.div_mod_to_equations.

Section Nul.
Variable cf : pcfg.
Variable l0 : list N.
Notation dec_ := (decode (src_enc cf) (src_ck cf)).

Definition zeros (j : istream) : Prop :=
  exists src pos, j = mkIs (IAdp src pos 0) false false /\ forall n, (pos <= n)%nat -> src n = 0.

Lemma zeros_step : forall j, zeros j -> exists j', zeros j' /\ forall cur, dec_ j cur = (true, 0, j').
Proof.
  intros j (src & pos & -> & Z). pose proof (eof_not_zero (src_ck cf)) as Ne.
  assert (C0 : int_of_char (src_ck cf) 0 = 0%Z) by (destruct (src_ck cf); reflexivity).
  assert (G : forall p, (pos <= p)%nat -> is_get (src_ck cf) (mkIs (IAdp src p 0) false false) = (0%Z, mkIs (IAdp src (S p) 0) false false)).
  { intros p L. unfold is_get, is_good. cbn [is_eof is_fail negb andb is_buf throws uflow underflow Z.eqb].
    rewrite (Z p L), C0. destruct (Z.eqb_spec 0 (eof_int (src_ck cf))); [congruence|reflexivity]. }
  assert (Zs : forall p, (pos <= p)%nat -> zeros (mkIs (IAdp src p 0) false false)).
  { intros p L. exists src, p. split; [reflexivity|]. intros n Ln. apply Z. lia. }
  destruct (src_enc cf); cbn [decode].
  - exists (mkIs (IAdp src (S pos) 0) false false). split; [apply Zs; lia|]. intros _. unfold ignore_decode. rewrite G by lia.
    cbn [is_eof negb]. replace (narrow (src_ck cf) (z_u32 0)) with 0 by (destruct (src_ck cf); reflexivity). rewrite C0. reflexivity.
  - exists (mkIs (IAdp src (S (S pos)) 0) false false). split; [apply Zs; lia|]. intro cur. unfold utf8_decode, is_peek, is_good.
    cbn [is_eof is_fail negb andb is_buf throws underflow Z.eqb]. rewrite (Z pos) by lia. rewrite C0.
    destruct (Z.eqb_spec 0 (eof_int (src_ck cf))); [congruence|]. cbn [is_eof]. change (utf8_extra_bytes (z_u8 0)) with 0%nat.
    cbn [utf8_read]. rewrite G by lia. reflexivity.
  - exists (mkIs (IAdp src (S pos) 0) false false). split; [apply Zs; lia|]. intros _. unfold utf16_decode. rewrite G by lia. reflexivity.
  - exists (mkIs (IAdp src (S pos) 0) false false). split; [apply Zs; lia|]. intros _. unfold utf32_decode. rewrite G by lia. reflexivity.
Qed.

(** a string stream and an adapter stream with the code points [l] ahead *)
Inductive tied : istream -> istream -> list N -> Prop :=
| td_end i j i' : (forall cur, exists c, dec_ i cur = (false, c, i')) -> zeros j -> tied i j []
| td_more i j c i' j' l : (forall cur, dec_ i cur = (true, c, i')) -> is_good i' = true ->
    (forall cur, dec_ j cur = (true, c, j')) -> is_good j' = true -> tied i' j' l -> tied i j (c :: l).

Definition same_regs (st st' : pst) : Prop := p_neg st = p_neg st' /\ p_int st = p_int st' /\ p_flt st = p_flt st'.
Definition place (l : list N) (st : pst) : Prop :=
  (is_eof (p_is st) = false /\ exists pre, l0 = pre ++ p_cur st :: l) \/ (is_eof (p_is st) = true /\ l = [] /\ p_cur st = 0).
Definition R (l : list N) (st st' : pst) : Prop :=
  p_cur st = p_cur st' /\ same_regs st st' /\ tied (p_is st) (p_is st') l /\ place l st /\ is_eof (p_is st') = false.
Definition RR (st st' : pst) : Prop := exists l, R l st st'.

Lemma R_RR : forall l st st', R l st st' -> RR st st'.
Proof. intros l st st' H. exists l. exact H. Qed.

Definition open_end : Prop := exists pre l, l0 = pre ++ l /\ open_comment l.

(** ** Outcomes *)
Definition orel {A} (P : A -> A -> Prop) (n : nat) (r : outcome A) (r' : nat -> outcome A) : Prop :=
  (open_end /\ forall m, (n <= m)%nat -> r' m = OutOfFuel) \/
  match r with
  | Ret a => exists b, P a b /\ forall m, (n <= m)%nat -> r' m = Ret b
  | Throw (EDeser e) => exists e', reworded e e' /\ forall m, (n <= m)%nat -> r' m = Throw (EDeser e')
  | Throw _ => False
  | Abort => forall m, (n <= m)%nat -> r' m = Abort
  | UB => forall m, (n <= m)%nat -> r' m = UB
  | OutOfFuel => True
  end.

Lemma orel_ret : forall A (P : A -> A -> Prop) n a b, P a b -> orel P n (Ret a) (fun _ => Ret b).
Proof. intros A P n a b H. right. exists b. auto. Qed.
Lemma orel_fail : forall A (P : A -> A -> Prop) n s, orel P n (fail s) (fun _ => fail s).
Proof. intros A P n s. right. exists s. split; [left; reflexivity|reflexivity]. Qed.
Lemma orel_fail_code : forall A (P : A -> A -> Prop) n s c, orel P n (fail_code s c) (fun _ => fail_code s c).
Proof. intros. apply orel_fail. Qed.
Ltac ofail := match goal with |- orel _ _ (fail_code _ _) _ => apply orel_fail_code | |- orel _ _ (fail _) _ => apply orel_fail end.
Lemma orel_S : forall A (P : A -> A -> Prop) n r r', orel P n r (fun m => r' (S m)) -> orel P (S n) r r'.
Proof.
  intros A P n r r' [[O H]|H].
  - left. split; [assumption|]. intros [|m] L; [lia|]. apply H. lia.
  - right. destruct r as [a|[]| | |]; try assumption.
    + destruct H as (b & Pb & H). exists b. split; [assumption|]. intros [|m] L; [lia|]. apply H. lia.
    + destruct H as (e & We & H). exists e. split; [assumption|]. intros [|m] L; [lia|]. apply H. lia.
    + intros [|m] L; [lia|]. apply H. lia.
    + intros [|m] L; [lia|]. apply H. lia.
Qed.
Lemma orel_P : forall A (P : A -> A -> Prop) n r r', orel P (S n) r r' -> orel P n r (fun m => r' (S m)).
Proof.
  intros A P n r r' [[O H]|H].
  - left. split; [assumption|]. intros m L. apply H. lia.
  - right. destruct r as [a|[]| | |]; try assumption.
    + destruct H as (b & Pb & H). exists b. split; [assumption|]. intros m L. apply H. lia.
    + destruct H as (e & We & H). exists e. split; [assumption|]. intros m L. apply H. lia.
    + intros m L. apply H. lia.
    + intros m L. apply H. lia.
Qed.
Lemma orel_bind : forall A B (P : A -> A -> Prop) (Q : B -> B -> Prop) n r r' f f', orel P n r r' ->
  (forall a b, P a b -> orel Q n (f a) (fun m => f' m b)) -> orel Q n (bind r f) (fun m => bind (r' m) (f' m)).
Proof.
  intros A B P Q n r r' f f' [[O H]|H] K.
  { left. split; [assumption|]. intros m L. rewrite (H m L). reflexivity. }
  destruct r as [a|e| | |]; cbn [bind].
  - destruct H as (b & Pb & H). destruct (K a b Pb) as [[O K1]|K1].
    + left. split; [assumption|]. intros m L. rewrite (H m L). apply K1. assumption.
    + right. destruct (f a) as [x|[]| | |]; try assumption.
      * destruct K1 as (y & Qy & K1). exists y. split; [assumption|]. intros m L. rewrite (H m L). apply K1. assumption.
      * destruct K1 as (e & We & K1). exists e. split; [assumption|]. intros m L. rewrite (H m L). apply K1. assumption.
      * intros m L. rewrite (H m L). apply K1. assumption.
      * intros m L. rewrite (H m L). apply K1. assumption.
  - destruct e; try contradiction. destruct H as (e & We & H). right. exists e. split; [assumption|]. intros m L. rewrite (H m L). reflexivity.
  - right. intros m L. rewrite (H m L). reflexivity.
  - right. intros m L. rewrite (H m L). reflexivity.
  - right. exact I.
Qed.
Lemma orel_imp : forall A (P Q : A -> A -> Prop) n r r', (forall a b, P a b -> Q a b) -> orel P n r r' -> orel Q n r r'.
Proof.
  intros A P Q n r r' H [K|K]; [left; assumption|right]. destruct r; try assumption. destruct K as (b & Pb & K). exists b. auto.
Qed.

(** ** Reading on *)
Lemma read_tied : forall l st st', same_regs st st' -> tied (p_is st) (p_is st') l ->
  exists s1 s1', read_next cf st = Ret s1 /\ read_next cf st' = Ret s1' /\ same_regs s1 s1' /\ p_cur s1 = p_cur s1' /\ is_eof (p_is s1') = false /\
    match l with
    | [] => is_eof (p_is s1) = true /\ p_cur s1 = 0 /\ tied (p_is s1) (p_is s1') []
    | c :: l' => is_eof (p_is s1) = false /\ p_cur s1 = c /\ tied (p_is s1) (p_is s1') l'
    end.
Proof.
  intros l st st' Sr T. unfold read_next. inversion T as [i j i' D Z|i j c i' j' l' D G D' G' T']; subst.
  - destruct (zeros_step _ Z) as (j' & Z' & Dj). destruct (D (p_cur st)) as [c E]. rewrite E, Dj.
    assert (G : is_good j' = true /\ is_eof j' = false) by (destruct Z' as (src & pos & -> & _); split; reflexivity).
    destruct G as [G Ge]. rewrite G. eexists _, _. split; [reflexivity|]. split; [reflexivity|]. split; [exact Sr|].
    split; [reflexivity|]. split; [exact Ge|]. cbn [p_is p_cur]. pose proof (decode_false_eof _ _ _ _ _ _ E) as Ee.
    split; [assumption|]. split; [reflexivity|]. destruct (decode_at_eof (src_enc cf) (src_ck cf) i' 0 Ee) as (c2 & i2 & D2 & E2).
    apply td_end with i2; [|assumption]. intro cur. eapply decode_false_cur. eassumption.
  - rewrite D, D', G, G'. eexists _, _. split; [reflexivity|]. split; [reflexivity|]. split; [exact Sr|]. split; [reflexivity|].
    assert (NE : forall i, is_good i = true -> is_eof i = false).
    { intros k K. unfold is_good in K. destruct (is_eof k); [discriminate|reflexivity]. }
    split; [apply NE; assumption|]. split; [apply NE; assumption|]. split; [reflexivity|assumption].
Qed.

Lemma read_R : forall l st st', R l st st' -> exists s1 s1', read_next cf st = Ret s1 /\ read_next cf st' = Ret s1' /\
  match l with [] => is_eof (p_is s1) = true /\ p_cur s1 = 0 /\ R [] s1 s1' | c :: l' => is_eof (p_is s1) = false /\ p_cur s1 = c /\ R l' s1 s1' end.
Proof.
  intros l st st' (C & Sr & T & Pl & E). destruct (read_tied _ _ _ Sr T) as (s1 & s1' & A & B & S1 & C1 & E1 & M).
  exists s1, s1'. split; [assumption|]. split; [assumption|]. destruct l as [|c l].
  - destruct M as (M1 & M2 & M3). split; [assumption|]. split; [assumption|]. repeat (split; [assumption|]). split; [|assumption]. right. auto.
  - destruct M as (M1 & M2 & M3). split; [assumption|]. split; [assumption|]. repeat (split; [assumption|]). split; [|assumption].
    destruct Pl as [[_ [pre Pl]]|(_ & Pl & _)]; [|discriminate]. left. split; [assumption|].
    exists (pre ++ [p_cur st]). rewrite <- app_assoc, M2. exact Pl.
Qed.
Lemma read_rel : forall n st st', RR st st' -> orel RR n (read_next cf st) (fun _ => read_next cf st').
Proof.
  intros n st st' [l H]. destruct (read_R _ _ _ H) as (s1 & s1' & -> & -> & M). apply orel_ret.
  destruct l; destruct M as (_ & _ & M); eexists; exact M.
Qed.

Lemma RR_cur : forall st st', RR st st' -> p_cur st' = p_cur st.
Proof. intros st st' (l & H & _). congruence. Qed.
Lemma RR_int : forall st st', RR st st' -> p_int st' = p_int st.
Proof. intros st st' (l & _ & (_ & H & _) & _). congruence. Qed.
Lemma RR_neg : forall st st', RR st st' -> p_neg st' = p_neg st.
Proof. intros st st' (l & _ & (H & _) & _). congruence. Qed.
Lemma RR_flt : forall st st', RR st st' -> p_flt st' = p_flt st.
Proof. intros st st' (l & _ & (_ & _ & H) & _). congruence. Qed.
Lemma RR_set_neg : forall st st' b, RR st st' -> RR (set_neg st b) (set_neg st' b).
Proof. intros st st' b (l & C & (S1 & S2 & S3) & T). exists l. split; [exact C|]. split; [repeat split; assumption|]. exact T. Qed.
Lemma RR_set_int : forall st st' b, RR st st' -> RR (set_int st b) (set_int st' b).
Proof. intros st st' b (l & C & (S1 & S2 & S3) & T). exists l. split; [exact C|]. split; [repeat split; assumption|]. exact T. Qed.
Lemma RR_set_flt : forall st st' b, RR st st' -> RR (set_flt st b) (set_flt st' b).
Proof. intros st st' b (l & C & (S1 & S2 & S3) & T). exists l. split; [exact C|]. split; [repeat split; assumption|]. exact T. Qed.

(** ** Blanks *)
Lemma ws_rel : forall n st st', RR st st' -> orel RR n (skip_ws cf n st) (fun m => skip_ws cf m st').
Proof.
  induction n as [|n IH]; intros st st' H; [right; exact I|]. apply orel_S. cbn [skip_ws]. rewrite (RR_cur _ _ H).
  destruct (is_space (p_cur st)); [|apply orel_ret; assumption].
  apply orel_bind with (P := RR) (r' := fun _ => read_next cf st') (f' := fun m st => skip_ws cf m st); [apply read_rel; assumption|apply IH].
Qed.

Lemma line_zeros : forall m st, zeros (p_is st) -> line_comment cf m st = OutOfFuel.
Proof.
  induction m as [|m IH]; intros st Z; [reflexivity|]. cbn [line_comment]. unfold read_next.
  destruct (zeros_step _ Z) as (j & Zj & D). rewrite D. assert (is_good j = true) as -> by (destruct Zj as (? & ? & -> & _); reflexivity).
  cbn [bind p_cur p_is]. change ((0 =? c_nl) || (0 =? c_cr)) with false. cbv iota.
  assert (is_eof j = false) as -> by (destruct Zj as (? & ? & -> & _); reflexivity). apply IH. exact Zj.
Qed.
Lemma block_zeros : forall m st, zeros (p_is st) -> block_comment cf m st = OutOfFuel.
Proof.
  induction m as [|m IH]; intros st Z; [reflexivity|]. cbn [block_comment]. unfold read_next at 1.
  destruct (zeros_step _ Z) as (j & Zj & D). rewrite D. assert (is_good j = true) as -> by (destruct Zj as (? & ? & -> & _); reflexivity).
  cbn [bind p_cur p_is]. change (0 =? c_star) with false. cbv iota.
  assert (is_eof j = false) as -> by (destruct Zj as (? & ? & -> & _); reflexivity). apply IH. exact Zj.
Qed.
Lemma tied_nil : forall i j, tied i j [] -> zeros j.
Proof. intros i j H. inversion H. assumption. Qed.

Lemma nl_iff : forall c, (c =? c_nl) || (c =? c_cr) = true <-> newline c.
Proof. intro c. unfold newline. lia. Qed.

Lemma line_rel : forall n l st st' dn, R l st st' -> Forall (fun c => ~ newline c) dn -> (exists pre, l0 = pre ++ 47 :: 47 :: dn ++ l) ->
  orel (fun a b => fst a = true /\ fst b = true /\ RR (snd a) (snd b)) n (line_comment cf n st) (fun m => line_comment cf m st').
Proof.
  induction n as [|n IH]; intros l st st' dn H Nl E; [right; exact I|]. destruct l as [|c l].
  - left. destruct E as [pre E]. rewrite app_nil_r in E. split; [exists pre, (47 :: 47 :: dn); split; [assumption|constructor; assumption]|].
    intros m _. apply line_zeros. destruct H as (_ & _ & T & _). apply (tied_nil _ _ T).
  - apply orel_S. cbn [line_comment]. destruct (read_R _ _ _ H) as (s1 & s1' & -> & -> & M1 & M2 & M3). cbn [bind].
    pose proof (RR_cur _ _ (R_RR _ _ _ M3)) as Cr. rewrite Cr, M2. destruct ((c =? c_nl) || (c =? c_cr)) eqn:En.
    + apply orel_ret. cbn [fst snd]. split; [reflexivity|]. split; [reflexivity|]. eexists. exact M3.
    + rewrite M1. destruct M3 as (M3 & M4 & M5 & M6 & M7). rewrite M7. apply (IH l s1 s1' (dn ++ [c])).
      * repeat (split; [assumption|]). assumption.
      * apply Forall_app. split; [assumption|]. constructor; [|constructor]. intro K. apply nl_iff in K. congruence.
      * destruct E as [pre E]. exists pre. rewrite <- app_assoc. exact E.
Qed.

Lemma body_snoc : forall b c, comment_body b -> c <> 42 -> comment_body (b ++ [c]).
Proof.
  intros b c H N. induction H as [|d b D H IH|d b D H IH]; cbn [app].
  - constructor; [assumption|constructor].
  - constructor; assumption.
  - constructor; assumption.
Qed.
Lemma body_snoc2 : forall b c, comment_body b -> c <> 47 -> comment_body (b ++ [42; c]).
Proof.
  intros b c H N. induction H as [|d b D H IH|d b D H IH]; cbn [app].
  - apply cb_star; [assumption|constructor].
  - constructor; assumption.
  - apply cb_star; assumption.
Qed.

Lemma block_rel : forall n l st st' dn, R l st st' -> comment_body dn -> (exists pre, l0 = pre ++ 47 :: 42 :: dn ++ l) ->
  orel RR n (block_comment cf n st) (fun m => block_comment cf m st').
Proof.
  induction n as [|n IH]; intros l st st' dn H Nl E; [right; exact I|]. destruct l as [|c l].
  { left. destruct E as [pre E]. rewrite app_nil_r in E. split; [exists pre, (47 :: 42 :: dn); split; [assumption|constructor; assumption]|].
    intros m _. apply block_zeros. destruct H as (_ & _ & T & _). apply (tied_nil _ _ T). }
  destruct (read_R _ _ _ H) as (s1 & s1' & A1 & A1' & M1 & M2 & M3). pose proof (RR_cur _ _ (R_RR _ _ _ M3)) as Cr.
  apply orel_S. cbn [block_comment]. rewrite A1, A1'. cbn [bind]. rewrite Cr, M2. destruct (N.eqb_spec c c_star) as [->|Ns].
  - destruct l as [|d l].
    { left. split.
      { destruct E as [pre E]. exists pre, (47 :: 42 :: dn ++ [42]). split; [assumption|constructor; assumption]. }
      intros m _. destruct (read_R _ _ _ M3) as (s2 & s2' & _ & -> & _ & M5 & M4). cbn [bind].
      rewrite (RR_cur _ _ (R_RR _ _ _ M4)), M5. change (0 =? c_slash) with false. cbv iota.
      destruct M4 as (_ & _ & T4 & _ & E4). rewrite E4. apply block_zeros. apply (tied_nil _ _ T4). }
    destruct (read_R _ _ _ M3) as (s2 & s2' & -> & -> & K1 & K2 & K3). cbn [bind].
    rewrite (RR_cur _ _ (R_RR _ _ _ K3)), K2. destruct (N.eqb_spec d c_slash) as [->|Nd].
    + apply read_rel. eexists. exact K3.
    + rewrite K1. assert (K7 := K3). destruct K7 as (_ & _ & _ & _ & K7). rewrite K7.
      apply (IH l s2 s2' (dn ++ [42; d])); [assumption| |].
      * apply body_snoc2; assumption.
      * destruct E as [pre E]. exists pre. rewrite <- app_assoc. exact E.
  - rewrite M1. assert (M7 := M3). destruct M7 as (_ & _ & _ & _ & M7). rewrite M7. apply (IH l s1 s1' (dn ++ [c])); [assumption| |].
    + apply body_snoc; assumption.
    + destruct E as [pre E]. exists pre. rewrite <- app_assoc. exact E.
Qed.

Lemma spaces_rel : forall n st st', RR st st' -> orel RR n (skip_spaces cf n st) (fun m => skip_spaces cf m st').
Proof.
  induction n as [|n IH]; intros st st' H; [right; exact I|]. apply orel_S. cbn [skip_spaces].
  apply orel_bind with (P := RR) (r' := fun m => skip_ws cf (S m) st')
    (f' := fun m st => if p_cur st =? c_slash then let* st := read_next cf st in
        if p_cur st =? c_slash then
          let* r := line_comment cf (S m) st in
          if fst r then skip_spaces cf m (snd r) else Ret (snd r)
        else if p_cur st =? c_star then
          let* st := block_comment cf (S m) st in
          skip_spaces cf m st
        else fail "unexpected character '/'"
      else Ret st).
  { apply (orel_P _ _ _ _ (fun m => skip_ws cf m st')). apply ws_rel. assumption. }
  clear st st' H. intros st st' H. rewrite (RR_cur _ _ H). destruct (N.eqb_spec (p_cur st) c_slash) as [Es|]; [|apply orel_ret; assumption].
  destruct H as [l H]. destruct l as [|c l].
  { destruct (read_R _ _ _ H) as (s1 & s1' & -> & -> & M1 & M2 & M3). cbn [bind]. rewrite (RR_cur _ _ (R_RR _ _ _ M3)), M2.
    change (0 =? c_slash) with false. change (0 =? c_star) with false. cbv iota. ofail. }
  destruct (read_R _ _ _ H) as (s1 & s1' & -> & -> & M1 & M2 & M3). cbn [bind]. rewrite (RR_cur _ _ (R_RR _ _ _ M3)), M2.
  assert (Ex : exists pre, l0 = pre ++ c_slash :: c :: l).
  { destruct H as (_ & _ & _ & [[_ [pre Pl]]|(_ & _ & Pl)] & _).
    - exists pre. rewrite <- Es. exact Pl.
    - exfalso. rewrite Pl in Es. discriminate. }
  destruct (N.eqb_spec c c_slash) as [->|Ns].
  - eapply orel_bind with (r' := fun m => line_comment cf (S m) s1') (f' := fun m (r : bool * pst) => if fst r then skip_spaces cf m (snd r) else Ret (snd r)).
    + apply (orel_P _ _ _ _ (fun m => line_comment cf m s1')). apply (line_rel _ l) with (dn := []); [assumption|constructor|assumption].
    + intros a b (Fa & Fb & Hs). rewrite Fa, Fb. apply IH. assumption.
  - destruct (N.eqb_spec c c_star) as [->|Nt]; [|ofail].
    eapply orel_bind with (r' := fun m => block_comment cf (S m) s1') (f' := fun m st => skip_spaces cf m st).
    + apply (orel_P _ _ _ _ (fun m => block_comment cf m s1')). apply (block_rel _ l) with (dn := []); [assumption|constructor|assumption].
    + intros a b Hs. apply IH. assumption.
Qed.

(** ** Tokens *)
Definition TT {X} (a b : X * pst) : Prop := fst a = fst b /\ RR (snd a) (snd b).

Lemma literal_rel : forall n w text t st st', RR st st' -> orel TT n (scan_literal cf w text t st) (fun _ => scan_literal cf w text t st').
Proof.
  intros n w text t. induction text as [|c text IH]; intros st st' H; cbn [scan_literal].
  - apply orel_ret. split; [reflexivity|assumption].
  - rewrite (RR_cur _ _ H). destruct (c =? narrow (src_ck cf) (p_cur st)); [|ofail].
    apply orel_bind with (P := RR) (r' := fun _ => read_next cf st') (f' := fun _ st => scan_literal cf w text t st); [apply read_rel; assumption|apply IH].
Qed.

Lemma expd_rel : forall n ex st st', RR st st' -> orel TT n (exp_digits cf n ex st) (fun m => exp_digits cf m ex st').
Proof.
  induction n as [|n IH]; intros ex st st' H; [right; exact I|]. apply orel_S. cbn [exp_digits].
  eapply orel_bind with (P := RR) (r' := fun _ => read_next cf st') (f' := fun m st => if is_digit cf (p_cur st)
      then exp_digits cf m (u32 (u32 (ex * 10) + u32_sub (p_cur st) 48)) st else Ret (ex, st)); [apply read_rel; assumption|].
  intros a b K. rewrite (RR_cur _ _ K). destruct (is_digit cf (p_cur a)); [apply IH; assumption|]. apply orel_ret. split; [reflexivity|assumption].
Qed.

Lemma exponent_rel : forall n st st', RR st st' -> orel TT n (scan_exponent cf n st) (fun m => scan_exponent cf m st').
Proof.
  intros n st st' H. unfold scan_exponent.
  eapply orel_bind with (r' := fun _ => read_next cf st') (f' := fun m st =>
    if negb ((is_digit cf (p_cur st) && negb (p_cur st =? c_0)) || (p_cur st =? c_minus) || (p_cur st =? c_plus))
    then fail_code "invalid exponent number, got" (p_cur st)
    else
    let* st1 := if (p_cur st =? c_plus) || (p_cur st =? c_minus) then read_next cf st else Ret st in
    let* r := exp_digits cf m (u32_sub (p_cur st1) 48) st1 in
    let '(ex, st1) := r in
    Ret (Tfloat, set_flt st1 (fmul (p_flt st1) (power_of (if p_cur st =? c_minus then f64_tenth else f64_of_Z 10) ex)))); [apply read_rel; assumption|].
  clear st st' H. intros st st' H. rewrite (RR_cur _ _ H). cbv zeta.
  destruct (negb _); [ofail|].
  eapply orel_bind with (P := RR) (r' := fun _ => if (p_cur st =? c_plus) || (p_cur st =? c_minus) then read_next cf st' else Ret st')
    (f' := fun m st1 => let* r := exp_digits cf m (u32_sub (p_cur st1) 48) st1 in
    let '(ex, st1) := r in
    Ret (Tfloat, set_flt st1 (fmul (p_flt st1) (power_of (if p_cur st =? c_minus then f64_tenth else f64_of_Z 10) ex)))).
  { destruct ((p_cur st =? c_plus) || (p_cur st =? c_minus)); [apply read_rel; assumption|apply orel_ret; assumption]. }
  intros a b K. rewrite (RR_cur _ _ K).
  eapply orel_bind with (r' := fun m => exp_digits cf m (u32_sub (p_cur a) 48) b) (f' := fun m (r : N * pst) =>
    let '(ex, st1) := r in
    Ret (Tfloat, set_flt st1 (fmul (p_flt st1) (power_of (if p_cur st =? c_minus then f64_tenth else f64_of_Z 10) ex)))); [apply expd_rel; assumption|].
  intros [ex a1] [ex' b1] [Q1 Q2]. cbn [fst snd] in *. subst ex'. rewrite (RR_flt _ _ Q2). apply orel_ret. split; [reflexivity|]. apply RR_set_flt. assumption.
Qed.

Lemma frac_rel : forall n fr st st', RR st st' -> orel TT n (frac_digits cf n fr st) (fun m => frac_digits cf m fr st').
Proof.
  induction n as [|n IH]; intros fr st st' H; [right; exact I|]. apply orel_S. cbn [frac_digits].
  eapply orel_bind with (r' := fun _ => read_next cf st') (f' := fun m st => 
      if (p_cur st =? c_e) || (p_cur st =? c_E) then scan_exponent cf (S m) st
      else if is_digit cf (p_cur st) then
        frac_digits cf m (fmul fr f64_tenth)
          (set_flt st (fadd (p_flt st) (fmul (f64_of_Z (Z.of_N (u32_sub (p_cur st) 48))) (fmul fr f64_tenth))))
      else Ret (Tfloat, st)); [apply read_rel; assumption|].
  intros a b K. rewrite (RR_cur _ _ K), (RR_flt _ _ K). cbv zeta. destruct (_ || _).
  { apply (orel_P _ _ _ _ (fun m => scan_exponent cf m b)). apply exponent_rel. assumption. }
  destruct (is_digit cf (p_cur a)); [apply IH; apply RR_set_flt; assumption|]. apply orel_ret. split; [reflexivity|assumption].
Qed.

Lemma float_rel : forall n st st', RR st st' -> orel TT n (scan_float cf n st) (fun m => scan_float cf m st').
Proof.
  intros n st st' H. unfold scan_float. cbv zeta. rewrite (RR_int _ _ H). assert (K := RR_set_flt _ _ (f64_of_Z (p_int st)) H).
  rewrite (RR_cur _ _ K). destruct (_ || _); [apply exponent_rel; assumption|].
  eapply orel_bind with (r' := fun _ => read_next cf (set_flt st' (f64_of_Z (p_int st)))) (f' := fun m st => 
    if negb (is_digit cf (p_cur st)) then fail_code "invalid float number, got" (p_cur st)
    else
      frac_digits cf m f64_tenth
        (set_flt st (fadd (p_flt st)
                          (fmul (f64_of_Z (Z.of_N (u32_sub (p_cur st) 48))) f64_tenth)))); [apply read_rel; assumption|].
  intros a b J. rewrite (RR_cur _ _ J), (RR_flt _ _ J). destruct (negb _); [ofail|]. apply frac_rel. apply RR_set_flt. assumption.
Qed.

Lemma chk_rel : forall n z, orel eq n (chk64 z) (fun _ => chk64 z).
Proof. intros n z. unfold chk64. match goal with |- context [if ?b then _ else _] => destruct b end; [apply orel_ret; reflexivity|right; auto]. Qed.

Lemma int_rel : forall n st st', RR st st' -> orel TT n (int_digits cf n st) (fun m => int_digits cf m st').
Proof.
  induction n as [|n IH]; intros st st' H; [right; exact I|]. apply orel_S. cbn [int_digits].
  eapply orel_bind with (r' := fun _ => read_next cf st') (f' := fun m st =>
      if (p_cur st =? c_dot) || (p_cur st =? c_e) || (p_cur st =? c_E) then scan_float cf (S m) st
      else if is_digit cf (p_cur st) then
        let* z := chk64 (p_int st * 10)%Z in
        let* z := chk64 (z + Z.of_N (u32_sub (p_cur st) 48))%Z in
        int_digits cf m (set_int st z)
      else Ret (Tint, st)); [apply read_rel; assumption|].
  intros a b K. rewrite (RR_cur _ _ K), (RR_int _ _ K). cbv zeta. destruct (_ || _).
  { apply (orel_P _ _ _ _ (fun m => scan_float cf m b)). apply float_rel. assumption. }
  destruct (is_digit cf (p_cur a)); [|apply orel_ret; split; [reflexivity|assumption]].
  eapply orel_bind with (r' := fun _ => chk64 _) (f' := fun m z => let* z := chk64 (z + Z.of_N (u32_sub (p_cur a) 48))%Z in
        int_digits cf m (set_int b z)); [apply chk_rel|]. intros z _ <-.
  eapply orel_bind with (r' := fun _ => chk64 _) (f' := fun m z => int_digits cf m (set_int b z)); [apply chk_rel|]. intros y _ <-.
  apply IH. apply RR_set_int. assumption.
Qed.

Lemma number_rel : forall n st st', RR st st' -> orel TT n (scan_number cf n st) (fun m => scan_number cf m st').
Proof.
  intros n st st' H. unfold scan_number. cbv zeta. assert (K := RR_set_int _ _ 0%Z (RR_set_neg _ _ false H)).
  set (s := set_int (set_neg st false) 0) in *. set (s' := set_int (set_neg st' false) 0) in *. rewrite (RR_cur _ _ K).
  eapply orel_bind with (P := RR) (r' := fun _ => if (p_cur s =? c_minus) || (p_cur s =? c_plus)
    then read_next cf (set_neg s' (p_cur s =? c_minus)) else Ret s') (f' := fun m st =>
  if p_cur st =? c_0 then
    let* st := read_next cf st in
    if p_cur st =? c_dot then scan_float cf m st
    else if (p_cur st =? c_e) || (p_cur st =? c_E) then fail "invalid exponent"
    else Ret (Tint, st)
  else scan_integer cf m st).
  { destruct (_ || _); [apply read_rel; apply RR_set_neg; assumption|apply orel_ret; assumption]. }
  intros a b J. rewrite (RR_cur _ _ J). destruct (p_cur a =? c_0).
  - eapply orel_bind with (r' := fun _ => read_next cf b) (f' := fun m st => if p_cur st =? c_dot then scan_float cf m st
    else if (p_cur st =? c_e) || (p_cur st =? c_E) then fail "invalid exponent"
    else Ret (Tint, st)); [apply read_rel; assumption|]. intros a1 b1 J1. rewrite (RR_cur _ _ J1).
    destruct (p_cur a1 =? c_dot); [apply float_rel; assumption|]. destruct (_ || _); [ofail|].
    apply orel_ret. split; [reflexivity|assumption].
  - unfold scan_integer. rewrite (RR_cur _ _ J). destruct (_ && _); [right; auto|]. apply int_rel. apply RR_set_int. assumption.
Qed.

Lemma RR_eof : forall st st', RR st st' -> is_eof (p_is st') = false /\ (is_eof (p_is st) = true -> p_cur st = 0).
Proof.
  intros st st' (l & _ & _ & _ & Pl & E). split; [assumption|]. intro Q. destruct Pl as [[P _]|(_ & _ & P)]; congruence.
Qed.

Lemma scan_rel : forall n st st', RR st st' -> orel TT n (scan cf n st) (fun m => scan cf m st').
Proof.
  intros n st st' H. unfold scan.
  eapply orel_bind with (r' := fun m => skip_spaces cf m st') (f' := fun m st => if is_eof (p_is st) then Ret (Teoi, st)
  else
    match punct (p_cur st) with
    | Some t => let* st := read_next cf st in Ret (t, st)
    | None =>
        if p_cur st =? c_t then scan_literal cf lit_true lit_true Ttrue st
        else if p_cur st =? c_f then scan_literal cf lit_false lit_false Tfalse st
        else if p_cur st =? c_n then scan_literal cf lit_null lit_null Tnull st
        else if p_cur st =? c_quote then Ret (Tstring, st)
        else if (p_cur st =? c_minus) || (p_cur st =? c_plus) || ((48 <=? p_cur st) && (p_cur st <=? 57))
        then scan_number cf m st
        else if p_cur st =? 0 then Ret (Teoi, st)
        else fail_code "unexpected character" (p_cur st)
    end); [apply spaces_rel; assumption|].
  clear st st' H. intros st st' H. cbv zeta. destruct (RR_eof _ _ H) as [E E0]. rewrite E, (RR_cur _ _ H).
  destruct (is_eof (p_is st)).
  { rewrite (E0 eq_refl). cbn -[read_next]. apply orel_ret. split; [reflexivity|assumption]. }
  destruct (punct (p_cur st)) as [t|].
  { eapply orel_bind with (r' := fun _ => read_next cf st') (f' := fun _ s => Ret (t, s)); [apply read_rel; assumption|].
    intros a b K. apply orel_ret. split; [reflexivity|assumption]. }
  repeat (match goal with |- context [if ?b then _ else _] => destruct b end; [first [apply literal_rel; assumption|apply number_rel; assumption|
    apply orel_ret; split; [reflexivity|assumption]]|]). ofail.
Qed.

Lemma hex_rel : forall n fs code st st', RR st st' -> orel TT n (read_hex cf fs code st) (fun _ => read_hex cf fs code st').
Proof.
  intros n fs. induction fs as [|f fs IH]; intros code st st' H; cbn [read_hex]; [apply orel_ret; split; [reflexivity|assumption]|].
  eapply orel_bind with (r' := fun _ => read_next cf st') (f' := fun _ st => match hex_val (p_cur st) with
      | Some h => read_hex cf fs (code + N.shiftl h f) st
      | None => fail_code "'\u' must be followed by 4 hex digits, but got" (p_cur st)
      end); [apply read_rel; assumption|]. intros a b K. rewrite (RR_cur _ _ K). destruct (hex_val (p_cur a)); [apply IH; assumption|ofail].
Qed.

Lemma u_rel : forall n st st', RR st st' -> orel TT n (read_u cf st) (fun _ => read_u cf st').
Proof.
  intros n st st' H. unfold read_u, read_escaped.
  eapply orel_bind with (r' := fun _ => read_hex cf [12; 8; 4; 0] 0 st') (f' := fun _ (r : N * pst) => let '(cp, st) := r in
  if is_lead_surrogate cp then
    let* st := read_next cf st in
    if negb (p_cur st =? c_bslash) then fail_code "lead surrogate must be followed by trail surrogate, but got" (p_cur st)
    else
      let* st := read_next cf st in
      if negb (p_cur st =? c_u) then fail_code "lead surrogate must be followed by trail surrogate, but got" (p_cur st)
      else
        let* r := read_hex cf [12; 8; 4; 0] 0 st in
        let '(trail, st) := r in
        if negb (is_trail_surrogate trail)
        then fail_code "surrogate U+D800...U+DBFF must be followed by U+DC00...U+DFFF, but got" trail
        else Ret (decode_surrogates cp trail, st)
  else Ret (cp, st)); [apply hex_rel; assumption|].
  intros [cp a] [cp' b] [Q K]. cbn [fst snd] in *. subst cp'. destruct (is_lead_surrogate cp); [|apply orel_ret; split; [reflexivity|assumption]].
  cbv zeta. eapply orel_bind with (r' := fun _ => read_next cf b) (f' := fun _ st => if negb (p_cur st =? c_bslash) then _ else
      let* st := read_next cf st in
      if negb (p_cur st =? c_u) then _
      else
        let* r := read_hex cf [12; 8; 4; 0] 0 st in
        let '(trail, st) := r in
        if negb (is_trail_surrogate trail)
        then _
        else Ret (decode_surrogates cp trail, st)); [apply read_rel; assumption|].
  clear a b K. intros a b K. rewrite (RR_cur _ _ K). destruct (negb _); [ofail|].
  eapply orel_bind with (r' := fun _ => read_next cf b) (f' := fun _ st => if negb (p_cur st =? c_u) then _
      else
        let* r := read_hex cf [12; 8; 4; 0] 0 st in
        let '(trail, st) := r in
        if negb (is_trail_surrogate trail)
        then _
        else Ret (decode_surrogates cp trail, st)); [apply read_rel; assumption|].
  clear a b K. intros a b K. rewrite (RR_cur _ _ K). destruct (negb _); [ofail|].
  eapply orel_bind with (r' := fun _ => read_hex cf [12; 8; 4; 0] 0 b) (f' := fun _ (r : N * pst) => 
        let '(trail, st) := r in
        if negb (is_trail_surrogate trail)
        then _
        else Ret (decode_surrogates cp trail, st)); [apply hex_rel; assumption|].
  intros [t a1] [t' b1] [Q J]. cbn [fst snd] in *. subst t'. destruct (negb _); [ofail|]. apply orel_ret. split; [reflexivity|assumption].
Qed.

(** ** Values; the first component is what the filled object holds *)
Definition prel {X A} (P : A -> A -> Prop) (n : nat) (p : X * outcome A) (p' : nat -> X * outcome A) : Prop :=
  (open_end /\ forall m, (n <= m)%nat -> exists x, p' m = (x, OutOfFuel)) \/
  match snd p with
  | Ret a => exists b, P a b /\ forall m, (n <= m)%nat -> p' m = (fst p, Ret b)
  | Throw (EDeser e) => exists e', reworded e e' /\ forall m, (n <= m)%nat -> p' m = (fst p, Throw (EDeser e'))
  | Throw _ => False
  | Abort => forall m, (n <= m)%nat -> p' m = (fst p, Abort)
  | UB => forall m, (n <= m)%nat -> p' m = (fst p, UB)
  | OutOfFuel => True
  end.

Lemma prel_lift : forall X A (P : A -> A -> Prop) n (x : X) r r', orel P n r r' -> prel P n (x, r) (fun m => (x, r' m)).
Proof.
  intros X A P n x r r' [[O H]|H].
  - left. split; [assumption|]. intros m L. exists x. rewrite (H m L). reflexivity.
  - right. cbn [fst snd]. destruct r as [a|[]| | |]; try assumption.
    + destruct H as (b & Pb & H). exists b. split; [assumption|]. intros m L. rewrite (H m L). reflexivity.
    + destruct H as (e & We & H). exists e. split; [assumption|]. intros m L. rewrite (H m L). reflexivity.
    + intros m L. rewrite (H m L). reflexivity.
    + intros m L. rewrite (H m L). reflexivity.
Qed.
Lemma prel_ext : forall X A (P : A -> A -> Prop) n (p : X * outcome A) p' q, (forall m, (n <= m)%nat -> p' m = q m) -> prel P n p q -> prel P n p p'.
Proof.
  intros X A P n [x r] p' q E [[O H]|H].
  - left. split; [assumption|]. intros m L. rewrite (E m L). auto.
  - right. cbn [fst snd] in *. destruct r as [a|[]| | |]; try assumption.
    + destruct H as (b & Pb & H). exists b. split; [assumption|]. intros m L. rewrite (E m L). auto.
    + destruct H as (e & We & H). exists e. split; [assumption|]. intros m L. rewrite (E m L). auto.
    + intros m L. rewrite (E m L). auto.
    + intros m L. rewrite (E m L). auto.
Qed.
Lemma prel_S : forall X A (P : A -> A -> Prop) n (p : X * outcome A) p', prel P n p (fun m => p' (S m)) -> prel P (S n) p p'.
Proof.
  intros X A P n [x r] p' [[O H]|H].
  - left. split; [assumption|]. intros [|m] L; [lia|]. apply H. lia.
  - right. cbn [fst snd] in *. destruct r as [a|[]| | |]; try assumption.
    + destruct H as (b & Pb & H). exists b. split; [assumption|]. intros [|m] L; [lia|]. apply H. lia.
    + destruct H as (e & We & H). exists e. split; [assumption|]. intros [|m] L; [lia|]. apply H. lia.
    + intros [|m] L; [lia|]. apply H. lia.
    + intros [|m] L; [lia|]. apply H. lia.
Qed.
Lemma prel_P : forall X A (P : A -> A -> Prop) n (p : X * outcome A) p', prel P (S n) p p' -> prel P n p (fun m => p' (S m)).
Proof.
  intros X A P n [x r] p' [[O H]|H].
  - left. split; [assumption|]. intros m L. apply H. lia.
  - right. cbn [fst snd] in *. destruct r as [a|[]| | |]; try assumption.
    + destruct H as (b & Pb & H). exists b. split; [assumption|]. intros m L. apply H. lia.
    + destruct H as (e & We & H). exists e. split; [assumption|]. intros m L. apply H. lia.
    + intros m L. apply H. lia.
    + intros m L. apply H. lia.
Qed.
Lemma prel_fail : forall X A (P : A -> A -> Prop) n (x : X) s, prel P n (x, fail s) (fun _ => (x, fail s)).
Proof. intros. right. exists s. split; [left; reflexivity|reflexivity]. Qed.
Lemma prel_fail_code : forall X A (P : A -> A -> Prop) n (x : X) s c, prel P n (x, fail_code s c) (fun _ => (x, fail_code s c)).
Proof. intros. apply prel_fail. Qed.
Ltac pfail := match goal with |- prel _ _ (_, fail_code _ _) _ => apply prel_fail_code | |- prel _ _ (_, fail _) _ => apply prel_fail end.
Lemma prel_ret : forall X A (P : A -> A -> Prop) n (x : X) a b, P a b -> prel P n (x, Ret a) (fun _ => (x, Ret b)).
Proof. intros X A P n x a b H. right. exists b. auto. Qed.

(** splits on the result of a called function: remains the case it returned *)
Ltac ostep H := destruct H as [[?O H]|H];
  [left; split; [assumption|]; let m := fresh "m" in let L := fresh "L" in intros m L; rewrite (H m L); cbn [stop]; eexists; reflexivity|];
  match type of H with match ?r with Ret _ => _ | _ => _ end => destruct r as [?a|[]| | |]; try contradiction;
  [ | destruct H as (?e & ?We & H); right; cbn [fst snd stop]; eexists; split; [eassumption|]; intros m L; rewrite (H m L); reflexivity
    | right; cbn [fst snd stop]; intros m L; rewrite (H m L); reflexivity
    | right; cbn [fst snd stop]; intros m L; rewrite (H m L); reflexivity | right; exact I ]
  end; destruct H as (?b & ?K & H); eapply prel_ext; [intros m L; rewrite (H m L); reflexivity|]; cbn beta iota; clear H.
Ltac pstep H := destruct H as [[?O H]|H];
  [left; split; [assumption|]; let m := fresh "m" in let L := fresh "L" in let x := fresh "x" in
    intros m L; destruct (H m L) as [x ->]; cbn [stop]; eexists; reflexivity|];
  match type of H with match snd ?r with Ret _ => _ | _ => _ end => destruct r as [?x [?a|[]| | |]]; cbn [fst snd] in H; try contradiction;
  [ | destruct H as (?e & ?We & H); right; cbn [fst snd stop]; eexists; split; [eassumption|]; intros m L; rewrite (H m L); reflexivity
    | right; cbn [fst snd stop]; intros m L; rewrite (H m L); reflexivity
    | right; cbn [fst snd stop]; intros m L; rewrite (H m L); reflexivity | right; exact I ]
  end; destruct H as (?b & ?K & H); eapply prel_ext; [intros m L; rewrite (H m L); reflexivity|]; cbn beta iota; clear H.

Lemma string_rel : forall n o st st', RR st st' -> prel RR n (scan_string cf n o st) (fun m => scan_string cf m o st').
Proof.
  induction n as [|n IH]; intros o st st' H; [right; exact I|]. apply prel_S. cbn [scan_string].
  pose proof (read_rel n _ _ H) as K. ostep K. clear st st' H. rename a into st, b into st', K0 into H.
  destruct (RR_eof _ _ H) as [E E0]. rewrite E, (RR_cur _ _ H). cbv zeta. destruct (is_eof (p_is st)).
  { rewrite (E0 eq_refl). cbn [N.eqb N.leb]. right. eexists. split; [right; split; reflexivity|reflexivity]. }
  destruct (p_cur st =? c_quote); [apply prel_lift, read_rel; assumption|]. destruct (p_cur st <=? 31); [pfail|].
  destruct (p_cur st =? c_bslash).
  - pose proof (read_rel n _ _ H) as K. ostep K. rewrite (RR_cur _ _ K0). destruct (simple_escape (p_cur a)); [apply IH; assumption|].
    destruct (p_cur a =? c_u); [|pfail]. pose proof (u_rel n _ _ K0) as K. ostep K. destruct a0 as [cp a0], b0 as [cp' b0].
    destruct K1 as [Q K1]. cbn [fst snd] in Q, K1. subst cp'. cbv zeta. destruct (os_fail _); [pfail|apply IH; assumption].
  - destruct (os_fail _); [pfail|apply IH; assumption].
Qed.

Lemma get_string_rel : forall n st st', RR st st' -> prel RR n (get_string cf n st) (fun m => get_string cf m st').
Proof.
  intros n st st' H. unfold get_string. pose proof (string_rel n (mkOs [] false) _ _ H) as K. pstep K. apply prel_ret. assumption.
Qed.

Lemma getint_rel : forall n st st', RR st st' -> orel eq n (get_integer st) (fun _ => get_integer st').
Proof.
  intros n st st' H. unfold get_integer. rewrite (RR_neg _ _ H), (RR_int _ _ H). destruct (p_neg st); [apply chk_rel|apply orel_ret; reflexivity].
Qed.

Lemma rel_S : forall X (g : nat -> pst -> outcome (X * pst)), (forall n st st', RR st st' -> orel TT n (g n st) (fun m => g m st')) ->
  forall n st st', RR st st' -> orel TT n (g (S n) st) (fun m => g (S m) st').
Proof. intros X g H n st st' K. apply (orel_P _ _ _ _ (fun m => g m st')). apply H. assumption. Qed.

Lemma values_rel : forall n,
  (forall c tok st st', RR st st' -> prel RR n (do_parse cf n c tok st) (fun m => do_parse cf m c tok st')) /\
  (forall l st st', RR st st' -> prel TT n (arr_loop cf n l st) (fun m => arr_loop cf m l st')) /\
  (forall l st st', RR st st' -> prel TT n (obj_loop cf n l st) (fun m => obj_loop cf m l st')).
Proof.
  induction n as [|n (IHv & IHa & IHo)]; [split; [|split]; intros; right; exact I|].
  assert (GS : forall st st', RR st st' -> prel RR n (get_string cf (S n) st) (fun m => get_string cf (S m) st')).
  { intros st st' K. apply (prel_P _ _ _ _ _ (fun m => get_string cf m st')). apply get_string_rel. assumption. }
  split; [|split].
  - intros c tok st st' H. apply prel_S. cbn [do_parse].
    assert (Sc : orel TT n (match tok with None => scan cf (S n) st | Some t => Ret (t, st) end)
      (fun m => match tok with None => scan cf (S m) st' | Some t => Ret (t, st') end)).
    { destruct tok; [apply orel_ret; split; [reflexivity|assumption]|]. apply (rel_S _ (scan cf)); [apply scan_rel|assumption]. }
    cbv zeta. ostep Sc. destruct a as [t a], b as [t' b]. destruct K as [Q K]. cbn [fst snd] in Q, K. subst t'. clear st st' H.
    destruct t; try (apply prel_ret; assumption); try pfail.
    + specialize (GS _ _ K). pstep GS. apply prel_ret. assumption.
    + pose proof (getint_rel n _ _ K) as G. ostep G. subst b0. apply prel_ret. assumption.
    + replace (get_float b) with (get_float a); [apply prel_ret; assumption|]. unfold get_float. rewrite (RR_neg _ _ K), (RR_flt _ _ K). reflexivity.
    + specialize (IHa [] _ _ K). pstep IHa. destruct a0 as [t a0], b0 as [t' b0]. destruct K0 as [Q K0]. cbn [fst snd] in Q, K0. subst t'.
      destruct t; first [pfail|apply prel_ret; assumption].
    + specialize (IHo [] _ _ K). pstep IHo. destruct a0 as [t a0], b0 as [t' b0]. destruct K0 as [Q K0]. cbn [fst snd] in Q, K0. subst t'.
      destruct t; first [pfail|apply prel_ret; assumption].
  - intros l st st' H. apply prel_S. cbn [arr_loop]. pose proof (rel_S _ (scan cf) scan_rel n _ _ H) as Sc. ostep Sc.
    destruct a as [t a], b as [t' b]. destruct K as [Q K]. cbn [fst snd] in Q, K. subst t'. clear st st' H.
    destruct (starts_value t); [|apply prel_ret; split; [reflexivity|assumption]].
    specialize (IHv VNull (Some t) _ _ K). pstep IHv. pose proof (rel_S _ (scan cf) scan_rel n _ _ K0) as Sc. ostep Sc.
    destruct a1 as [t1 a1], b1 as [t' b1]. destruct K1 as [Q K1]. cbn [fst snd] in Q, K1. subst t'.
    destruct t1; first [apply IHa; assumption|apply prel_ret; split; [reflexivity|assumption]].
  - intros l st st' H. apply prel_S. cbn [obj_loop]. pose proof (rel_S _ (scan cf) scan_rel n _ _ H) as Sc. ostep Sc.
    destruct a as [t a], b as [t' b]. destruct K as [Q K]. cbn [fst snd] in Q, K. subst t'. clear st st' H.
    destruct t; try (apply prel_ret; split; [reflexivity|assumption]).
    specialize (GS _ _ K). pstep GS. pose proof (rel_S _ (scan cf) scan_rel n _ _ K0) as Sc. ostep Sc.
    destruct a1 as [t1 a1], b1 as [t' b1]. destruct K1 as [Q K1]. cbn [fst snd] in Q, K1. subst t'.
    destruct t1; try (apply prel_ret; split; [reflexivity|assumption]).
    specialize (IHv VNull None _ _ K1). pstep IHv. pose proof (rel_S _ (scan cf) scan_rel n _ _ K2) as Sc. ostep Sc.
    destruct a3 as [t3 a3], b3 as [t' b3]. destruct K3 as [Q K3]. cbn [fst snd] in Q, K3. subst t'.
    destruct t3; first [apply IHo; assumption|apply prel_ret; split; [reflexivity|assumption]].
Qed.

Lemma body_rel : forall n c st st', RR st st' -> prel eq n (parse_body cf n c st) (fun m => parse_body cf m c st').
Proof.
  intros n c st st' H. unfold parse_body. destruct (values_rel n) as [V _]. specialize (V c None _ _ H). pstep V. cbn [bind].
  apply prel_lift. eapply orel_bind with (r' := fun m => scan cf m b) (f' := fun _ (r : token * pst) =>
    match fst r with Teoi => Ret tt | _ => fail (token_msg "unexpected token" Teoi) end); [apply scan_rel; assumption|].
  intros [t x1] [t' y1] [Q _]. cbn [fst] in *. subst t'. destruct t; first [ofail|apply orel_ret; reflexivity].
Qed.
(** ** Blanks leading to a comment that does not end *)
Inductive ahead : istream -> list N -> Prop :=
| ah_end j : zeros j -> ahead j []
| ah_more j c j' l : (forall cur, dec_ j cur = (true, c, j')) -> is_good j' = true -> ahead j' l -> ahead j (c :: l).
Lemma tied_ahead : forall i j l, tied i j l -> ahead j l.
Proof. intros i j l H. induction H; econstructor; eassumption. Qed.

Definition at_ (st : pst) (l : list N) : Prop := exists l', l = p_cur st :: l' /\ ahead (p_is st) l'.

Lemma at_read : forall st c d l, at_ st (c :: d :: l) -> exists s1, read_next cf st = Ret s1 /\ p_cur s1 = d /\ is_eof (p_is s1) = false /\ at_ s1 (d :: l).
Proof.
  intros st c d l (l' & E & A). injection E as -> <-. inversion A as [|j c' j' l' D G A']; subst. unfold read_next. rewrite D, G.
  eexists. split; [reflexivity|]. split; [reflexivity|]. split; [|exists l; split; [reflexivity|assumption]].
  cbn [p_is]. unfold is_good in G. destruct (is_eof j'); [discriminate|reflexivity].
Qed.
Lemma at_last : forall st c, at_ st [c] -> zeros (p_is st) /\ exists s1, read_next cf st = Ret s1 /\ p_cur s1 = 0 /\ is_eof (p_is s1) = false /\ zeros (p_is s1).
Proof.
  intros st c (l' & E & A). injection E as -> <-. inversion A; subst. split; [assumption|]. unfold read_next.
  destruct (zeros_step _ H) as (j' & Z' & D). rewrite D. assert (is_good j' = true /\ is_eof j' = false) as [-> Q]
    by (destruct Z' as (? & ? & -> & _); split; reflexivity). eexists. split; [reflexivity|]. repeat split; assumption.
Qed.
Lemma at_cur : forall st c l, at_ st (c :: l) -> p_cur st = c.
Proof. intros st c l (l' & E & _). congruence. Qed.

Lemma space_iff : forall c, is_space c = true <-> space c.
Proof. intro c. unfold is_space, space. lia. Qed.

Lemma ws_to : forall w m st c l, Forall space w -> ~ space c -> at_ st (w ++ c :: l) ->
  skip_ws cf m st = OutOfFuel \/ exists s1, skip_ws cf m st = Ret s1 /\ at_ s1 (c :: l).
Proof.
  induction w as [|x w IH]; intros m st c l W Nc A; (destruct m as [|m]; [left; reflexivity|]); cbn [skip_ws].
  - right. rewrite (at_cur _ _ _ A). assert (is_space c = false) as ->.
    { destruct (is_space c) eqn:E; [exfalso; apply Nc, space_iff; assumption|reflexivity]. }
    exists st. auto.
  - cbn [app] in A. rewrite (at_cur _ _ _ A). inversion W as [|? ? X W']; subst. apply space_iff in X. rewrite X.
    assert (exists d r, w ++ c :: l = d :: r) as (d & r & E) by (destruct w; cbn; eauto). rewrite E in A.
    destruct (at_read _ _ _ _ A) as (s1 & -> & _ & _ & A1). cbn [bind]. apply IH; try assumption. rewrite E. assumption.
Qed.

Lemma line_to : forall b m st x n l, Forall (fun c => ~ newline c) b -> newline n -> at_ st (x :: b ++ n :: l) ->
  line_comment cf m st = OutOfFuel \/ exists s1, line_comment cf m st = Ret (true, s1) /\ at_ s1 (n :: l).
Proof.
  induction b as [|y b IH]; intros m st x n l B Nn A; (destruct m as [|m]; [left; reflexivity|]); cbn [line_comment app] in *;
    destruct (at_read _ _ _ _ A) as (s1 & -> & C1 & E1 & A1); cbn [bind]; rewrite C1.
  - apply nl_iff in Nn. rewrite Nn. right. eauto.
  - inversion B as [|? ? Y B']; subst. destruct ((p_cur s1 =? c_nl) || (p_cur s1 =? c_cr)) eqn:En; [exfalso; apply Y, nl_iff; assumption|].
    rewrite E1. eapply IH; eassumption.
Qed.
Lemma line_open : forall b m st x, Forall (fun c => ~ newline c) b -> at_ st (x :: b) -> line_comment cf m st = OutOfFuel.
Proof.
  induction b as [|y b IH]; intros m st x B A.
  - apply line_zeros. eapply at_last. eassumption.
  - destruct m as [|m]; [reflexivity|]. cbn [line_comment]. destruct (at_read _ _ _ _ A) as (s1 & -> & C1 & E1 & A1); cbn [bind]; rewrite C1.
    inversion B as [|? ? Y B']; subst. destruct ((p_cur s1 =? c_nl) || (p_cur s1 =? c_cr)) eqn:En; [exfalso; apply Y, nl_iff; assumption|].
    rewrite E1. eapply IH; eassumption.
Qed.

Lemma block_to : forall b, comment_body b -> forall m st x d l, at_ st (x :: b ++ 42 :: 47 :: d :: l) ->
  block_comment cf m st = OutOfFuel \/ exists s1, block_comment cf m st = Ret s1 /\ at_ s1 (d :: l).
Proof.
  intros b B. induction B as [|c b C B IH|c b C B IH]; intros m st x d l A; (destruct m as [|m]; [left; reflexivity|]); cbn [block_comment app] in *;
    destruct (at_read _ _ _ _ A) as (s1 & -> & C1 & E1 & A1); cbn [bind]; rewrite C1.
  - destruct (at_read _ _ _ _ A1) as (s2 & -> & C2 & E2 & A2). cbn -[read_next]. rewrite C2. cbn -[read_next]. destruct (at_read _ _ _ _ A2) as (s3 & -> & C3 & E3 & A3).
    right. eauto.
  - destruct (N.eqb_spec c c_star); [contradiction|]. rewrite E1. eapply IH; eassumption.
  - destruct (at_read _ _ _ _ A1) as (s2 & -> & C2 & E2 & A2). cbn -[read_next block_comment]. rewrite C2.
    destruct (N.eqb_spec c c_slash); [contradiction|]. rewrite E2. eapply IH; eassumption.
Qed.
Lemma block_open : forall b, comment_body b -> forall m st x, at_ st (x :: b) \/ at_ st (x :: b ++ [42]) -> block_comment cf m st = OutOfFuel.
Proof.
  intros b B. induction B as [|c b C B IH|c b C B IH]; intros m st x A.
  - destruct A as [A|A]; [apply block_zeros; eapply at_last; eassumption|]. destruct m as [|m]; [reflexivity|]. cbn [block_comment app] in *.
    destruct (at_read _ _ _ _ A) as (s1 & -> & C1 & E1 & A1); cbn [bind]; rewrite C1. cbn -[read_next block_comment].
    destruct (at_last _ _ A1) as (_ & s2 & -> & C2 & E2 & Z). cbn -[read_next block_comment]. rewrite C2, E2. cbn -[read_next block_comment]. apply block_zeros. assumption.
  - destruct m as [|m]; [reflexivity|]. cbn [block_comment app] in *.
    assert (exists r, at_ st (x :: c :: r) /\ (r = b \/ r = b ++ [42])) as (r & A' & R') by (destruct A; eauto).
    destruct (at_read _ _ _ _ A') as (s1 & -> & C1 & E1 & A1); cbn [bind]; rewrite C1.
    destruct (N.eqb_spec c c_star); [contradiction|]. rewrite E1. apply (IH _ _ c). destruct R'; subst; auto.
  - destruct m as [|m]; [reflexivity|]. cbn [block_comment app] in *.
    assert (exists r, at_ st (x :: 42 :: c :: r) /\ (r = b \/ r = b ++ [42])) as (r & A' & R') by (destruct A; eauto).
    destruct (at_read _ _ _ _ A') as (s1 & -> & C1 & E1 & A1); cbn [bind]; rewrite C1. cbn -[read_next block_comment].
    destruct (at_read _ _ _ _ A1) as (s2 & -> & C2 & E2 & A2). cbn -[read_next block_comment]. rewrite C2.
    destruct (N.eqb_spec c c_slash); [contradiction|]. rewrite E2. apply (IH _ _ c). destruct R'; subst; auto.
Qed.

Lemma forever : forall l, blank_open l -> forall m st, at_ st l -> skip_spaces cf m st = OutOfFuel.
Proof.
  assert (Ns : ~ space 47) by (unfold space; lia).
  intros l H. induction H as [w l W O|w b n l W B Nn H IH|w b l W B H IH]; intros m st A; (destruct m as [|m]; [reflexivity|]); cbn [skip_spaces].
  - destruct O as [b B|b B|b B]; (destruct (ws_to _ (S m) _ _ _ W Ns A) as [->|(s1 & -> & A1)]; [reflexivity|]); cbn [bind]; rewrite (at_cur _ _ _ A1);
      cbn -[read_next line_comment block_comment skip_spaces]; destruct (at_read _ _ _ _ A1) as (s2 & -> & C2 & E2 & A2); cbn [bind]; rewrite C2;
      cbn -[read_next line_comment block_comment skip_spaces].
    + rewrite (line_open _ _ _ _ B A2). reflexivity.
    + rewrite (block_open _ B _ _ 42) by auto. reflexivity.
    + rewrite (block_open _ B _ _ 42) by auto. reflexivity.
  - destruct (ws_to _ (S m) _ _ _ W Ns A) as [->|(s1 & -> & A1)]; [reflexivity|]. cbn [bind]. rewrite (at_cur _ _ _ A1). cbn -[read_next line_comment block_comment skip_spaces].
    destruct (at_read _ _ _ _ A1) as (s2 & -> & C2 & E2 & A2); cbn [bind]; rewrite C2; cbn -[read_next line_comment block_comment skip_spaces].
    destruct (line_to _ (S m) _ _ _ _ B Nn A2) as [->|(s3 & -> & A3)]; [reflexivity|]. cbn [bind fst snd]. apply IH. assumption.
  - destruct (ws_to _ (S m) _ _ _ W Ns A) as [->|(s1 & -> & A1)]; [reflexivity|]. cbn [bind]. rewrite (at_cur _ _ _ A1). cbn -[read_next line_comment block_comment skip_spaces].
    destruct (at_read _ _ _ _ A1) as (s2 & -> & C2 & E2 & A2); cbn [bind]; rewrite C2; cbn -[read_next line_comment block_comment skip_spaces].
    assert (exists d r, l = d :: r) as (d & r & ->).
    { assert (K : forall w0 x (y : list N), exists d r, w0 ++ x :: y = d :: r) by (intros [|d w0] x y; cbn; eauto).
      inversion H as [w0 l' _ O| |]; [|apply K|apply K]. inversion O; apply K. }
    destruct (block_to _ B (S m) _ _ _ _ A2) as [->|(s3 & -> & A3)]; [reflexivity|]. cbn [bind fst snd]. apply IH. assumption.
Qed.
End Nul.

(** ** Whole texts *)
Definition over (src : nat -> N) (i : istream) : Prop := exists pos st, is_buf i = IAdp src pos st.
Lemma over_get : forall ck src i c i', over src i -> is_get ck i = (c, i') -> over src i'.
Proof.
  intros ck src [b e f] c i' (pos & st & E) G. cbn [is_buf] in E. subst b. unfold is_get in G.
  destruct (is_good _); [|injection G as _ <-; eexists _, _; reflexivity]. cbn [is_buf throws uflow underflow] in G.
  destruct (Z.eqb st 0); injection G as _ <-; eexists _, _; reflexivity.
Qed.
Lemma over_peek : forall ck src i c i', over src i -> is_peek ck i = (c, i') -> over src i'.
Proof.
  intros ck src [b e f] c i' (pos & st & E) G. cbn [is_buf] in E. subst b. unfold is_peek in G.
  destruct (is_good _); [|injection G as _ <-; eexists _, _; reflexivity]. cbn [is_buf throws uflow underflow] in G.
  destruct (Z.eqb st 0); injection G as _ <-; eexists _, _; reflexivity.
Qed.
Lemma over_fail : forall src (b : bool) i, over src i -> over src (if b then set_fail i else i).
Proof. intros src [] i H; exact H. Qed.
Lemma over_read : forall ck src n cp i c i', over src i -> utf8_read ck n cp i = (c, i') -> over src i'.
Proof.
  intros ck src n. induction n as [|n IH]; intros cp i c i' O H; cbn [utf8_read] in H; destruct (is_get ck i) as [x j] eqn:E.
  - injection H as _ <-. eapply over_get; eassumption.
  - eapply IH; [|eassumption]. eapply over_get; eassumption.
Qed.
Lemma over_decode : forall e ck src i cur ok c i', over src i -> decode e ck i cur = (ok, c, i') -> over src i'.
Proof.
  intros e ck src i cur ok c i' O D. destruct e; cbn [decode] in D.
  - unfold ignore_decode in D. destruct (is_get ck i) as [x j] eqn:E. injection D as _ _ <-. eapply over_get; eassumption.
  - unfold utf8_decode in D. destruct (is_peek ck i) as [x j] eqn:E. apply over_peek with (src := src) in E; [|assumption].
    destruct (is_eof j); [injection D as _ _ <-; assumption|]. destruct (utf8_read ck _ 0 j) as [y k] eqn:E2.
    injection D as _ _ <-. apply over_fail. eapply over_read; eassumption.
  - unfold utf16_decode in D. destruct (is_get ck i) as [x j] eqn:E. apply over_get with (src := src) in E; [|assumption].
    destruct (is_eof j); [injection D as _ _ <-; assumption|]. destruct (is_lead_surrogate _).
    + destruct (is_get ck j) as [y k] eqn:E2. apply over_get with (src := src) in E2; [|assumption].
      destruct (is_trail_surrogate _); injection D as _ _ <-; apply over_fail; try assumption.
    + injection D as _ _ <-. apply over_fail. assumption.
  - unfold utf32_decode in D. destruct (is_get ck i) as [x j] eqn:E. apply over_get with (src := src) in E; [|assumption].
    destruct (is_eof j); injection D as _ _ <-; try apply over_fail; assumption.
Qed.

Lemma no_early_end : forall e ck u s c i', u < eof_unit ck -> decode e ck (sis (u :: s)) 0 = (false, c, i') -> False.
Proof.
  intros e ck u s c i' Lt D.
  assert (Ne : Z.eqb (Z.of_N u) (eof_int ck) = false) by (destruct ck; cbn in *; lia).
  assert (G : is_get ck (sis (u :: s)) = (Z.of_N u, sis s)) by (unfold is_get, is_good, sis; cbn [is_eof is_fail negb andb is_buf throws uflow]; rewrite Ne; reflexivity).
  destruct e; cbn [decode] in D.
  - unfold ignore_decode in D. rewrite G in D. discriminate.
  - unfold utf8_decode, is_peek, is_good, sis in D. cbn [is_eof is_fail negb andb is_buf throws underflow] in D. rewrite Ne in D. cbn [is_eof] in D.
    destruct (utf8_read _ _ _ _). discriminate.
  - unfold utf16_decode in D. rewrite G in D. cbn [is_eof sis] in D. destruct (is_lead_surrogate _); [destruct (is_get ck _); destruct (is_trail_surrogate _)|]; discriminate.
  - unfold utf32_decode in D. rewrite G in D. discriminate.
Qed.

Lemma tied_feeds : forall cf i l t, feeds (src_enc cf) (src_ck cf) i l t -> enc_ok (src_enc cf) (src_ck cf) = true -> t = TEof ->
  forall s src pos, i = sis s -> no_nul (src_enc cf) s -> (forall n, src (pos + n)%nat = nth n s 0) ->
  Forall (fun u => u < eof_unit (src_ck cf)) s -> tied cf i (mkIs (IAdp src pos 0) false false) l.
Proof.
  intros cf i l t H Ok. induction H as [i i' H|i c i' H G|i c i' l t H G HF IH]; intros Et s src pos -> Z F U; try discriminate.
  - apply td_end with i'; [assumption|]. exists src, pos. split; [reflexivity|].
    assert (s = []) as ->.
    { destruct s as [|u s]; [reflexivity|]. exfalso. destruct (H 0) as [c D]. inversion U; subst. eapply no_early_end; eassumption. }
    intros n L. specialize (F (n - pos)%nat). replace (pos + (n - pos))%nat with n in F by lia. rewrite F. destruct (n - pos)%nat; reflexivity.
  - assert (Fr : fresh 0 (src_ck cf) s (IAdp src pos 0)).
    { constructor; [assumption|]. intros K I. rewrite Forall_forall in U. specialize (U _ I). rewrite K in U. cbn in U. lia. }
    assert (U' : Forall (a_unit (src_ck cf)) s) by (eapply Forall_impl; [|exact U]; intros u Hu; cbv beta in Hu; unfold a_unit; apply N.lt_le_incl; exact Hu).
    destruct (decode_like _ _ _ _ _ _ _ _ _ Ok Z Fr U' (H 0) (or_intror G)) as (j' & D' & L).
    destruct (decode_suffix _ _ _ _ _ _ (H 0) G) as (pre & s' & -> & ->).
    inversion L as [s2 b2 F2 U2|]; subst; [|congruence].
    assert (Ov : over src (mkIs (IAdp src pos 0) false false)) by (exists pos, 0%Z; reflexivity).
    destruct (over_decode _ _ src _ _ _ _ _ Ov D') as (pos' & x & Ob). cbn [is_buf] in Ob. subst b2.
    inversion F2; subst.
    apply td_more with (i' := sis s') (j' := mkIs (IAdp src pos' 0) false false); try assumption; try reflexivity.
    + eapply decode_true_cur. eassumption.
    + apply (IH eq_refl s' src pos' eq_refl); try assumption; [intros K I; apply (Z K); apply in_or_app; right; assumption|].
      apply Forall_app in U. apply U.
Qed.

Lemma prel_agree : forall l n (p : value * outcome unit) p' h, snd p <> OutOfFuel -> prel l eq n p p' ->
  (open_end l /\ forall m, (n <= m)%nat -> exists x, p' m = (x, OutOfFuel)) \/
  forall m, (n <= m)%nat -> agree h (let '(v, r) := p in (v, handle h r)) (let '(v, r) := p' m in (v, handle h r)).
Proof.
  intros l n [v r] p' h Nf [H|V]; [left; exact H|]. right. intros m L. cbn [fst snd] in *. destruct r as [[]|[]| | |]; try contradiction.
  - destruct V as (y & <- & V). rewrite (V m L). split; [reflexivity|]. exists (Ret tt), (Ret tt). auto.
  - destruct V as (e & W & V). rewrite (V m L). split; [cbn [fst]; reflexivity|]. cbn [snd]. exists (Throw (EDeser msg)), (Throw (EDeser e)).
    split; [reflexivity|]. split; [reflexivity|]. right. exists msg, e. auto.
  - rewrite (V m L). split; [reflexivity|]. exists Abort, Abort. auto.
  - rewrite (V m L). split; [reflexivity|]. exists UB, UB. auto.
Qed.
Lemma nul_dichotomy : forall cf h c s b l, enc_ok (src_enc cf) (src_ck cf) = true -> nul_ended s b ->
  Forall (fun u => u < eof_unit (src_ck cf)) s -> (src_enc cf = Utf8 -> ~ In 0 s) ->
  feeds (src_enc cf) (src_ck cf) (sis s) l TEof ->
  ((exists pre o, l = pre ++ o /\ open_comment o) /\ forall n, (fuel_for s <= n)%nat -> fst (snd (parse_ibuf cf h n c b)) = OutOfFuel) \/
  (forall n, (fuel_for s <= n)%nat -> agree h (parse_into cf h c s) (parse_ibuf cf h n c b)).
Proof.
  intros cf h c s b l Ok (src & Sr & ->) U Z F.
  pose proof (tied_feeds cf _ _ _ F Ok eq_refl s src 0%nat eq_refl Z Sr U) as T.
  assert (Nf : fst (snd (parse_into cf h c s)) <> OutOfFuel).
  { rewrite (parse_into_top cf h c s l TEof F). apply (top_nofuel cf TEof h c l (IStr s)). exact F. }
  assert (exists s1 s1', read_next cf (init_pst (IStr s)) = Ret s1 /\ read_next cf (init_pst (IAdp src 0 0)) = Ret s1' /\ RR cf l s1 s1') as (s1 & s1' & E1 & E2 & K).
  { destruct (read_tied cf l (init_pst (IStr s)) (init_pst (IAdp src 0 0)) (conj eq_refl (conj eq_refl eq_refl)) T) as (s1 & s1' & A & B & S1 & C1 & Ne & M).
    exists s1, s1'. split; [assumption|]. split; [assumption|]. destruct l as [|x l].
    - destruct M as (M1 & M2 & M3). exists []. repeat (split; [assumption|]). split; [|assumption]. right. auto.
    - destruct M as (M1 & M2 & M3). exists l. repeat (split; [assumption|]). split; [|assumption]. left. split; [assumption|]. exists []. rewrite M2. reflexivity. }
  unfold parse_into, parse_ibuf in *. rewrite E1 in *. rewrite E2.
  destruct (prel_agree l (fuel_for s) (parse_body cf (fuel_for s) c s1) (fun n => parse_body cf n c s1') h) as [[O V]|V].
  - intro E. apply Nf. destruct (parse_body cf (fuel_for s) c s1) as [v r]. cbn [snd] in E. subst r. reflexivity.
  - apply body_rel. exact K.
  - left. split; [assumption|]. intros n L. destruct (V n L) as [x E]. rewrite E. reflexivity.
  - right. exact V.
Qed.

Theorem nul_same : forall cf h c s b l n, enc_ok (src_enc cf) (src_ck cf) = true -> nul_ended s b ->
  Forall (fun u => u < eof_unit (src_ck cf)) s -> (src_enc cf = Utf8 -> ~ In 0 s) ->
  feeds (src_enc cf) (src_ck cf) (sis s) l TEof -> (forall pre o, l = pre ++ o -> ~ open_comment o) ->
  (fuel_for s <= n)%nat -> agree h (parse_into cf h c s) (parse_ibuf cf h n c b).
Proof.
  intros cf h c s b l n Ok Nu U Z F No L. destruct (nul_dichotomy cf h c s b l Ok Nu U Z F) as [[(pre & o & E & O) _]|H]; [|auto].
  exfalso. exact (No pre o E O).
Qed.

Theorem nul_forever : forall cf h c s b l n, enc_ok (src_enc cf) (src_ck cf) = true -> nul_ended s b ->
  Forall (fun u => u < eof_unit (src_ck cf)) s -> (src_enc cf = Utf8 -> ~ In 0 s) ->
  feeds (src_enc cf) (src_ck cf) (sis s) l TEof -> blank_open l ->
  fst (snd (parse_ibuf cf h n c b)) = OutOfFuel.
Proof.
  intros cf h c s b l n Ok (src & Sr & ->) U Z F Bo.
  pose proof (tied_ahead _ _ _ _ (tied_feeds cf _ _ _ F Ok eq_refl s src 0%nat eq_refl Z Sr U)) as A.
  assert (exists d r, l = d :: r) as (d & r & ->).
  { assert (K : forall w0 x (y : list N), exists d r, w0 ++ x :: y = d :: r) by (intros [|d w0] x y; cbn; eauto).
    destruct Bo as [w0 l' _ O| |]; [|apply K|apply K]. destruct O; apply K. }
  inversion A as [|j c' j' l' D G A']; subst. unfold parse_ibuf, read_next, init_pst. cbn [p_is p_cur p_neg p_int p_flt]. unfold is_open. rewrite D, G.
  set (st := mkP j' d false 0 f64_zero). assert (At : at_ cf st (d :: r)) by (exists r; split; [reflexivity|exact A']).
  unfold parse_body. destruct n as [|n]; [reflexivity|]. cbn [do_parse]. unfold scan.
  rewrite (forever cf _ Bo (S n) st At). reflexivity.
Qed.
