(** Number literals of plain ASCII texts. *)
From Coq Require Import Lia ZifyBool ZifyNat ZifyN Floats.SpecFloat.
From Verif Require Import Base Stream Encoding Value Token Parser EncodingProofs Feeds ListMachine Simulation SimParse
  SpecUnicode SpecGrammar SpecPos SpecGap SpecText GrammarLex GrammarTok ObjFacts GrammarProofs PosProofs PosSound Mono Context GrammarFacts.

Lemma ascii_digit_digit : forall ck c, ascii_digit c -> digit ck c.
Proof. intros ck c [A B]. unfold digit. rewrite low_small by lia. lia. Qed.
Lemma ascii_digits : forall ck ds, Forall ascii_digit ds -> Forall (digit ck) ds.
Proof. intros ck ds H. eapply Forall_impl; [|exact H]. intro. apply ascii_digit_digit. Qed.
Lemma dval_ascii : forall c, ascii_digit c -> dval c = c - 48.
Proof. intros c [A B]. unfold dval. lia. Qed.

Lemma dec_ten : forall ds z, Forall ascii_digit ds ->
  dec z ds = fold_left (fun a d => a * 10 + (Z.of_N d - 48))%Z ds z.
Proof.
  intros ds. induction ds as [|d ds IH]; intros z H; [reflexivity|]. inversion H; subst. cbn [dec fold_left].
  rewrite IH by assumption. f_equal. rewrite dval_ascii by assumption. unfold ascii_digit in *. lia.
Qed.

Lemma ten_cons : forall d ds, ascii_digit d -> Forall ascii_digit ds -> ten (d :: ds) = dec (Z.of_N (dval d)) ds.
Proof.
  intros d ds D H. rewrite dec_ten by assumption. unfold ten. cbn [fold_left]. f_equal.
  rewrite dval_ascii by assumption. unfold ascii_digit in *. lia.
Qed.

Lemma dec_mono_acc : forall ds a b, (a <= b)%Z -> (dec a ds <= dec b ds)%Z.
Proof. intros ds. induction ds as [|d ds IH]; intros a b H; [assumption|]. cbn [dec]. apply IH. lia. Qed.

Lemma numeral_pos : forall z w, numeral z w -> (0 <= z)%Z /\ (z = 0%Z -> w = [48]).
Proof.
  intros z w H. destruct H as [|d ds A B F]; [split; auto; lia|].
  rewrite ten_cons by (auto; unfold ascii_digit; lia).
  rewrite dval_ascii by (unfold ascii_digit; lia).
  pose proof (dec_ge ds (Z.of_N (d - 48)) ltac:(lia)). split; [lia|]. intro. lia.
Qed.

Lemma numeral_ascii : forall z w, numeral z w -> Forall ascii_digit w /\ exists d ds, w = d :: ds.
Proof.
  intros z w H. destruct H as [|d ds A B F].
  - split; [|eauto]. constructor; [unfold ascii_digit; lia|constructor].
  - split; [|eauto]. constructor; [unfold ascii_digit; lia|assumption].
Qed.

(** every natural number has a numeral *)
Lemma numeral_exists : forall z, (0 <= z)%Z -> exists w, numeral z w.
Proof.
  assert (X : forall n z, (0 < z < Z.of_nat n)%Z -> exists d ds, 49 <= d /\ d <= 57 /\ Forall ascii_digit ds /\ ten (d :: ds) = z).
  { induction n as [|n IH]; intros z H; [lia|].
    destruct (Z_lt_ge_dec z 10) as [L|L].
    - exists (Z.to_N z + 48), []. split; [lia|]. split; [lia|]. split; [constructor|].
      unfold ten. cbn [fold_left]. lia.
    - destruct (IH (z / 10)%Z ltac:(split; [apply Z.div_str_pos; lia|]; assert (z / 10 < z)%Z by (apply Z.div_lt; lia); lia))
        as (d & ds & A & B & F & E).
      exists d, (ds ++ [Z.to_N (z mod 10) + 48]). split; [assumption|]. split; [assumption|].
      pose proof (Z.mod_pos_bound z 10 ltac:(lia)) as Hm.
      split; [apply Forall_app; split; [assumption|]; constructor; [unfold ascii_digit; lia|constructor]|].
      unfold ten in *. rewrite app_comm_cons, fold_left_app, E. cbn [fold_left].
      rewrite (Z.div_mod z 10) at 3 by lia. lia. }
  intros z H. destruct (Z.eq_dec z 0) as [->|N]; [exists [48]; constructor|].
  destruct (X (Z.to_nat z + 1)%nat z ltac:(lia)) as (d & ds & A & B & F & <-). exists (d :: ds). constructor; assumption.
Qed.

Lemma unsigned_numeral : forall ck nd z w l', numeral z w -> (z <= max_int)%Z -> no_digit ck l' -> no_frac l' ->
  unsigned ck nd (w ++ l') (VInt z) l'.
Proof.
  intros ck nd z w l' H M Nd Nf. destruct H as [|d ds A B F]; [apply un_zero; assumption|].
  rewrite ten_cons in * by (auto; unfold ascii_digit; lia). cbn [app].
  apply un_int; auto; [constructor|lia|right; apply ascii_digit_digit; unfold ascii_digit; lia|apply ascii_digits; assumption].
Qed.

Lemma sign_number : forall ck nd p neg w l v l', sign p neg -> (exists d ds, w = d :: ds /\ ascii_digit d) ->
  unsigned ck nd (w ++ l) v l' -> number ck nd (p ++ w ++ l) (if neg then negate v else v) l'.
Proof.
  intros ck nd p neg w l v l' S (d & ds & -> & D1 & D2) U. destruct S; cbn [app] in *.
  - apply nu_plain; assumption.
  - apply nu_plus. assumption.
  - apply nu_minus. assumption.
Qed.

Lemma numeral_hd : forall z w, numeral z w -> exists d ds, w = d :: ds /\ ascii_digit d.
Proof. intros z w H. destruct (numeral_ascii z w H) as (F & d & ds & ->). inversion F; subst. eauto. Qed.

Lemma number_int : forall ck nd p neg z w l', sign p neg -> numeral z w -> (z <= max_int)%Z -> no_digit ck l' -> no_frac l' ->
  number ck nd (p ++ w ++ l') (signed_int neg z) l'.
Proof.
  intros ck nd p neg z w l' S H M Nd Nf.
  pose proof (sign_number ck nd p neg w l' (VInt z) l' S (numeral_hd _ _ H) (unsigned_numeral ck nd z w l' H M Nd Nf)) as X.
  destruct neg; exact X.
Qed.

Lemma dec32_mod : forall ds a, a < 4294967296 -> Forall ascii_digit ds ->
  dec32 a ds = Z.to_N (dec (Z.of_N a) ds mod 4294967296).
Proof.
  assert (Y : forall ds a b, (a mod 4294967296 = b mod 4294967296)%Z -> (dec a ds mod 4294967296 = dec b ds mod 4294967296)%Z).
  { induction ds as [|d ds IH]; intros a b E; [assumption|]. cbn [dec]. apply IH.
    rewrite (Z.add_mod (a * 10)), (Z.add_mod (b * 10)) by lia.
    rewrite (Z.mul_mod a), (Z.mul_mod b), E by lia. reflexivity. }
  intro ds. induction ds as [|d ds IH]; intros a L F.
  - cbn [dec32 dec]. rewrite Z.mod_small by lia. lia.
  - inversion F; subst. cbn [dec32 dec]. rewrite IH by (auto; apply N.mod_lt; lia). f_equal. apply Y.
    rewrite N2Z.inj_mod. change (Z.of_N 4294967296) with 4294967296%Z. rewrite Z.mod_mod by lia. f_equal. lia.
Qed.

Lemma expo_exponent : forall ck f x g l', expo x g -> no_digit ck l' ->
  exists e y, x = e :: y /\ is_e e /\ exponent ck f (y ++ l') (dmul f g) l'.
Proof.
  intros ck f x g l' H Nd. destruct H as [e d ds I A B F|e ds I N F|e ds I N F].
  - exists e, (d :: ds). split; [reflexivity|]. split; [assumption|]. cbn [app].
    rewrite ten_cons by (auto; unfold ascii_digit; lia). rewrite <- dec32_mod.
    + constructor; auto; [apply ascii_digit_digit; unfold ascii_digit; lia|lia|apply ascii_digits; assumption].
    + unfold dval. lia.
    + assumption.
  - destruct ds as [|d ds]; [congruence|]. inversion F; subst. exists e, (43 :: d :: ds). split; [reflexivity|]. split; [assumption|].
    cbn [app]. rewrite ten_cons by assumption. rewrite <- dec32_mod; [|unfold dval; lia|assumption].
    apply ex_plus with (c := d); [constructor|apply ascii_digits; assumption|assumption].
  - destruct ds as [|d ds]; [congruence|]. inversion F; subst. exists e, (45 :: d :: ds). split; [reflexivity|]. split; [assumption|].
    cbn [app]. rewrite ten_cons by assumption. rewrite <- dec32_mod; [|unfold dval; lia|assumption].
    apply ex_minus with (c := d); [constructor|apply ascii_digits; assumption|assumption].
Qed.

Lemma unsigned_frac : forall ck nd z w l f l', numeral z w -> (z <= max_int)%Z -> fraction ck z l f l' ->
  unsigned ck nd (w ++ 46 :: l) (VFloat f) l'.
Proof.
  intros ck nd z w l f l' H M Fr. destruct H as [|d ds A B F].
  - cbn [app]. apply un_zero_frac. assumption.
  - rewrite ten_cons in * by (auto; unfold ascii_digit; lia). cbn [app].
    apply un_frac with (c := d) (ds := ds) (l1 := l); auto.
    + cbn [app]. constructor.
    + lia.
    + right. apply ascii_digit_digit. unfold ascii_digit. lia.
    + apply ascii_digits. assumption.
Qed.

Lemma frac_fraction : forall ck z fd l f l', fd <> [] -> Forall ascii_digit fd -> no_digit ck l ->
  exp_opt ck (frac_value (d_of_Z z) dtenth fd) l f l' -> fraction ck z (fd ++ l) f l'.
Proof.
  intros ck z [|d fd] l f l' N F Nd E; [congruence|]. cbn [app]. apply fr; [apply ascii_digits; assumption|assumption|assumption].
Qed.

Lemma unsigned_mantissa : forall ck nd w f l', mantissa w true f -> no_digit ck l' -> no_exp l' ->
  unsigned ck nd (w ++ l') (VFloat f) l'.
Proof.
  intros ck nd w f l' H Nd Ne. inversion H as [|z w0 fd Nm M N F]; subst.
  rewrite <- app_assoc. cbn [app]. apply unsigned_frac with (z := z); [assumption|assumption|].
  apply frac_fraction; auto. apply eo_none. assumption.
Qed.

Lemma unsigned_expo : forall ck nd w fr f x g l', mantissa w fr f -> expo x g -> no_digit ck l' ->
  unsigned ck nd (w ++ x ++ l') (VFloat (dmul f g)) l'.
Proof.
  intros ck nd w fr f x g l' H X Nd. destruct (expo_exponent ck f x g l' X Nd) as (e & y & -> & I & E). cbn [app].
  destruct H as [z w Nm Nz M|z w fd Nm M N F].
  - destruct Nm as [|d ds A B F]; [congruence|]. rewrite ten_cons in * by (auto; unfold ascii_digit; lia). cbn [app].
    apply un_exp with (c := d) (ds := ds) (e := e) (l1 := y ++ l'); auto.
    + constructor.
    + lia.
    + right. apply ascii_digit_digit. unfold ascii_digit. lia.
    + apply ascii_digits. assumption.
  - rewrite <- app_assoc. cbn [app]. apply unsigned_frac with (z := z); [assumption|assumption|].
    apply frac_fraction; auto.
    + cbn. apply e_not_digit. assumption.
    + apply eo_some; assumption.
Qed.

Lemma mantissa_hd : forall w fr f, mantissa w fr f -> exists d ds, w = d :: ds /\ ascii_digit d.
Proof.
  intros w fr f H. destruct H as [z w Nm Nz M|z w fd Nm M N F]; destruct (numeral_hd _ _ Nm) as (d & ds & -> & D); eauto.
  cbn [app]. eauto.
Qed.

(** ** Whole texts *)

Lemma sign_ascii : forall p neg, sign p neg -> Forall (fun c => c < 128) p.
Proof. intros p neg H. destruct H; repeat constructor; lia. Qed.
Lemma digits_ascii : forall ds, Forall ascii_digit ds -> Forall (fun c => c < 128) ds.
Proof. intros ds H. eapply Forall_impl; [|exact H]. intros c [A B]. cbv beta. lia. Qed.
Lemma mantissa_ascii : forall w fr f, mantissa w fr f -> Forall (fun c => c < 128) w.
Proof.
  intros w fr f H. destruct H as [z w Nm Nz M|z w fd Nm M N F]; pose proof (proj1 (numeral_ascii _ _ Nm)) as D; apply digits_ascii in D; [assumption|].
  apply Forall_app. split; [assumption|]. constructor; [lia|apply digits_ascii; assumption].
Qed.
Lemma expo_ascii : forall x g, expo x g -> Forall (fun c => c < 128) x.
Proof.
  intros x g H.
  destruct H as [e d ds I A B F|e ds I N F|e ds I N F]; unfold is_e in I; repeat (constructor; [lia|]); apply digits_ascii; assumption.
Qed.

Section Num.
Variable cf : pcfg.
Hypothesis Hs : enc_ok (src_enc cf) (src_ck cf) = true.
Hypothesis Ht : enc_ok (tgt_enc cf) (tgt_ck cf) = true.

Lemma parse_number : forall s v, Forall (fun c => c < 128) s -> (exists c l, s = c :: l /\ num_start c = true) ->
  number (src_ck cf) (ndebug cf) s v [] -> parse_string cf s = Ret v.
Proof.
  intros s v A (c & l & -> & St) N. eapply dialect_eof; [assumption|apply feeds_ascii; eassumption|].
  exists []. apply doc_end with (l1 := []); [|apply bl_none; exact I].
  apply v_num with (l1 := c :: l); [|assumption]. apply bl_none. unfold num_start in St. unfold space. lia.
Qed.

Lemma start_of : forall p neg w l, sign p neg -> (exists d ds, w = d :: ds /\ ascii_digit d) ->
  exists c l0, p ++ w ++ l = c :: l0 /\ num_start c = true.
Proof.
  intros p neg w l S (d & ds & -> & D1 & D2). destruct S; cbn [app]; eexists; eexists; (split; [reflexivity|]); unfold num_start; lia.
Qed.

Lemma parse_int : forall p neg z w, sign p neg -> numeral z w -> (z <= max_int)%Z ->
  parse_string cf (p ++ w) = Ret (signed_int neg z).
Proof.
  intros p neg z w S H M. rewrite <- (app_nil_r w). apply parse_number.
  - apply Forall_app. split; [eapply sign_ascii; eassumption|]. rewrite app_nil_r. apply digits_ascii. apply (numeral_ascii z w H).
  - eapply start_of; [eassumption|]. eapply numeral_hd; eassumption.
  - apply number_int; auto; exact I.
Qed.

Lemma parse_big : forall p neg z w, sign p neg -> numeral z w -> (max_int < z)%Z -> parse_string cf (p ++ w) = UB.
Proof.
  intros p neg z w S H M. eapply ub_iff; [assumption|apply feeds_ascii; [assumption|]|].
  - apply Forall_app. split; [eapply sign_ascii; eassumption|]. apply digits_ascii. apply (numeral_ascii z w H).
  - exists KVal, (p ++ w). split.
    + apply ps_start. apply bl_none. destruct (start_of p neg w [] S (numeral_hd _ _ H)) as (c & l0 & E & Sc).
      rewrite app_nil_r in E. rewrite E. unfold num_start in Sc. unfold space. lia.
    + destruct H as [|d ds A B F]; [exfalso; unfold max_int in M; lia|].
      rewrite ten_cons in M by (auto; unfold ascii_digit; lia). rewrite <- (app_nil_r ds).
      destruct S; cbn [app].
      * apply ov_plain; auto. apply ascii_digits. assumption.
      * apply ov_sign; auto; [lia| |apply ascii_digits; assumption].
        right. apply ascii_digit_digit. unfold ascii_digit. lia.
      * apply ov_sign; auto; [lia| |apply ascii_digits; assumption].
        right. apply ascii_digit_digit. unfold ascii_digit. lia.
Qed.

Lemma parse_frac : forall p neg w f, sign p neg -> mantissa w true f ->
  parse_string cf (p ++ w) = Ret (signed_float neg f).
Proof.
  intros p neg w f S H. rewrite <- (app_nil_r w). apply parse_number.
  - apply Forall_app. split; [eapply sign_ascii; eassumption|]. rewrite app_nil_r. eapply mantissa_ascii; eassumption.
  - eapply start_of; [eassumption|]. eapply mantissa_hd; eassumption.
  - pose proof (sign_number (src_ck cf) (ndebug cf) p neg w [] (VFloat f) [] S (mantissa_hd _ _ _ H)
      (unsigned_mantissa (src_ck cf) (ndebug cf) w f [] H I I)) as X. destruct neg; exact X.
Qed.

Lemma parse_expo : forall p neg w fr f x g, sign p neg -> mantissa w fr f -> expo x g ->
  parse_string cf (p ++ w ++ x) = Ret (signed_float neg (dmul f g)).
Proof.
  intros p neg w fr f x g S H X. rewrite <- (app_nil_r x). apply parse_number.
  - apply Forall_app. split; [eapply sign_ascii; eassumption|]. rewrite app_nil_r. apply Forall_app.
    split; [eapply mantissa_ascii; eassumption|eapply expo_ascii; eassumption].
  - eapply start_of; [eassumption|]. eapply mantissa_hd; eassumption.
  - pose proof (sign_number (src_ck cf) (ndebug cf) p neg w (x ++ []) (VFloat (dmul f g)) [] S (mantissa_hd _ _ _ H)
      (unsigned_expo (src_ck cf) (ndebug cf) w fr f x g [] H X I)) as Y. destruct neg; exact Y.
Qed.
End Num.
