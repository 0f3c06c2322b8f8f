(** RFC 8259 texts belong to configor's dialect. *)
From Coq Require Import Lia ZifyBool ZifyNat ZifyN Floats.SpecFloat.
From Verif Require Import Base Stream Encoding Value Token Parser EncodingProofs Feeds ListMachine Simulation SimParse
  SpecUnicode SpecGrammar SpecPos SpecGap SpecText SpecRfc GrammarLex GrammarTok ObjFacts GrammarProofs PosProofs PosSound Mono Context
  GrammarFacts NumberFacts TextFacts.

Scheme rfc_val_mut := Minimality for rfc_val Sort Prop
  with rfc_elems_mut := Minimality for rfc_elems Sort Prop
  with rfc_members_mut := Minimality for rfc_members Sort Prop.

(** what may follow a value *)
Definition stops (ck : ckind) (l : list N) : Prop := no_digit ck l /\ no_frac l.

Lemma stops_nil : forall ck, stops ck [].
Proof. split; exact I. Qed.
Lemma stops_cons : forall ck c l, c < 48 \/ (57 < c < 256) -> c <> 46 -> c <> 101 -> c <> 69 -> stops ck (c :: l).
Proof. intros ck c l H A B C. split; cbn; [unfold digit; rewrite low_small by lia; lia|lia]. Qed.
Lemma stops_ws : forall ck g l, ws g -> stops ck l -> stops ck (g ++ l).
Proof.
  intros ck [|c g] l W S; [assumption|]. inversion W; subst. cbn [app]. apply stops_cons; lia.
Qed.
Lemma stops_exp : forall ck l, stops ck l -> no_exp l.
Proof. intros ck [|c l] [_ H]; cbn in *; tauto. Qed.

Lemma ws_gap : forall g, ws g -> gap g.
Proof. intros g H. induction H; constructor; auto. Qed.

Lemma ws_blank : forall g c l, ws g -> ~ space c -> c <> 47 -> blank (g ++ c :: l) (c :: l).
Proof. intros g c l W S N. apply gap_blank; [apply ws_gap; assumption|]. apply bl_none. auto. Qed.

Lemma ws_blank_nil : forall g, ws g -> blank g [].
Proof.
  intros g W. rewrite <- (app_nil_r g). apply gap_blank; [apply ws_gap; assumption|]. apply bl_none. exact I.
Qed.

Lemma minus_sign : forall p neg, minus p neg -> sign p neg.
Proof. intros p neg H. destruct H; constructor. Qed.

Lemma rfc_exp_expo : forall f x g, rfc_exp plain f x g -> exists h, expo x h /\ g = dmul f h.
Proof.
  intros f x g H. destruct H as [e ds I N F Z H|e ds I N F H|e ds I N F H].
  - destruct ds as [|d ds]; [congruence|]. inversion F as [|? ? D Fs]; subst. cbn [hd] in Z.
    assert (R : (0 <= ten (d :: ds) < 4294967296)%Z).
    { split; [|destruct (Z_lt_ge_dec (ten (d :: ds)) 4294967296) as [|G]; [assumption|exfalso; apply H; lia]].
      rewrite ten_cons by assumption. pose proof (dec_ge ds (Z.of_N (dval d)) ltac:(lia)). lia. }
    rewrite <- (Z.mod_small (ten (d :: ds)) 4294967296 R). eexists. split; [|reflexivity].
    assert (d <> 48) by (intro; subst; apply Z; reflexivity). unfold ascii_digit in D. apply xp_plain; auto; lia.
  - destruct ds as [|d ds]; [congruence|]. inversion F as [|? ? D Fs]; subst.
    assert (R : (0 <= ten (d :: ds) < 4294967296)%Z).
    { split; [|destruct (Z_lt_ge_dec (ten (d :: ds)) 4294967296) as [|G]; [assumption|exfalso; apply H; lia]].
      rewrite ten_cons by assumption. pose proof (dec_ge ds (Z.of_N (dval d)) ltac:(lia)). lia. }
    rewrite <- (Z.mod_small (ten (d :: ds)) 4294967296 R). eexists. split; [|reflexivity]. apply xp_plus; auto.
  - destruct ds as [|d ds]; [congruence|]. inversion F as [|? ? D Fs]; subst.
    assert (R : (0 <= ten (d :: ds) < 4294967296)%Z).
    { split; [|destruct (Z_lt_ge_dec (ten (d :: ds)) 4294967296) as [|G]; [assumption|exfalso; apply H; lia]].
      rewrite ten_cons by assumption. pose proof (dec_ge ds (Z.of_N (dval d)) ltac:(lia)). lia. }
    rewrite <- (Z.mod_small (ten (d :: ds)) 4294967296 R). eexists. split; [|reflexivity]. apply xp_minus; auto.
Qed.

Lemma le_max : forall z, ((max_int < z)%Z -> plain BigInt) -> (z <= max_int)%Z.
Proof. intros z H. destruct (Z_le_gt_dec z max_int) as [|G]; [assumption|]. exfalso. apply H. lia. Qed.

Lemma rfc_number_number : forall ck nd w v l, rfc_number plain w v -> stops ck l -> number ck nd (w ++ l) v l.
Proof.
  intros ck nd w v l H [Nd Nf].
  assert (Ne : no_exp l) by (apply (stops_exp ck); split; assumption).
  destruct H as [p neg z w Mi Nu B|p neg z w fr f Mi Nu B Fr Nn|p neg z w fr f x g Mi Nu B Fr X Ze].
  - rewrite <- app_assoc. apply number_int; auto; [apply minus_sign; assumption|apply le_max; assumption].
  - inversion Fr as [|fd Nn2 F]; subst; [congruence|].
    assert (Ma : mantissa (w ++ 46 :: fd) true (frac_value (d_of_Z z) dtenth fd)) by (apply ma_frac; auto; apply le_max; assumption).
    rewrite <- app_assoc.
    pose proof (sign_number ck nd p neg _ l _ l (minus_sign _ _ Mi) (mantissa_hd _ _ _ Ma) (unsigned_mantissa ck nd _ _ l Ma Nd Ne)) as Y.
    destruct neg; exact Y.
  - destruct (rfc_exp_expo f x g X) as (h & Xp & ->).
    assert (Ma : exists b, mantissa (w ++ fr) b f).
    { destruct Fr as [|fd Nn2 F].
      - exists false. rewrite app_nil_r. apply ma_int; [assumption| |apply le_max; assumption]. intro E. apply (Ze E eq_refl).
      - exists true. apply ma_frac; auto. apply le_max; assumption. }
    destruct Ma as [b Ma].
    pose proof (sign_number ck nd p neg _ (x ++ l) _ l (minus_sign _ _ Mi) (mantissa_hd _ _ _ Ma)
      (unsigned_expo ck nd _ b f x h l Ma Xp Nd)) as Y.
    rewrite <- !app_assoc in *. destruct neg; exact Y.
Qed.

Lemma rfc_char_item : forall w cp, rfc_char plain w cp -> item w cp.
Proof.
  intros w cp H. destruct H as [c A B C D|e c S|h cp H NL|h1 hi h2 lo H1 L H2 T|h cp H L X]; [..|contradiction].
  - apply it_raw; assumption.
  - apply it_short; assumption.
  - apply it_u; assumption.
  - apply it_pair; assumption.
Qed.

Lemma rfc_string_strlit : forall e ck w s l, rfc_string plain e ck w s -> strlit e ck (w ++ l) s l.
Proof.
  intros e ck w s l H. destruct H as [b cps s C O]. cbn [app]. rewrite <- app_assoc. cbn [app].
  apply sl with (cps := cps); [|assumption]. clear O. induction C; constructor; auto. apply rfc_char_item; assumption.
Qed.

(** first character of a value *)
Definition clean (w : list N) : Prop := exists c w', w = c :: w' /\ ~ space c /\ c <> 47.

Lemma clean_blank : forall g w l, ws g -> clean w -> blank (g ++ w ++ l) (w ++ l).
Proof. intros g w l W (c & w' & -> & S & N). cbn [app]. apply ws_blank; assumption. Qed.

Lemma number_clean : forall A w v, rfc_number A w v -> clean w.
Proof.
  assert (X : forall p neg z w l, minus p neg -> numeral z w -> clean (p ++ w ++ l)).
  { intros p neg z w l Mi Nu. destruct (numeral_hd _ _ Nu) as (d & ds & -> & D1 & D2).
    destruct Mi; cbn [app]; eexists; eexists; (split; [reflexivity|]); unfold space; lia. }
  intros A w v H. destruct H as [p neg z w Mi Nu B|p neg z w fr f Mi Nu B Fr Nn|p neg z w fr f x g Mi Nu B Fr Y Ze]; [rewrite <- (app_nil_r w)|..]; eapply X; eassumption.
Qed.

Lemma string_clean : forall A e ck w s, rfc_string A e ck w s -> clean w.
Proof. intros A e ck w s H. destruct H. eexists; eexists; split; [reflexivity|]. unfold space. lia. Qed.

Lemma val_clean : forall A e ck w v, rfc_val A e ck w v -> clean w.
Proof.
  intros A e ck w v H. destruct H; try (eexists; eexists; split; [reflexivity|]; unfold space; lia).
  - eapply number_clean; eassumption.
  - eapply string_clean; eassumption.
Qed.

Section Rfc.
Variable cf : pcfg.
Let e := tgt_enc cf.
Let ck := tgt_ck cf.

Lemma rfc_val_val : forall w v, rfc_val plain e ck w v -> forall l, stops (src_ck cf) l -> val cf (w ++ l) v l.
Proof.
  assert (Br : forall c l, c <> 32 -> c <> 9 -> c <> 10 -> c <> 13 -> c <> 47 -> blank (c :: l) (c :: l)).
  { intros. apply bl_none. unfold space. lia. }
  apply (rfc_val_mut plain e ck
    (fun w v => forall l, stops (src_ck cf) l -> val cf (w ++ l) v l)
    (fun w vs => forall l, elems cf (w ++ 93 :: l) vs l)
    (fun w ms => forall l, members cf (w ++ 125 :: l) ms l)).
  - intros l S. eapply v_lit; [apply Br; lia|]. apply li_true with (w := [114; 117; 101]). destruct (src_ck cf); reflexivity.
  - intros l S. eapply v_lit; [apply Br; lia|]. apply li_false with (w := [97; 108; 115; 101]). destruct (src_ck cf); reflexivity.
  - intros l S. eapply v_lit; [apply Br; lia|]. apply li_null with (w := [117; 108; 108]). destruct (src_ck cf); reflexivity.
  - intros w v N l S. eapply v_num; [|apply rfc_number_number; eassumption].
    destruct (number_clean _ _ _ N) as (c & w' & -> & X & Y). apply bl_none. cbn [app]. auto.
  - intros w s R l S. eapply v_str; [|apply rfc_string_strlit; eassumption].
    destruct (string_clean _ _ _ _ _ R) as (c & w' & -> & X & Y). apply bl_none. cbn [app]. auto.
  - intros g W l S. cbn [app]. eapply v_arr; [apply Br; lia|]. rewrite <- app_assoc. apply el_end. apply ws_blank; [assumption|unfold space; lia|lia].
  - intros w vs _ IH l S. cbn [app]. eapply v_arr; [apply Br; lia|]. rewrite <- app_assoc. apply IH.
  - intros g W l S. cbn [app]. eapply v_obj with (ms := []); [apply Br; lia| |split; [constructor|tauto]].
    rewrite <- app_assoc. apply me_end. apply ws_blank; [assumption|unfold space; lia|lia].
  - intros w ms m _ IH O l S. cbn [app]. eapply v_obj; [apply Br; lia| |eassumption]. rewrite <- app_assoc. apply IH.
  - intros a w b v Wa V IH Wb l. rewrite <- !app_assoc. eapply el_last.
    + eapply blank_val; [apply clean_blank; [assumption|eapply val_clean; eassumption]|].
      apply IH. apply stops_ws; [assumption|]. apply stops_cons; lia.
    + apply ws_blank; [assumption|unfold space; lia|lia].
  - intros a w b v r vs Wa V IH Wb _ IHr l. rewrite <- !app_assoc. cbn [app]. eapply el_more.
    + eapply blank_val; [apply clean_blank; [assumption|eapply val_clean; eassumption]|].
      apply IH. apply stops_ws; [assumption|]. apply stops_cons; lia.
    + apply ws_blank; [assumption|unfold space; lia|lia].
    + apply IHr.
  - intros a k b c w d key v Wa Sk Wb Wc V IH Wd l. repeat (rewrite <- app_assoc; cbn [app]). eapply me_last.
    + apply clean_blank; [assumption|eapply string_clean; eassumption].
    + apply rfc_string_strlit. eassumption.
    + apply ws_blank; [assumption|unfold space; lia|lia].
    + eapply blank_val; [apply clean_blank; [assumption|eapply val_clean; eassumption]|].
      apply IH. apply stops_ws; [assumption|]. apply stops_cons; lia.
    + apply ws_blank; [assumption|unfold space; lia|lia].
  - intros a k b c w d key v r ms Wa Sk Wb Wc V IH Wd _ IHr l. repeat (rewrite <- app_assoc; cbn [app]). eapply me_more.
    + apply clean_blank; [assumption|eapply string_clean; eassumption].
    + apply rfc_string_strlit. eassumption.
    + apply ws_blank; [assumption|unfold space; lia|lia].
    + eapply blank_val; [apply clean_blank; [assumption|eapply val_clean; eassumption]|].
      apply IH. apply stops_ws; [assumption|]. apply stops_cons; lia.
    + apply ws_blank; [assumption|unfold space; lia|lia].
    + apply IHr.
Qed.

Lemma rfc_text_document : forall l v, rfc_text plain e ck l v -> document cf l v [].
Proof.
  intros l v H. destruct H as [a w b v Wa V Wb]. apply doc_end with (l1 := b); [|apply ws_blank_nil; assumption].
  eapply blank_val; [apply clean_blank; [assumption|eapply val_clean; eassumption]|].
  apply rfc_val_val; [assumption|]. rewrite <- (app_nil_r b). apply stops_ws; [assumption|apply stops_nil].
Qed.

Lemma rfc_accepted : forall s l v, enc_ok (tgt_enc cf) (tgt_ck cf) = true ->
  feeds (src_enc cf) (src_ck cf) (sis s) l TEof -> rfc_text plain (tgt_enc cf) (tgt_ck cf) l v -> parse_string cf s = Ret v.
Proof.
  intros s l v Hok F R. eapply dialect_eof; [assumption|exact F|]. exists []. apply rfc_text_document. exact R.
Qed.
End Rfc.
