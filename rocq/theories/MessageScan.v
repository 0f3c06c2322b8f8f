(** When the scanner throws, and what. *)
From Coq Require Import Lia ZifyBool ZifyNat ZifyN Ascii Floats.SpecFloat.
From Verif Require Import Base Stream Encoding Value Token FloatFmt Message Parser EncodingProofs Feeds ListMachine Simulation
  SimParse SpecUnicode SpecGrammar GrammarLex GrammarTok ObjFacts GrammarProofs SpecPos SpecGap PosSound Mono Context
  SpecMessage MessageLex MessageNum MessageStr.

Section Scan.
Variables (cf : pcfg) (t : term).
Notation CK := (src_ck cf).
Notation ND := (ndebug cf).

(** what can go wrong with a token other than a string *)
Inductive tok_bad : list N -> string -> Prop :=
| tb_char c l : no_token c -> tok_bad (c :: l) (with_number "unexpected character" c)
| tb_literal r m : bad_literal CK t r m -> tok_bad r m
| tb_number r m : bad_number CK ND t r m -> tok_bad r m
| tb_cut_punct c m : undecodable t m -> In c [91; 93; 123; 125; 58; 44] -> tok_bad [c] m
| tb_cut_literal r w v m : undecodable t m -> r <> [] -> literal CK (r ++ w) v [] -> tok_bad r m
| tb_cut_number r w v m : undecodable t m -> r <> [] -> number CK ND (r ++ w) v [] -> tok_bad r m.

(** first characters *)
Lemma word_start : forall name x0 rest, In (name, x0 :: rest) words -> x0 = 116 \/ x0 = 102 \/ x0 = 110.
Proof.
  intros name x0 rest [H|[H|[H|[]]]]; injection H as _ <- _; auto.
Qed.
Lemma number_bad_start : forall r m, bad_number CK ND t r m -> exists c l, r = c :: l /\ num_start c = true.
Proof.
  intros r m H. destruct H as [c l m C1 C2 _|s l m S _]; eexists _, _; (split; [reflexivity|]); unfold num_start; lia.
Qed.
Lemma literal_cut_start : forall r w v, r <> [] -> literal CK (r ++ w) v [] ->
  exists c l, r = c :: l /\ (c = 116 \/ c = 102 \/ c = 110).
Proof.
  intros r w v N H. destruct r as [|c r]; [congruence|]. apply literal_start in H.
  destruct H as (c' & l1 & E & K). injection E as -> _. exists c', r. split; [reflexivity|]. tauto.
Qed.
Lemma number_cut_start : forall r w v, r <> [] -> number CK ND (r ++ w) v [] ->
  exists c l, r = c :: l /\ num_start c = true.
Proof.
  intros r w v N H. destruct r as [|c r]; [congruence|]. apply number_start in H.
  destruct H as (c' & l1 & E & K). injection E as -> _. eauto.
Qed.

(** a literal *)
Lemma T_word : forall name x0 rest v l m, In (name, x0 :: rest) words -> x0 < 128 -> bytes (x0 :: rest) = name ->
  Forall (fun c => c <> 0 /\ c < 256) (x0 :: rest) -> (forall name' rest', In (name', x0 :: rest') words -> name' = name /\ rest' = rest) ->
  (forall r w', literal CK (x0 :: r) w' [] <-> map (low CK) r = rest /\ w' = v) ->
  (T (a_literal cf t (x0 :: rest) (x0 :: rest) (x0 :: l)) m <->
   bad_literal CK t (x0 :: l) m \/ (undecodable t m /\ exists w v, literal CK (x0 :: l ++ w) v [])).
Proof.
  intros name x0 rest v l m I S B F U Lt. rewrite T_literal; [|apply ok_cons|assumption].
  assert (L0 : low CK x0 = x0) by (apply low_small; lia). split.
  - intros [(w & x & rest' & l' & c & E & Er & Se & D & ->)|(Un & _ & w & E)].
    + left. destruct w as [|y w].
      * cbn [app] in E. subst l'. cbn [sees] in Se. subst c. cbn [map app] in Er. injection Er as <- _. congruence.
      * injection E as <- ->. cbn [map app] in Er. rewrite L0 in Er. injection Er as Er.
        unfold literal_msg. rewrite B. apply (blt CK t name x0 w x rest' l' c); [|assumption|assumption]. rewrite <- Er. exact I.
    + right. split; [assumption|]. exists w, v. apply Lt. cbn [app map] in E. rewrite L0 in E. injection E as E. auto.
  - intros [H|(Un & w & v' & H)].
    + left. remember (x0 :: l) as r eqn:E. destruct H as [name' y0 w x rest' l' c I' Se D]. injection E as -> <-.
      destruct (U _ _ I') as [-> Er]. exists (x0 :: w), x, rest', l', c. split; [reflexivity|].
      split; [cbn [map app]; rewrite L0, Er; reflexivity|]. split; [assumption|]. split; [assumption|]. unfold literal_msg. rewrite B. reflexivity.
    + right. split; [assumption|]. split; [discriminate|]. apply Lt in H. destruct H as [H _]. exists w. cbn [app map]. rewrite L0, H. reflexivity.
Qed.

Ltac word := repeat match goal with
  | H : In _ words |- _ => destruct H as [H|[H|[H|[]]]]; try discriminate H; injection H as <- <-
  end.

Lemma T_true : forall l m, T (a_literal cf t lit_true lit_true (116 :: l)) m <->
  bad_literal CK t (116 :: l) m \/ (undecodable t m /\ exists w v, literal CK (116 :: l ++ w) v []).
Proof.
  intros l m. apply (T_word "true" 116 [114; 117; 101] (VBool true)).
  - cbn; auto.
  - lia.
  - reflexivity.
  - repeat constructor; lia.
  - intros n r H. word. auto.
  - intros r w'. split.
    + intro H. inversion H as [w x M E1 E2 E3| |]. rewrite app_nil_r in *. subst. auto.
    + intros [M ->]. rewrite <- (app_nil_r r). constructor. assumption.
Qed.
Lemma T_false : forall l m, T (a_literal cf t lit_false lit_false (102 :: l)) m <->
  bad_literal CK t (102 :: l) m \/ (undecodable t m /\ exists w v, literal CK (102 :: l ++ w) v []).
Proof.
  intros l m. apply (T_word "false" 102 [97; 108; 115; 101] (VBool false)).
  - cbn; auto.
  - lia.
  - reflexivity.
  - repeat constructor; lia.
  - intros n r H. word. auto.
  - intros r w'. split.
    + intro H. inversion H as [|w x M E1 E2 E3|]. rewrite app_nil_r in *. subst. auto.
    + intros [M ->]. rewrite <- (app_nil_r r). constructor. assumption.
Qed.
Lemma T_null : forall l m, T (a_literal cf t lit_null lit_null (110 :: l)) m <->
  bad_literal CK t (110 :: l) m \/ (undecodable t m /\ exists w v, literal CK (110 :: l ++ w) v []).
Proof.
  intros l m. apply (T_word "null" 110 [117; 108; 108] VNull).
  - cbn; auto.
  - lia.
  - reflexivity.
  - repeat constructor; lia.
  - intros n r H. word. auto.
  - intros r w'. split.
    + intro H. inversion H as [| |w x M E1 E2 E3]. rewrite app_nil_r in *. subst. auto.
    + intros [M ->]. rewrite <- (app_nil_r r). constructor. assumption.
Qed.

(** which kinds of trouble a first character leaves *)
Lemma tok_bad_cases : forall c l m, tok_bad (c :: l) m ->
  (no_token c /\ m = with_number "unexpected character" c) \/
  (l = [] /\ undecodable t m /\ In c [91; 93; 123; 125; 58; 44]) \/
  ((c = 116 \/ c = 102 \/ c = 110) /\ (bad_literal CK t (c :: l) m \/ (undecodable t m /\ exists w v, literal CK (c :: l ++ w) v []))) \/
  (num_start c = true /\ (bad_number CK ND t (c :: l) m \/ (undecodable t m /\ exists w v, number CK ND (c :: l ++ w) v []))).
Proof.
  intros c l m H. remember (c :: l) as r eqn:E. destruct H as [c' l' H|r m H|r m H|c' m U H|r w v m U N H|r w v m U N H].
  - injection E as -> ->. auto.
  - right. right. left. split; [|subst; auto]. destruct H as [name x0 w x rest l' c' I _ _]. injection E as -> _.
    eapply word_start; exact I.
  - right. right. right. split; [|subst; auto]. destruct (number_bad_start _ _ H) as (c' & l' & -> & K). injection E as -> _. assumption.
  - injection E as -> <-. right. left. auto.
  - right. right. left. destruct (literal_cut_start _ _ _ N H) as (c' & l' & -> & K). injection E as -> ->. split; [assumption|].
    right. split; [assumption|]. exists w, v. exact H.
  - right. right. right. destruct (number_cut_start _ _ _ N H) as (c' & l' & -> & K). injection E as -> ->. split; [assumption|].
    right. split; [assumption|]. exists w, v. exact H.
Qed.

Lemma tok_bad_nonempty : forall r m, tok_bad r m -> exists c l, r = c :: l /\ ~ space c /\ c <> 47.
Proof.
  intros r m H. destruct r as [|c l].
  - exfalso. inversion H as [|r m' B E1 E2|r m' B E1 E2| |r w v m' U N L E1 E2|r w v m' U N L E1 E2]; subst; try congruence.
    + inversion B.
    + inversion B.
  - exists c, l. split; [reflexivity|]. apply tok_bad_cases in H. unfold space, num_start, no_token in *. cbn [In] in H.
    unfold space in H. lia.
Qed.

Lemma T_scan_tok : forall r m, ok t r -> (match r with [] => True | c :: _ => ~ space c /\ c <> 47 end) ->
  (T (a_scan_tok cf t r) m <-> tok_bad r m).
Proof.
  intros r m O Sol. destruct r as [|c l].
  { cbn [a_scan_tok]. rewrite T_ret. split; [contradiction|]. intro H. apply tok_bad_nonempty in H. destruct H as (c & l & E & _). discriminate. }
  cbn [a_scan_tok]. 
  assert (P : forall k, In c [91; 93; 123; 125; 58; 44] -> (T (guard t l (Ret (AT k, l))) m <-> tok_bad (c :: l) m)).
  { intros k I. rewrite T_guard, T_ret. split.
    - intros [[-> U]|[_ []]]. apply tb_cut_punct; assumption.
    - intro H. left. apply tok_bad_cases in H. destruct H as [[H _]|[[-> [U _]]|[[H _]|[H _]]]]; [exfalso|auto|exfalso|exfalso];
        unfold no_token, starts_val, num_start in H; cbn [In] in I; lia. }
  destruct (punct c) as [k|] eqn:Ep.
  { apply P. unfold punct in Ep. cbn [In].
    destruct (N.eqb_spec c c_lbrack); [subst; auto 9|]. destruct (N.eqb_spec c c_rbrack); [subst; auto 9|].
    destruct (N.eqb_spec c c_lbrace); [subst; auto 9|]. destruct (N.eqb_spec c c_rbrace); [subst; auto 9|].
    destruct (N.eqb_spec c c_colon); [subst; auto 9|]. destruct (N.eqb_spec c c_comma); [subst; auto 9|]. discriminate. }
  assert (NP : ~ In c [91; 93; 123; 125; 58; 44]).
  { intro I. cbn [In] in I. decompose [or] I; try subst c; try discriminate Ep. contradiction. }
  assert (Lc : forall (o : outcome (list N)) (k : token), (c = 116 \/ c = 102 \/ c = 110) ->
     (T o m <-> bad_literal CK t (c :: l) m \/ (undecodable t m /\ exists w v, literal CK (c :: l ++ w) v [])) ->
     (T (let* r := o in Ret (AT k, r)) m <-> tok_bad (c :: l) m)).
  { intros o k Hc Ho. rewrite T_bind_ret, Ho. split.
    - intros [H|(U & w & v & H)]; [apply tb_literal; assumption|]. eapply tb_cut_literal; [assumption|discriminate|exact H].
    - intro H. apply tok_bad_cases in H. destruct H as [[H _]|[(_ & _ & H)|[[_ H]|[H _]]]]; [exfalso|contradiction|assumption|exfalso];
        unfold no_token, starts_val, num_start in H; lia. }
  destruct (N.eqb_spec c 116) as [->|N116]; [apply Lc; [auto|apply T_true]|].
  destruct (N.eqb_spec c 102) as [->|N102]; [apply Lc; [auto|apply T_false]|].
  destruct (N.eqb_spec c 110) as [->|N110]; [apply Lc; [auto|apply T_null]|].
  destruct (N.eqb_spec c 34) as [->|N34].
  { rewrite T_ret. split; [contradiction|]. intro H. apply tok_bad_cases in H.
    unfold no_token, starts_val, num_start in H. cbn [In] in H. lia. }
  change ((c =? 45) || (c =? 43) || ((48 <=? c) && (c <=? 57))) with (num_start c).
  destruct (num_start c) eqn:Ns.
  { rewrite T_number by assumption. split.
    - intros [H|(U & w & v & H)]; [apply tb_number; assumption|]. eapply tb_cut_number; [assumption|discriminate|exact H].
    - intro H. apply tok_bad_cases in H. destruct H as [[H _]|[(_ & _ & H)|[[H _]|[_ H]]]]; [exfalso|contradiction|exfalso|assumption];
        unfold no_token, starts_val, num_start in *; lia. }
  destruct (N.eqb_spec c 0) as [->|N0].
  { rewrite T_ret. split; [contradiction|]. intro H. apply tok_bad_cases in H.
    unfold no_token, starts_val, num_start in *. cbn [In] in *. lia. }
  rewrite T_code. split.
  - intros ->. apply tb_char. unfold no_token, starts_val, num_start in *. cbn [In] in NP. repeat split; try tauto; lia.
  - intro H. apply tok_bad_cases in H. destruct H as [[_ H]|[(_ & _ & H)|[[H _]|[H _]]]]; [assumption|contradiction|exfalso; lia|congruence].
Qed.

(** ** Tokens by name *)

Definition name_of (x : atok) : string := token_name (tok_of x).

Lemma token_iff : forall r n, ok t r ->
  (token_at cf t r n <-> exists x r', a_scan_tok cf t r = Ret (x, r') /\ name_of x = n).
Proof.
  intros r n O. split.
  - intro H. assert (X : exists x r', tok_at cf r x r' /\ ok t r' /\ name_of x = n).
    { destruct H as [l M|l M|l M|l M|l M|l M|r l L M|r l L M|r l L M|r z l L M|r f l L M|l|E|l].
      - eexists _, l. split; [apply ta_larr|]. split; [apply more_ok; assumption|reflexivity].
      - eexists _, l. split; [apply ta_rarr|]. split; [apply more_ok; assumption|reflexivity].
      - eexists _, l. split; [apply ta_lobj|]. split; [apply more_ok; assumption|reflexivity].
      - eexists _, l. split; [apply ta_robj|]. split; [apply more_ok; assumption|reflexivity].
      - eexists _, l. split; [apply ta_colon|]. split; [apply more_ok; assumption|reflexivity].
      - eexists _, l. split; [apply ta_comma|]. split; [apply more_ok; assumption|reflexivity].
      - eexists _, l. split; [apply ta_true; assumption|]. split; [apply more_ok; assumption|reflexivity].
      - eexists _, l. split; [apply ta_false; assumption|]. split; [apply more_ok; assumption|reflexivity].
      - eexists _, l. split; [apply ta_null; assumption|]. split; [apply more_ok; assumption|reflexivity].
      - exists (AInt z), l. split; [eapply ta_num; [eassumption|reflexivity]|]. split; [apply more_ok; assumption|reflexivity].
      - exists (AFlt f), l. split; [eapply ta_num; [eassumption|reflexivity]|]. split; [apply more_ok; assumption|reflexivity].
      - eexists _, _. split; [apply ta_str|]. split; [apply ok_cons|reflexivity].
      - eexists _, _. split; [apply ta_end|]. split; [assumption|reflexivity].
      - eexists _, _. split; [apply ta_nul|]. split; [apply ok_cons|reflexivity]. }
    destruct X as (x & r' & Ta & O' & E). exists x, r'. split; [|assumption]. apply scan_tok_iff; auto.
  - intros (x & r' & H & <-). apply scan_tok_iff in H; [|assumption]. destruct H as [H O']. apply more_ok in O'.
    destruct H as [|l|l|l|l|l|l|l|l|l l' L|l l' L|l l' L|l v k l' L K].
    + apply tn_end. destruct t; [reflexivity|discriminate O].
    + apply tn_nul.
    + apply tn_larr; assumption.
    + apply tn_rarr; assumption.
    + apply tn_lobj; assumption.
    + apply tn_robj; assumption.
    + apply tn_colon; assumption.
    + apply tn_comma; assumption.
    + apply tn_string.
    + eapply tn_true; eassumption.
    + eapply tn_false; eassumption.
    + eapply tn_null; eassumption.
    + destruct k as [k|z|f]; cbn [tokv] in K; [discriminate|injection K as <-..].
      * eapply tn_int; eassumption.
      * eapply tn_float; eassumption.
Qed.

Lemma welcome_iff : forall k x, (x <> AT Tint /\ x <> AT Tfloat) -> (welcome k (name_of x) <-> allowed k x = true).
Proof.
  intros k x [X1 X2]. unfold name_of. destruct x as [x| |]; [destruct x|..]; try congruence; destruct k; cbn [allowed a_starts starts_value orb tok_of token_name welcome];
    unfold value_token; cbn [In]; split; intro H; try reflexivity; try discriminate; auto 12;
    decompose [or] H; try discriminate; try contradiction.
Qed.

Definition says (k : kind) (x : atok) : string :=
  match k with
  | KVal => token_msg "unexpected token" (tok_of x)
  | KElem | KAfterElem => expect_msg (tok_of x) Tend_arr
  | KKey | KColon | KAfterMem => expect_msg (tok_of x) Tend_obj
  | KEnd => token_msg "unexpected token" Teoi
  end.
Lemma unwelcome_eq : forall k x, unwelcome k (name_of x) = says k x.
Proof. intros [] x; reflexivity. Qed.

Lemma tok_at_kind : forall l x l', tok_at cf l x l' -> x <> AT Tint /\ x <> AT Tfloat.
Proof. intros l x l' H. destruct H; split; try discriminate; intro E; subst; discriminate. Qed.
End Scan.
