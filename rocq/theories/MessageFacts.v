(** What json::parse says about a text it rejects. *)
From Coq Require Import Lia ZifyBool ZifyNat ZifyN Ascii Floats.SpecFloat.
From Verif Require Import Base Stream Encoding Value Token FloatFmt Message Parser EncodingProofs Feeds ListMachine Simulation
  SimParse SpecUnicode SpecGrammar GrammarLex GrammarTok ObjFacts GrammarProofs SpecPos SpecGap PosSound Mono Context GrammarFacts
  SpecMessage MessageLex MessageNum MessageStr MessageScan MessageProofs.

Lemma tops_message : forall cf t l m, enc_ok (tgt_enc cf) (tgt_ck cf) = true ->
  (tops cf t l = Throw (EDeser m) <-> objection cf t l m).
Proof.
  intros cf t l m Hok. unfold tops. destruct (at_bad t l) eqn:B.
  - destruct l as [|c l]; [|discriminate B]. destruct t as [|b]; [discriminate B|].
    change (T (@dec_err value (TBad b)) m <-> objection cf (TBad b) [] m). unfold dec_err. rewrite T_code. cbn [bad_code]. split.
    + intros ->. apply ob_empty; [exists b; auto|reflexivity].
    + intro H. destruct H as [m (c & E & ->) _|k r m S C]; [injection E as ->; reflexivity|].
      exfalso. destruct (msg_body cf (TBad b) Hok k [] r m (need []) VNull S C (le_n _)) as [O _]. discriminate O.
  - rewrite <- (body_message cf t Hok (need l) VNull l m B (le_n _)).
    destruct (a_body cf t (need l) VNull l) as [v r]. cbn [snd]. unfold T. destruct r; cbn [bind]; split; intro H; try discriminate; exact H || (injection H as ->; reflexivity).
Qed.

Lemma message : forall cf s l t m, enc_ok (tgt_enc cf) (tgt_ck cf) = true ->
  feeds (src_enc cf) (src_ck cf) (sis s) l t ->
  (parse_string cf s = Throw (EDeser m) <-> objection cf t l m).
Proof. intros cf s l t m Hok F. rewrite (parse_string_tops cf s l t F). apply tops_message; assumption. Qed.

Lemma message_utf8 : forall cf s cps m, enc_ok (tgt_enc cf) (tgt_ck cf) = true -> src_enc cf = Utf8 ->
  utf8_text cps s -> (parse_string cf s = Throw (EDeser m) <-> objection cf TEof cps m).
Proof. intros cf s cps m Hok E U. apply message; [assumption|]. rewrite E. apply feeds_utf8_text; assumption. Qed.

Lemma message_unique : forall cf t l m m', enc_ok (tgt_enc cf) (tgt_ck cf) = true ->
  objection cf t l m -> objection cf t l m' -> m = m'.
Proof.
  intros cf t l m m' Hok H H'. apply (tops_message cf t l m Hok) in H. apply (tops_message cf t l m' Hok) in H'. congruence.
Qed.

(** a text with an objection is not a document, and no number trips over *)
Lemma message_only : forall cf t l m, enc_ok (tgt_enc cf) (tgt_ck cf) = true -> objection cf t l m ->
  forall v rest, document cf l v rest -> t <> TEof /\ rest = [].
Proof.
  intros cf t l m Hok H v rest D. apply tops_message in H; [|assumption].
  assert (X : ~ (t = TEof \/ rest <> [])).
  { intro X. assert (Y : tops cf t l = Ret v) by (apply tops_iff; eauto). congruence. }
  split; [tauto|]. destruct rest; [reflexivity|]. exfalso. apply X. right. discriminate.
Qed.

(** every text is read, objected to, or trips over a number *)
Lemma message_total : forall cf s l t, enc_ok (tgt_enc cf) (tgt_ck cf) = true ->
  feeds (src_enc cf) (src_ck cf) (sis s) l t ->
  (exists v rest, document cf l v rest /\ (t = TEof \/ rest <> [])) \/ (exists m, objection cf t l m) \/
  parse_string cf s = Abort \/ parse_string cf s = UB.
Proof.
  intros cf s l t Hok F. destruct (parse_string_total cf s) as [(v & H)|[(m & H)|H]]; [left|right; left|right; right; exact H].
  - apply (dialect cf s l t v Hok F) in H. destruct H as (rest & H). eauto.
  - exists m. apply (message cf s l t m Hok F). assumption.
Qed.

(** ** The recorded message *)

Lemma append_nil_r : forall s : string, (s ++ "")%string = s.
Proof. induction s as [|c s IH]; cbn; [reflexivity|]. rewrite IH. reflexivity. Qed.

Lemma c_str_seen : forall s, seen s (c_str s).
Proof.
  induction s as [|c s [IH1 IH2]]; cbn [c_str]; [split; [exact I|left; reflexivity]|].
  destruct (Ascii.eqb_spec c Ascii.zero) as [->|N].
  - split; [exact I|]. right. exists s. reflexivity.
  - split; [split; assumption|]. destruct IH2 as [E|(r & E)]; [left|right; exists r]; cbn [append]; rewrite <- E; reflexivity.
Qed.
Lemma seen_unique : forall s r r', seen s r -> seen s r' -> r = r'.
Proof.
  intros s r r' [N H] [N' H']. revert r r' N N' H H'. induction s as [|c s IH]; intros r r' N N' H H'.
  - destruct H as [<-|(x & E)]; [|destruct r; discriminate E]. destruct H' as [<-|(x & E)]; [reflexivity|destruct r'; discriminate E].
  - destruct r as [|a r], r' as [|b r'].
    + reflexivity.
    + exfalso. destruct N' as [N' _]. destruct H as [E|(x & E)]; [discriminate E|]. injection E as -> ->.
      destruct H' as [E|(y & E)]; injection E as E1 _; congruence.
    + exfalso. destruct N as [N _]. destruct H' as [E|(x & E)]; [discriminate E|]. injection E as -> ->.
      destruct H as [E|(y & E)]; injection E as E1 _; congruence.
    + assert (X : c = a /\ (s = r \/ exists rest, s = (r ++ String Ascii.zero rest)%string)).
      { destruct H as [E|(x & E)]; injection E as -> ->; eauto. }
      assert (Y : c = b /\ (s = r' \/ exists rest, s = (r' ++ String Ascii.zero rest)%string)).
      { destruct H' as [E|(x & E)]; injection E as -> ->; eauto. }
      destruct X as [<- X], Y as [<- Y]. f_equal. apply IH; [apply N|apply N'|assumption|assumption].
Qed.

Lemma message_recorded : forall cf c s l t m, enc_ok (tgt_enc cf) (tgt_ck cf) = true ->
  feeds (src_enc cf) (src_ck cf) (sis s) l t -> objection cf t l m -> more t l ->
  exists v r, parse_into cf HRecord c s = (v, (Ret tt, r)) /\ seen ("value deserialization error: " ++ m) r.
Proof.
  intros cf c s l t m Hok F H M. apply more_ok in M. apply (body_message cf t Hok (need l) c l m M (le_n _)) in H.
  rewrite (parse_into_top cf HRecord c s l t F). unfold top, a_top. unfold ok in M. rewrite M.
  destruct (a_body cf t (need l) c l) as [v r]. cbn [snd] in H. unfold T in H. subst r. cbn [handle is_configor_exn].
  exists v, (exn_msg (EDeser m)). split; [reflexivity|]. apply c_str_seen.
Qed.

(** ** What the message hides *)

Lemma nul_free_app : forall a b, nul_free a -> nul_free b -> nul_free (a ++ b).
Proof. induction a as [|c a IH]; intros b Ha Hb; cbn in *; [assumption|]. destruct Ha. split; auto. Qed.
Lemma hexc_nz : forall d, d < 16 -> hexc d <> Ascii.zero.
Proof.
  intros d H. unfold hexc. intro E. apply (f_equal N_of_ascii) in E. change (N_of_ascii Ascii.zero) with 0 in E.
  rewrite N_ascii_embedding in E; destruct (d <? 10) eqn:L; lia.
Qed.
Lemma nul_free_hexs : forall k n s, nul_free s -> nul_free (hexs k n s).
Proof.
  induction k as [|k IH]; intros n s H; cbn [hexs]; [assumption|]. apply IH. split; [|assumption]. apply hexc_nz. apply N.mod_lt. lia.
Qed.
Lemma nul_free_number : forall msg n, nul_free msg -> nul_free (with_number msg n).
Proof.
  intros msg n H. unfold with_number. apply nul_free_app; [assumption|]. apply nul_free_app; [cbn; repeat split; discriminate|].
  apply nul_free_app; [apply nul_free_hexs; exact I|cbn; repeat split; discriminate].
Qed.

Ltac plain := cbn; repeat split; discriminate.
Ltac numbered := apply nul_free_number; plain.

Lemma undecodable_free : forall t m, undecodable t m -> nul_free m.
Proof. intros t m (c & _ & ->). numbered. Qed.
Lemma bad_unsigned_free : forall ck nd t r m, bad_unsigned ck nd t r m -> nul_free m.
Proof.
  intros ck nd t r m H. destruct H as [| |? ? ? ? ? ? ? B|? ? ? ? ? ? ? ? ? B]; [plain|numbered|destruct B; numbered..].
Qed.
Lemma bad_item_free : forall e ck t r m, bad_item e ck t r m -> nul_free m.
Proof.
  intros e ck t r m H. destruct H as [Ht|l m U C|c l C|l c S N Ns|l m B|h hi l c H4 Ld S N|h hi l c H4 Ld S N|h hi l m H4 Ld B|h hi h2 lo l H4 Ld H42 Nt|w cp l I O];
    try numbered; [plain|eapply undecodable_free; eassumption|destruct B; numbered..].
Qed.
Lemma token_free : forall cf t r n, token_at cf t r n -> nul_free n.
Proof. intros cf t r n H. destruct H; plain. Qed.

Lemma complaint_free : forall cf t k r m, complaint cf t k r m -> nul_free m \/ bad_literal (src_ck cf) t r m.
Proof.
  intros cf t k r m H.
  destruct H as [k r m U N B|k l c S H1 H2|k b Te Un|k r r' n B Ta W|k c l H|k r m H|k r m H|k r m W H|k c m U H|k r w v m U N H|k r w v m U N H];
    try (right; assumption); left; try (eapply undecodable_free; eassumption); try plain; try numbered.
  - apply token_free in Ta. assert (Q : nul_free "'"%string) by plain.
    destruct k; unfold unwelcome; try (apply nul_free_app; [plain|apply nul_free_app; assumption]). plain.
  - destruct H as [? ? ? ? ? U|? ? ? ? U]; eapply bad_unsigned_free; eassumption.
  - destruct H as [? ? ? ? ? ? ? U|? ? ? ? ? ? U]; [eapply bad_item_free|eapply undecodable_free]; eassumption.
Qed.

Lemma ascii_zero : forall c, ascii_of_N (c mod 256) = Ascii.zero <-> c mod 256 = 0.
Proof.
  intro c. split; intro H; [|rewrite H; reflexivity]. apply (f_equal N_of_ascii) in H. rewrite N_ascii_embedding in H; [assumption|].
  apply N.mod_lt. lia.
Qed.

Lemma literal_cut_short : forall ck t r m, bad_literal ck t r m -> nul_free m \/ seen m "unexpected character '".
Proof.
  intros ck t r m H. destruct H as [name x0 w x rest l c I S D].
  destruct (Ascii.eqb_spec (ascii_of_N (c mod 256)) Ascii.zero) as [E|E].
  - right. split; [plain|]. right. rewrite E. eexists. reflexivity.
  - left. apply nul_free_app; [plain|]. apply nul_free_app; [split; [assumption|exact Logic.I]|]. apply nul_free_app; [plain|].
    apply nul_free_app; [|plain]. destruct I as [I|[I|[I|[]]]]; injection I as <- _ _; plain.
Qed.

Lemma message_seen : forall cf t l m, objection cf t l m -> nul_free m \/ seen m "unexpected character '".
Proof.
  intros cf t l m H. destruct H as [m U _|k r m S C]; [left; eapply undecodable_free; exact U|].
  apply complaint_free in C. destruct C as [C|C]; [left; assumption|]. eapply literal_cut_short; exact C.
Qed.

(** ** Who complains about the encoding *)

Lemma hd_number : forall c s n, String.get 0 (with_number (String c s) n) = Some c.
Proof. reflexivity. Qed.

Lemma complaint_decoding : forall cf t k r m, complaint cf t k r m -> String.get 0 m = Some "d"%char -> undecodable t m.
Proof.
  intros cf t k r m H D.
  destruct H as [k r m U N B|k l c S H1 H2|k b Te Un|k r r' n B Ta W|k c l H|k r m H|k r m H|k r m W H|k c m U H|k r w v m U N H|k r w v m U N H];
    try assumption; try discriminate D.
  - destruct k; discriminate D.
  - destruct H. discriminate D.
  - destruct H as [? ? ? ? ? U|? ? ? ? U]; (destruct U as [| |? ? ? ? ? ? ? B|? ? ? ? ? ? ? ? ? B]; try discriminate D; destruct B; discriminate D).
  - destruct H as [? ? ? ? ? ? ? U|? ? ? ? ? ? U]; [|assumption].
    destruct U as [Ht|l' m U C|c l' C|l' c S N Ns|l' m B|h hi l' c H4 Ld S N|h hi l' c H4 Ld S N|h hi l' m H4 Ld B|h hi h2 lo l' H4 Ld H42 Nt|w cp l' I O];
      try discriminate D; try assumption; destruct B; discriminate D.
Qed.

Lemma message_decoding : forall cf t l m, objection cf t l m -> String.get 0 m = Some "d"%char ->
  exists c, t = TBad c /\ m = with_number "decoding failed with codepoint" c.
Proof.
  intros cf t l m H D. destruct H as [m U _|k r m S C]; [exact U|]. eapply complaint_decoding; eassumption.
Qed.

(** ** After the document *)

Lemma message_trailing : forall cf t l v l1 r n,
  val cf l v l1 -> blank l1 r -> token_at cf t r n -> n <> "end_of_input"%string ->
  objection cf t l "unexpected token 'end_of_input'".
Proof.
  intros cf t l v l1 r n V B Ta N. apply (ob_at cf t l KEnd l1).
  - apply (st_end cf l v [] l1 V). constructor.
  - apply (cp_token cf t KEnd l1 r n B Ta). exact N.
Qed.
