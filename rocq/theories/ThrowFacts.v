(** The lemmas behind PropThrow.v. *)
From Coq Require Import Lia ZifyBool ZifyNat ZifyN Floats.SpecFloat.
From Verif Require Import Base Stream Encoding Value Token Parser EncodingProofs Feeds ListMachine Simulation SimParse
  SpecUnicode SpecGrammar GrammarLex GrammarTok ObjFacts GrammarProofs SpecPos SpecGap PosProofs PosSound Mono Context
  GrammarFacts SpecText SpecMessage MessageLex MessageFacts PartialProofs SpecStream StreamProofs ThrowProofs CutProofs.

(** ** What the source feeds *)

Lemma failing_thr : forall ck s b, failing s b -> Forall (fun u => u < eof_unit ck) s -> thr ck s b.
Proof.
  intros ck s b (src & H & ->) B. split; [|exact I].
  change (fresh 0 ck s (IThr src (0 + length s) 0 0%Z)). apply fr_thrower; [exact H| |destruct ck; discriminate].
  intros -> J. rewrite Forall_forall in B. pose proof (B _ J) as L. cbn in L. lia.
Qed.

Lemma failing_feeds : forall cf s b l t, enc_ok (src_enc cf) (src_ck cf) = true -> failing s b ->
  Forall (fun u => u < eof_unit (src_ck cf)) s -> (src_enc cf = Utf8 -> ~ In 0 s) ->
  feeds (src_enc cf) (src_ck cf) (is_open (IStr s)) l t ->
  exists k, feeds (src_enc cf) (src_ck cf) (is_open b) l (TBad k) /\
    (t = TEof -> k = broken_code (src_enc cf) (src_ck cf)).
Proof.
  intros cf s b l t Ok Fa B Z F. apply (feeds_thrower (src_ck cf) (src_enc cf) _ l t F Ok s b eq_refl Z); [|exact B].
  apply failing_thr; assumption.
Qed.

Lemma failing_run : forall cf s b l t n, enc_ok (src_enc cf) (src_ck cf) = true -> failing s b ->
  Forall (fun u => u < eof_unit (src_ck cf)) s -> (src_enc cf = Utf8 -> ~ In 0 s) ->
  feeds (src_enc cf) (src_ck cf) (is_open (IStr s)) l t -> (fuel_for s <= n)%nat ->
  exists k, (t = TEof -> k = broken_code (src_enc cf) (src_ck cf)) /\
    (forall h c, parse_ibuf cf h n c b = top cf (TBad k) h c l /\ fst (snd (parse_ibuf cf h n c b)) <> OutOfFuel).
Proof.
  intros cf s b l t n Ok Fa B Z F L. destruct (failing_feeds cf s b l t Ok Fa B Z F) as (k & Fb & K).
  exists k. split; [exact K|]. intros h c.
  assert (Ln : (length l <= length s)%nat).
  { destruct (feeds_string (src_enc cf) (src_ck cf) s) as (l' & t' & F' & Ls).
    destruct (feeds_det _ _ _ _ _ F _ _ F') as [-> _]. exact Ls. }
  unfold fuel_for in L. assert (E : parse_ibuf cf h n c b = top cf (TBad k) h c l) by (apply parse_ibuf_top; [exact Fb|unfold need; lia]).
  split; [exact E|]. rewrite E. apply (top_nofuel cf (TBad k) h c l b Fb).
Qed.

(** ** The result *)

Section Run.
Variables (cf : pcfg) (s : list N) (b : ibuf) (l : list N) (t : term) (n : nat).
Hypothesis Ok : enc_ok (src_enc cf) (src_ck cf) = true.
Hypothesis Ot : enc_ok (tgt_enc cf) (tgt_ck cf) = true.
Hypothesis Fa : failing s b.
Hypothesis B : Forall (fun u => u < eof_unit (src_ck cf)) s.
Hypothesis Z : src_enc cf = Utf8 -> ~ In 0 s.
Hypothesis F : feeds (src_enc cf) (src_ck cf) (is_open (IStr s)) l t.
Hypothesis L : (fuel_for s <= n)%nat.

Lemma lost_throw : forall A k, @lost k A = Throw (EDeser (with_number "decoding failed with codepoint" k)).
Proof. intros. unfold lost, dec_err. apply T_code. reflexivity. Qed.

Lemma run_same_or_lost : forall c,
  parse_ibuf cf HNone n c b = parse_into cf HNone c s \/
  exists k, (t = TEof -> k = broken_code (src_enc cf) (src_ck cf)) /\
    fst (snd (parse_ibuf cf HNone n c b)) = Throw (EDeser (with_number "decoding failed with codepoint" k)).
Proof.
  intros c. destruct (failing_run cf s b l t n Ok Fa B Z F L) as (k & K & R). destruct (R HNone c) as [E _].
  destruct (cut_top t k cf (need l) c l) as [H|H].
  - right. exists k. split; [exact K|]. rewrite E. unfold top. rewrite H. apply lost_throw.
  - left. rewrite E, (parse_into_top cf HNone c s l t F). symmetry. exact H.
Qed.

Lemma run_contained : forall h c, let r := fst (snd (parse_ibuf cf h n c b)) in
  r = Ret tt \/ (exists m, r = Throw (EDeser m)) \/ r = Abort \/ r = UB.
Proof.
  intros h c r. subst r. destruct (failing_run cf s b l t n Ok Fa B Z F L) as (k & _ & R). destruct (R h c) as [E Nf].
  rewrite E in Nf |- *. unfold top, a_top in *. destruct (at_bad (TBad k) l); [right; left; eexists; reflexivity|].
  pose proof (nice_body cf (TBad k) (need l) c l) as Ni. destruct (a_body cf (TBad k) (need l) c l) as [v r]. cbn [fst snd] in *.
  destruct r as [[]|e| | |]; cbn in *; auto.
  - destruct Ni as [m ->]. destruct h; cbn; eauto.
  - congruence.
Qed.

Lemma run_tops : exists k, (t = TEof -> k = broken_code (src_enc cf) (src_ck cf)) /\
  (let '(v, (r, _)) := parse_ibuf cf HNone n VNull b in let* _ := r in Ret v) = tops cf (TBad k) l.
Proof.
  destruct (failing_run cf s b l t n Ok Fa B Z F L) as (k & K & R). exists k. split; [exact K|].
  destruct (R HNone VNull) as [-> _]. unfold top, a_top, tops. destruct (at_bad (TBad k) l); [reflexivity|].
  destruct (a_body cf (TBad k) (need l) VNull l) as [v [| | | |]]; reflexivity.
Qed.
End Run.

Theorem thrown_accepts : forall cf s b l t n v,
  enc_ok (src_enc cf) (src_ck cf) = true -> enc_ok (tgt_enc cf) (tgt_ck cf) = true -> failing s b ->
  Forall (fun u => u < eof_unit (src_ck cf)) s -> (src_enc cf = Utf8 -> ~ In 0 s) ->
  feeds (src_enc cf) (src_ck cf) (is_open (IStr s)) l t -> (fuel_for s <= n)%nat ->
  (read_all cf n b = Ret v <-> exists rest, document cf l v rest /\ rest <> []).
Proof.
  intros cf s b l t n v Ok Ot Fa B Z F L. destruct (run_tops cf s b l t n Ok Fa B Z F L) as (k & _ & E).
  unfold read_all. rewrite E, (tops_iff cf (TBad k) l v Ot). split; intros (rest & D & H); exists rest; (split; [exact D|]); [|auto].
  destruct H as [H|H]; [discriminate|exact H].
Qed.

Theorem thrown_message : forall cf s b l t n,
  enc_ok (src_enc cf) (src_ck cf) = true -> enc_ok (tgt_enc cf) (tgt_ck cf) = true -> failing s b ->
  Forall (fun u => u < eof_unit (src_ck cf)) s -> (src_enc cf = Utf8 -> ~ In 0 s) ->
  feeds (src_enc cf) (src_ck cf) (is_open (IStr s)) l t -> (fuel_for s <= n)%nat ->
  exists k, (t = TEof -> k = broken_code (src_enc cf) (src_ck cf)) /\
    forall m, read_all cf n b = Throw (EDeser m) <-> objection cf (TBad k) l m.
Proof.
  intros cf s b l t n Ok Ot Fa B Z F L. destruct (run_tops cf s b l t n Ok Fa B Z F L) as (k & K & E).
  exists k. split; [exact K|]. intros m. unfold read_all. rewrite E. apply tops_message. exact Ot.
Qed.

Theorem thrown_complete : forall cf s b l v n,
  enc_ok (src_enc cf) (src_ck cf) = true -> enc_ok (tgt_enc cf) (tgt_ck cf) = true -> failing s b ->
  Forall (fun u => u < eof_unit (src_ck cf)) s -> (src_enc cf = Utf8 -> ~ In 0 s) ->
  feeds (src_enc cf) (src_ck cf) (is_open (IStr s)) l TEof -> (fuel_for s <= n)%nat -> document cf l v [] ->
  read_all cf n b = Throw (EDeser (with_number "decoding failed with codepoint" (broken_code (src_enc cf) (src_ck cf)))).
Proof.
  intros cf s b l v n Ok Ot Fa B Z F L D.
  assert (N : forall w rest, document cf l w rest -> rest = []).
  { intros w rest D2. inversion D as [? ? l1 V1 B1|]; subst. inversion D2 as [|? ? l2 l3 V2 B2]; subst; [reflexivity|].
    destruct (val_det cf Ot _ _ _ _ _ V1 V2) as [_ <-]. pose proof (blank_det _ _ _ B1 B2) as X. discriminate X. }
  destruct (run_same_or_lost cf s b l TEof n Ok Fa B Z F L VNull) as [E|(k & K & E)].
  - exfalso. assert (X : read_all cf n b = Ret v).
    { unfold read_all. rewrite E. change (parse_string cf s = Ret v). rewrite (parse_string_tops cf s l TEof F).
      apply tops_iff; [exact Ot|]. exists []. auto. }
    apply (thrown_accepts cf s b l TEof n v Ok Ot Fa B Z F L) in X. destruct X as (rest & D2 & Ne). apply Ne, (N _ _ D2).
  - rewrite <- (K eq_refl). unfold read_all. destruct (parse_ibuf cf HNone n VNull b) as [w [r x]]. cbn in E. rewrite E. reflexivity.
Qed.

Lemma complete_lost : forall n v, (fuel_for (chars "[1]") <= n)%nat ->
  read_all cfg_json n (IThr (fun n => nth n (chars "[1]") 0) 3 0 0%Z) <> Ret v.
Proof.
  intros n v L. assert (F : feeds Utf8 C8 (is_open (IStr (chars "[1]"))) (chars "[1]") TEof).
  { apply (feeds_ascii Utf8 C8 (chars "[1]")); [reflexivity|]. repeat constructor. }
  intro H. apply (thrown_accepts cfg_json (chars "[1]") _ (chars "[1]") TEof n v) in H; try reflexivity; try exact L; try exact F.
  - destruct H as (rest & D & Ne).
    assert (X : tops cfg_json (TBad 0) (chars "[1]") = Ret v) by (apply tops_iff; [reflexivity|]; exists rest; auto).
    vm_compute in X. discriminate X.
  - exists (fun n => nth n (chars "[1]") 0). split; reflexivity.
  - repeat constructor.
  - intros _ [J|[J|[J|[]]]]; discriminate J.
Qed.
