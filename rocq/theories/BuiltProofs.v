(** Every value a program can make keeps its keys in order. *)
From Coq Require Import Lia ZifyBool ZifyNat ZifyN.
From Verif Require Import Base Encoding Value Parser ValueOps Iterator SpecGrammar SpecText ObjFacts SpecValue SpecIter SpecBuilt ValueProofs IterProofs TextFacts.

Lemma element_ordered : forall a v x, ordered v -> element a v x -> ordered x.
Proof.
  intros a v x H E. inversion E; subst; inversion H; subst; try constructor; eauto using nth_error_In.
Qed.

Lemma via1_throw : forall R a (f : value -> res R) v, ordered v ->
  (exists x, ordered x /\ snd (via1 a f v) = snd (f x)) \/ (exists e, snd (via1 a f v) = Throw e) \/ snd (via1 a f v) = UB.
Proof.
  intros R a f v Ho.
  assert (C : (match a with RefIdx i => i < 18446744073709551615 | _ => True end) ->
    (exists x, ordered x /\ snd (via1 a f v) = snd (f x)) \/ (exists e, snd (via1 a f v) = Throw e) \/ snd (via1 a f v) = UB).
  { intro Hi. destruct (via1_cases R a f v Ho Hi) as [(e & _ & E)|(_ & x & El & E)].
    - right. left. exists e. rewrite E. reflexivity.
    - left. exists x. split; [eapply element_ordered; eassumption|assumption]. }
  destruct a as [i|k|i|k]; [exact (C Logic.I)|exact (C Logic.I)| |exact (C Logic.I)]. clear C.
  cbn [via1]. unfold via_idx.
  assert (G : forall l, ordered (VArr l) ->
    (exists x, ordered x /\ snd (in_elem i f l) = snd (f x)) \/ (exists e, snd (in_elem i f l) = Throw e) \/ snd (in_elem i f l) = UB).
  { intros l Hl. unfold in_elem. destruct (nth_error l (N.to_nat i)) as [x|] eqn:E; [|auto].
    left. exists x. split; [|destruct (f x); reflexivity]. inversion Hl; subst. eauto using nth_error_In. }
  assert (G' : forall l, ordered (VArr l) -> forall n, ordered (VArr (if len l <=? i then l ++ repeat VNull n else l))).
  { intros l Hl n. destruct (len l <=? i); [|assumption]. inversion Hl; subst. constructor. intros x Hx.
    apply in_app_or in Hx. destruct Hx as [Hx|Hx]; [auto|]. apply repeat_spec in Hx. subst. constructor. }
  destruct v; cbn [of_type]; try (right; left; eexists; reflexivity); apply G; apply G'; auto.
  constructor. intros ? [].
Qed.

Lemma get_ordered : forall p v x, ordered v -> snd (run p Get v) = Ret (RVal x) -> ordered x.
Proof.
  unfold run. induction p as [|a p IH]; intros v x Ho H; cbn [via] in H.
  - cbn [run_op snd] in H. injection H as <-. assumption.
  - destruct (via1_throw _ a (via p (run_op Get)) v Ho) as [(y & Oy & E)|[(e & E)|E]]; rewrite E in H; try discriminate.
    eapply IH; eassumption.
Qed.

Lemma built_ordered : forall v, built v -> ordered v.
Proof.
  intros v H. induction H as [cf s v Hok E|t|b|z|f|s|l _ IH|l _ IH|p x v _ IHx _ IHv|p x v _ IHx _ IHv|p k v _ IH|p i v _ IH|p v _ IH
    |p v x _ IH E|mem a it _ IH|mem a it jt _ IH].
  - eapply parse_ordered; eassumption.
  - destruct t; constructor; try (intros ? ? []; fail); try (intros ? []; fail); constructor.
  - constructor.
  - constructor.
  - constructor.
  - constructor.
  - constructor. assumption.
  - apply make_object_ordered. assumption.
  - apply run_ordered; [|assumption]. intros y [<-|[]]. assumption.
  - apply run_ordered; [|assumption]. intros y [<-|[]]. assumption.
  - apply run_ordered; [|assumption]. intros y [].
  - apply run_ordered; [|assumption]. intros y [].
  - apply run_ordered; [|assumption]. intros y [].
  - eapply get_ordered; eassumption.
  - apply (erase_it_ordered mem a it it IH).
  - apply (erase_it_ordered mem a it jt IH).
Qed.

Lemma empty_map : is_map [] (fun _ => None).
Proof. split; [constructor|]. intros k x. split; [intros []|discriminate]. Qed.

Lemma empty_seq : is_seq [] (0, fun _ => None).
Proof. split; [reflexivity|]. cbn [fst snd]. split; [lia|reflexivity]. Qed.

Lemma null_object : forall o, makes_object o ->
  exists l' m' r, run_oop o VNull = (VObj l', r) /\ is_map l' m' /\ fm_step o (fun _ => None) m' r.
Proof.
  intros o Ho. destruct o as [k f| |]; try contradiction. apply (obj_step (InKey k f) [] _ empty_map).
Qed.

Lemma null_array : forall o, makes_array o -> idx_ok o ->
  exists l' s' r, run_aop o VNull = (VArr l', r) /\ is_seq l' s' /\ seq_step o (0, fun _ => None) s' r.
Proof.
  intros o Ho Hi. destruct o as [i f| |x|]; try contradiction.
  - apply (arr_step (InIdx i f) [] _ Hi empty_seq).
  - apply (arr_step (Push x) [] _ Hi empty_seq).
Qed.

Lemma ordered_map : forall l, ordered (VObj l) -> exists m, is_map l m.
Proof.
  intros l H. inversion H; subst. exists (fun k => obj_find k l). apply is_map_find. split; [assumption|reflexivity].
Qed.

Lemma largest_index : exists o l, ~ idx_ok o /\ (exists s, is_seq l s) /\ snd (run_aop o (VArr l)) = UB /\
  forall s', ~ seq_step o (0, fun _ => None) s' UB.
Proof.
  exists (InIdx 18446744073709551615 (run_op Get)), []. split; [cbn [idx_ok]; lia|]. split; [eexists; apply empty_seq|].
  split.
  { cbn [run_aop]. unfold via_idx. change (u64 _) with 0%N. change (N.to_nat 0) with O. cbn [repeat app].
    unfold in_elem. destruct (len [] <=? 18446744073709551615); destruct (N.to_nat 18446744073709551615); reflexivity. }
  intros [n g] (_ & _ & H & _). discriminate.
Qed.

Lemma chain_changes : exists p o v e, ordered v /\ snd (run p o v) = Throw e /\ fst (run p o v) <> v.
Proof.
  exists [RefKey [97]; AtIdx 0], Clear, VNull. eexists. split; [constructor|]. split; [vm_compute; reflexivity|]. vm_compute. discriminate.
Qed.

Lemma clear_all : forall v, type_of (v_clear v) = type_of v /\ v_clear v = of_type (type_of v) /\
  (container v -> v_empty (v_clear v) = true /\ elements (v_clear v) []) /\ v_clear (v_clear v) = v_clear v.
Proof.
  intro v. destruct (clear_default v) as [A B]. split; [exact A|]. split; [exact B|]. split.
  - intros [T|T]; destruct v; try discriminate; (split; [reflexivity|]).
    + apply (es_arr []).
    + apply (es_obj []).
  - rewrite !B. destruct v; reflexivity.
Qed.
