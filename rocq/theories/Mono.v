(** A recursion budget that suffices gives the same result as any larger one. *)
From Coq Require Import Lia.
From Verif Require Import Base Stream Encoding Value Token Parser Feeds ListMachine Simulation SimParse.

Lemma mono_string : forall cf t n o l, snd (a_string cf t n o l) <> OutOfFuel ->
  forall m, (n <= m)%nat -> a_string cf t m o l = a_string cf t n o l.
Proof.
  intros cf t n. induction n as [|n IH]; intros o l H m L; [exfalso; apply H; reflexivity|].
  destruct m as [|m]; [lia|]. assert (Lm : (n <= m)%nat) by lia. cbn [a_string] in *.
  destruct (tl l) as [|c l2]; [reflexivity|].
  destruct (c =? c_quote); [reflexivity|]. destruct (c <=? 31); [reflexivity|].
  destruct (c =? c_bslash).
  - destruct (at_bad t l2); [reflexivity|]. destruct (simple_escape (hd0 l2)); [apply IH; assumption|].
    destruct (hd0 l2 =? c_u); [|reflexivity]. destruct (a_u t l2) as [[cp l3]| | | |]; try reflexivity.
    destruct (os_fail _); [reflexivity|apply IH; assumption].
  - destruct (os_fail _); [reflexivity|apply IH; assumption].
Qed.

Lemma mono_get_string : forall cf t n l, snd (a_get_string cf t n l) <> OutOfFuel ->
  forall m, (n <= m)%nat -> a_get_string cf t m l = a_get_string cf t n l.
Proof.
  intros cf t n l H m L. unfold a_get_string in *. rewrite (mono_string cf t n) with (m := m); [reflexivity| |assumption].
  destruct (a_string cf t n _ l). exact H.
Qed.

Lemma not_oof_stop : forall A B (o : outcome A), @stop A B o <> OutOfFuel -> o <> OutOfFuel.
Proof. intros A B [] H E; try discriminate. apply H; reflexivity. Qed.

Lemma mono_all : forall cf t n,
  (forall c tok l, snd (a_parse cf t n c tok l) <> OutOfFuel ->
     forall m, (n <= m)%nat -> a_parse cf t m c tok l = a_parse cf t n c tok l) /\
  (forall vs l, snd (a_arr cf t n vs l) <> OutOfFuel ->
     forall m, (n <= m)%nat -> a_arr cf t m vs l = a_arr cf t n vs l) /\
  (forall ms l, snd (a_obj cf t n ms l) <> OutOfFuel ->
     forall m, (n <= m)%nat -> a_obj cf t m ms l = a_obj cf t n ms l).
Proof.
  intros cf t n. induction n as [|n (IHp & IHa & IHo)].
  { split; [|split]; intros; exfalso; match goal with H : _ <> _ |- _ => apply H; reflexivity end. }
  split; [|split].
  - intros c tok l H m L. destruct m as [|m]; [lia|]. assert (Lm : (n <= m)%nat) by lia.
    cbn [a_parse] in *.
    destruct (match tok with None => a_scan cf t l | Some k => Ret (k, l) end) as [[k l1]| | | |]; try reflexivity.
    destruct k as [k| |]; try reflexivity. destruct k; try reflexivity.
    + rewrite (mono_get_string cf t (S n)) with (m := S m); [reflexivity| |lia].
      destruct (a_get_string cf t (S n) l1). exact H.
    + rewrite (IHa [] l1) with (m := m); [reflexivity| |assumption].
      destruct (a_arr cf t n [] l1) as [vs [[[k| |] l2]| | | |]]; cbn in *; congruence.
    + rewrite (IHo [] l1) with (m := m); [reflexivity| |assumption].
      destruct (a_obj cf t n [] l1) as [vs [[[k| |] l2]| | | |]]; cbn in *; congruence.
  - intros vs l H m L. destruct m as [|m]; [lia|]. assert (Lm : (n <= m)%nat) by lia.
    cbn [a_arr] in *. destruct (a_scan cf t l) as [[k l1]| | | |]; try reflexivity.
    destruct (a_starts k); [|reflexivity].
    rewrite (IHp VNull (Some k) l1) with (m := m); [| |assumption].
    2:{ destruct (a_parse cf t n VNull (Some k) l1) as [v [| | | |]]; cbn in *; congruence. }
    destruct (a_parse cf t n VNull (Some k) l1) as [v [l2| | | |]]; try reflexivity.
    destruct (a_scan cf t l2) as [[k2 l3]| | | |]; try reflexivity.
    destruct k2 as [k2| |]; try reflexivity. destruct k2; try reflexivity. apply IHa; assumption.
  - intros ms l H m L. destruct m as [|m]; [lia|]. assert (Lm : (n <= m)%nat) by lia.
    cbn [a_obj] in *. destruct (a_scan cf t l) as [[k l1]| | | |]; try reflexivity.
    destruct k as [k| |]; try reflexivity. destruct k; try reflexivity.
    rewrite (mono_get_string cf t (S n)) with (m := S m); [| |lia].
    2:{ destruct (a_get_string cf t (S n) l1) as [s [| | | |]]; cbn in *; congruence. }
    destruct (a_get_string cf t (S n) l1) as [s [l2| | | |]]; try reflexivity.
    destruct (a_scan cf t l2) as [[k2 l3]| | | |]; try reflexivity.
    destruct k2 as [k2| |]; try reflexivity. destruct k2; try reflexivity.
    rewrite (IHp VNull None l3) with (m := m); [| |assumption].
    2:{ destruct (a_parse cf t n VNull None l3) as [v [| | | |]]; cbn in *; congruence. }
    destruct (a_parse cf t n VNull None l3) as [v [l4| | | |]]; try reflexivity.
    destruct (a_scan cf t l4) as [[k3 l5]| | | |]; try reflexivity.
    destruct k3 as [k3| |]; try reflexivity. destruct k3; try reflexivity. apply IHo; assumption.
Qed.

Lemma mono_body : forall cf t n c l, snd (a_body cf t n c l) <> OutOfFuel ->
  forall m, (n <= m)%nat -> a_body cf t m c l = a_body cf t n c l.
Proof.
  intros cf t n c l H m L. unfold a_body in *. destruct (mono_all cf t n) as (P & _ & _).
  rewrite (P c None l) with (m := m); [reflexivity| |assumption].
  destruct (a_parse cf t n c None l) as [v [| | | |]]; cbn in *; congruence.
Qed.

(** ** The result as a function of the code points *)

Definition need (l : list N) : nat := (2 * length l + 1)%nat.
Definition top (cf : pcfg) (t : term) (h : handler) (c : value) (l : list N) := a_top cf t h (need l) c l.

Lemma body_nofuel : forall cf c b l t n,
  feeds (src_enc cf) (src_ck cf) (is_open b) l t -> at_bad t l = false -> (need l <= n)%nat ->
  snd (a_body cf t n c l) <> OutOfFuel.
Proof.
  intros cf c b l t n F B L H. destruct (parse_ibuf_list cf HNone n c b l t F L) as [E X].
  apply X. rewrite E. unfold a_top. rewrite B. destruct (a_body cf t n c l) as [v r]. cbn in *. subst. reflexivity.
Qed.

Lemma parse_ibuf_top : forall cf h n c b l t,
  feeds (src_enc cf) (src_ck cf) (is_open b) l t -> (need l <= n)%nat ->
  parse_ibuf cf h n c b = top cf t h c l.
Proof.
  intros cf h n c b l t F L. destruct (parse_ibuf_list cf h n c b l t F L) as [E _]. rewrite E.
  unfold top, a_top. destruct (at_bad t l) eqn:B; [reflexivity|].
  rewrite (mono_body cf t (need l)) with (m := n); [reflexivity| |assumption].
  eapply body_nofuel; eauto.
Qed.

Lemma parse_into_top : forall cf h c s l t,
  feeds (src_enc cf) (src_ck cf) (sis s) l t -> parse_into cf h c s = top cf t h c l.
Proof.
  intros cf h c s l t F. unfold parse_into. apply parse_ibuf_top; [exact F|].
  destruct (feeds_string (src_enc cf) (src_ck cf) s) as (l' & t' & F' & L).
  destruct (feeds_det _ _ _ _ _ F _ _ F') as [-> ->]. unfold need, fuel_for. lia.
Qed.

Lemma top_nofuel : forall cf t h c l b, feeds (src_enc cf) (src_ck cf) (is_open b) l t ->
  fst (snd (top cf t h c l)) <> OutOfFuel.
Proof.
  intros cf t h c l b F. rewrite <- (parse_ibuf_top cf h (need l) c b l t F (le_n _)).
  apply parse_ibuf_list with (l := l) (t := t); [assumption|apply le_n].
Qed.
