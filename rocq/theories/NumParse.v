(** The parser for any number types accepts exactly the documents of
    SpecNumType.v whose literals have a meaning. *)
From Coq Require Import Lia ZifyBool ZifyNat ZifyN.
From Verif Require Import Base Stream Encoding Value Token Message Parser EncodingProofs Feeds ListMachine Simulation SimParse
  SpecUnicode SpecGrammar GrammarLex GrammarTok ObjFacts GrammarProofs GrammarFacts Container ContainerProofs NumType SpecNumType NumLex.
Open Scope N_scope.

(** ** Members of any kind *)
Definition emplace_any {A} (ms m : list (str * A)) : list (str * A) :=
  fold_left (fun m p => obj_emplace (fst p) (snd p) m) ms m.

Lemma emplace_any_sorted : forall A (ms m : list (str * A)), sorted m -> sorted (emplace_any ms m).
Proof.
  intro A. induction ms as [|[k v] ms IH]; intros m H; [assumption|].
  cbn [emplace_any fold_left]. apply IH. apply emplace_sorted. assumption.
Qed.
Lemma emplace_any_find : forall A (ms m : list (str * A)) k, sorted m ->
  obj_find k (emplace_any ms m) = match obj_find k m with Some v => Some v | None => obj_find k ms end.
Proof.
  intro A. induction ms as [|[k0 v0] ms IH]; intros m k H; cbn [emplace_any fold_left fst snd].
  - destruct (obj_find k m); reflexivity.
  - change (fold_left _ ms ?x) with (emplace_any ms x). rewrite IH by (apply emplace_sorted; assumption).
    rewrite find_emplace by assumption. cbn [obj_find]. destruct (obj_find k m); [reflexivity|].
    destruct (str_eqb k k0); reflexivity.
Qed.
Lemma obj_of_any_iff : forall A (ms m : list (str * A)), obj_of_any ms m <-> m = emplace_any ms [].
Proof.
  intros A ms m.
  assert (O : obj_of_any ms (emplace_any ms [])).
  { split; [apply emplace_any_sorted; constructor|].
    intros k v. rewrite <- !find_iff. rewrite emplace_any_find by constructor. reflexivity. }
  split; [|intros ->; exact O].
  intros [S E]. destruct O as [S' E']. apply sorted_unique; [assumption|assumption|].
  intros k v. rewrite <- E, <- E'. reflexivity.
Qed.

(** ** Lengths *)
Lemma next_len : forall l c r, next l c r -> (length r <= length l)%nat.
Proof. intros l c r H. inversion H; subst; cbn [length]; lia. Qed.
Lemma exponent_lit_len : forall ck l x l', exponent_lit ck l x l' -> (length l' <= length l)%nat.
Proof.
  intros ck l x l' H. inversion H as [? ? ? _ _ _ _|? ? ? ? Nx _ _|? ? ? ? Nx _ _]; subst; try apply next_len in Nx;
    cbn [length] in *; rewrite ?app_length in *; lia.
Qed.
Lemma exp_lit_len : forall ck l x l', exp_lit ck l x l' -> (length l' <= length l)%nat.
Proof. intros ck l x l' H. inversion H as [|? ? ? ? _ X]; subst; [lia|]. apply exponent_lit_len in X. cbn [length]. lia. Qed.
Lemma fraction_lit_len : forall ck l x l', fraction_lit ck l x l' -> (length l' < length l)%nat.
Proof. intros ck l x l' H. inversion H as [? ? ? ? ? _ _ X]; subst. apply exp_lit_len in X. cbn [length]. rewrite app_length. lia. Qed.
Lemma unsigned_lit_len : forall ck nd b l x l', unsigned_lit ck nd b l x l' -> (length l' <= length l)%nat.
Proof.
  intros ck nd b l x l' H. inversion H as [|? ? ? ? F|? ? ? ? Nx|? ? ? ? ? ? ? Nx _ _ _ F|? ? ? ? ? ? ? Nx _ _ _ _ X]; subst; cbn [length]; try lia;
    try apply fraction_lit_len in F; try apply exponent_lit_len in X; try apply next_len in Nx; cbn [length] in *; rewrite ?app_length in *;
    cbn [length] in *; lia.
Qed.
Lemma unsigned_lit_digit : forall ck nd b c l x l', 48 <= c -> unsigned_lit ck nd b (c :: l) x l' -> (length l' <= length l)%nat.
Proof.
  intros ck nd b c l x l' C H. inversion H as [|? ? ? ? F|? ? ? ? Nx|? ? ? ? ? ? ? Nx _ _ _ F|? ? ? ? ? ? ? Nx _ _ _ _ X]; subst; try lia;
    try apply fraction_lit_len in F; try apply exponent_lit_len in X; cbn [length] in *; try lia;
    inversion Nx; subst; rewrite ?app_length in *; cbn [length] in *; lia.
Qed.
Lemma number_lit_len : forall ck nd l x l', number_lit ck nd l x l' -> (length l' < length l)%nat.
Proof.
  intros ck nd l x l' H. inversion H as [? ? ? ? C _ U|? ? ? U|? ? ? U]; subst.
  - apply unsigned_lit_digit in U; [|assumption]. cbn [length]. lia.
  - apply unsigned_lit_len in U. cbn [length]. lia.
  - apply unsigned_lit_len in U. cbn [length]. lia.
Qed.
Lemma number_lit_start : forall ck nd l x l', number_lit ck nd l x l' -> exists c l1, l = c :: l1 /\ num_start c = true.
Proof. intros ck nd l x l' H. destruct H; eexists _, _; (split; [reflexivity|]); unfold num_start; try reflexivity. lia. Qed.
Lemma ok_eof : forall l, ok TEof l.
Proof. intros [|c l]; reflexivity. Qed.
Lemma literal_len : forall cf l v l', literal (src_ck cf) l v l' -> (length l' < length l)%nat.
Proof.
  intros cf l v l' H.
  assert (B : blank l l).
  { apply literal_start in H. destruct H as (c & l1 & -> & C). apply bl_none. unfold space. lia. }
  apply tok_of_literal in H. destruct H as (x & T & X).
  pose proof (scan_c cf TEof _ _ _ _ B T (ok_eof _)) as S. apply a_scan_len in S. apply S. destruct x; try contradiction; reflexivity.
Qed.

Scheme says_mut := Minimality for says Sort Prop
  with says_elems_mut := Minimality for says_elems Sort Prop
  with says_members_mut := Minimality for says_members Sort Prop.
Combined Scheme says_all_mut from says_mut, says_elems_mut, says_members_mut.

Lemma says_lens : forall cf,
  (forall l d l', says cf l d l' -> (length l' < length l)%nat) /\
  (forall l ds l', says_elems cf l ds l' -> (length l' < length l)%nat) /\
  (forall l ds l', says_members cf l ds l' -> (length l' < length l)%nat).
Proof.
  intro cf. apply (says_all_mut cf (fun l _ l' => length l' < length l)%nat (fun l _ l' => length l' < length l)%nat (fun l _ l' => length l' < length l)%nat);
    intros;
    repeat match goal with
    | H : literal _ _ _ _ |- _ => apply literal_len in H
    | H : number_lit _ _ _ _ _ |- _ => apply number_lit_len in H
    | H : strlit _ _ _ _ _ |- _ => let X := fresh in destruct (strlit_start cf _ _ _ _ _ H) as (? & -> & X); clear H
    | H : blank _ _ |- _ => apply blank_len in H
    end; cbn [length] in *; lia.
Qed.
Lemma says_len : forall cf l d l', says cf l d l' -> (length l' < length l)%nat.
Proof. intro cf. apply (proj1 (says_lens cf)). Qed.
Lemma elems_len : forall cf l d l', says_elems cf l d l' -> (length l' < length l)%nat.
Proof. intro cf. apply (proj1 (proj2 (says_lens cf))). Qed.
Lemma members_len : forall cf l d l', says_members cf l d l' -> (length l' < length l)%nat.
Proof. intro cf. apply (proj2 (proj2 (says_lens cf))). Qed.

Section Parse.
Variables (T : numty) (cf : pcfg) (t : term).
Hypothesis Hok : enc_ok (tgt_enc cf) (tgt_ck cf) = true.
Notation at_n s l := (at_ cf (n_p s) l t).
Notation val := (gval (nI T) (nF T)).

(** ** Tokens *)

(** off the starts of numbers the scanner is that of Parser.v *)
Lemma scan_other : forall m s p, skip_spaces cf m (n_p s) = Ret p -> is_eof (p_is p) = true \/ num_start (p_cur p) = false ->
  n_scan T cf m s = let* r := scan cf m (n_p s) in Ret (fst r, with_p T s (snd r)).
Proof.
  intros m s p E C. unfold n_scan, scan. rewrite E. cbn [bind]. destruct (is_eof (p_is p)); [reflexivity|].
  destruct C as [C|C]; [discriminate|]. unfold num_start in C.
  destruct (punct (p_cur p)); [destruct (read_next cf p); reflexivity|].
  destruct (p_cur p =? c_t); [reflexivity|]. destruct (p_cur p =? c_f); [reflexivity|]. destruct (p_cur p =? c_n); [reflexivity|].
  destruct (p_cur p =? c_quote); [reflexivity|]. rewrite C.
  destruct (p_cur p =? 0); reflexivity.
Qed.
Lemma scan_number_start : forall m s p, skip_spaces cf m (n_p s) = Ret p -> is_eof (p_is p) = false -> num_start (p_cur p) = true ->
  n_scan T cf m s = n_number T cf m (with_p T s p).
Proof.
  intros m s p E F C. unfold n_scan. rewrite E. cbn [bind]. rewrite F. unfold num_start in C.
  assert (X : punct (p_cur p) = None).
  { unfold punct. repeat match goal with |- context [N.eqb ?a ?b] => destruct (N.eqb_spec a b); [lia|] end. reflexivity. }
  rewrite X.
  destruct (N.eqb_spec (p_cur p) 116); [lia|]. destruct (N.eqb_spec (p_cur p) 102); [lia|]. destruct (N.eqb_spec (p_cur p) 110); [lia|].
  destruct (N.eqb_spec (p_cur p) 34); [lia|]. rewrite C. reflexivity.
Qed.

Definition phrase (l : list N) (r : token * nst T) (l' : list N) : Prop :=
  (exists x, number_lit (src_ck cf) (ndebug cf) l x l' /\ reads_lit T x r) \/ tok_at cf l (AT (fst r)) l'.

Lemma skip_snd : forall p l m p', at_ cf p l t -> (length l < m)%nat -> skip_spaces cf m p = Ret p' ->
  exists l1, blank l l1 /\ at_ cf p' l1 t /\ a_skip MWs t l = Ret l1.
Proof.
  intros p l m p' A L H. pose proof (skip_spaces_sim cf t (length l) l p m (le_n _) A L) as S. rewrite H in S.
  destruct (a_skip MWs t l) as [l1| | | |] eqn:E; cbn in S; try contradiction. destruct S as [A1 _]. exists l1.
  split; [|split; [exact A1|reflexivity]]. apply skip_iff in E; [apply E|]. eapply at_ok. exact A.
Qed.
Lemma skip_cpl : forall p l m l1, at_ cf p l t -> (length l < m)%nat -> blank l l1 -> ok t l1 ->
  exists p', skip_spaces cf m p = Ret p' /\ at_ cf p' l1 t.
Proof.
  intros p l m l1 A L B O. pose proof (skip_spaces_sim cf t (length l) l p m (le_n _) A L) as S.
  assert (E : a_skip MWs t l = Ret l1) by (apply skip_iff; [eapply at_ok; exact A|auto]). rewrite E in S.
  destruct (skip_spaces cf m p) as [p'| | | |]; cbn in S; try contradiction. exists p'. split; [reflexivity|apply S].
Qed.

Lemma scan_snd : forall s l m r, at_n s l -> (length l < m)%nat -> n_scan T cf m s = Ret r ->
  exists l1 l', blank l l1 /\ at_n (snd r) l' /\ phrase l1 r l'.
Proof.
  intros s l m r A L H.
  destruct (skip_spaces cf m (n_p s)) as [p| | | |] eqn:E; try (unfold n_scan in H; rewrite E in H; discriminate).
  destruct (skip_snd _ _ _ _ A L E) as (l1 & B & A1 & Ea). pose proof (blank_len _ _ B) as Bl.
  assert (D : is_eof (p_is p) = true \/ num_start (p_cur p) = false \/ (is_eof (p_is p) = false /\ num_start (p_cur p) = true))
    by (destruct (is_eof (p_is p)), (num_start (p_cur p)); auto).
  assert (O : is_eof (p_is p) = true \/ num_start (p_cur p) = false -> exists l1 l', blank l l1 /\ at_n (snd r) l' /\ phrase l1 r l').
  { clear D. intro D. rewrite (scan_other _ _ _ E D) in H. apply bind_ret_iff in H. destruct H as ([k p'] & Sc & H). inversion H; subst; clear H.
    cbn [fst snd]. pose proof (scan_sim cf t l (n_p s) m A L) as S. rewrite Sc in S.
    destruct (a_scan cf t l) as [[k' l']| | | |] eqn:Es; cbn [sim] in S; try contradiction. destruct S as [A' S]. cbn [fst snd] in *.
    exists l1, l'. split; [assumption|]. split; [exact A'|]. right. cbn [fst].
    unfold a_scan in Es. rewrite Ea in Es. cbn [bind] in Es. apply scan_tok_iff in Es; [|eapply at_ok; exact A1]. destruct Es as [T0 _].
    assert (Nn : forall v, tokv k' <> Some v).
    { intros v Ek. pose proof (tok_num _ _ _ _ _ T0 Ek) as Nu. apply number_start in Nu. destruct Nu as (c & l2 & -> & C).
      rewrite (at_eof _ _ _ _ A1), (at_cur _ _ _ _ A1) in D. cbn [hd0 hd] in D. destruct D; congruence. }
    destruct k'; [|exfalso; eapply Nn; reflexivity|exfalso; eapply Nn; reflexivity]. destruct S as [-> _]. exact T0. }
  destruct D as [D|[D|[D1 D2]]]; [auto|auto|]. clear O.
  rewrite (scan_number_start _ _ _ E D1 D2) in H. rewrite (at_eof _ _ _ _ A1) in D1. destruct l1 as [|c l1]; [discriminate|].
  rewrite (at_cur _ _ _ _ A1) in D2. cbn [hd0 hd] in D2.
  destruct (number_snd T cf t (with_p T s p) c l1 m r A1 D2 ltac:(cbn [length] in *; lia) H) as (x & l' & N & A' & R).
  exists (c :: l1), l'. split; [assumption|]. split; [assumption|]. left. eauto.
Qed.

Lemma scan_cpl : forall s l l1 k l' m, at_n s l -> (length l < m)%nat -> blank l l1 -> tok_at cf l1 (AT k) l' -> ok t l' ->
  exists s', n_scan T cf m s = Ret (k, s') /\ at_n s' l'.
Proof.
  intros s l l1 k l' m A L B T0 O. pose proof (ok_of_tok cf t _ _ _ T0 O) as O1.
  destruct (skip_cpl _ _ m _ A L B O1) as (p & E & A1).
  assert (D : is_eof (p_is p) = true \/ num_start (p_cur p) = false).
  { rewrite (at_eof _ _ _ _ A1), (at_cur _ _ _ _ A1). destruct l1 as [|c l1]; [auto|]. right. cbn [hd0 hd]. apply tok_none in T0.
    destruct k; try contradiction; try (inversion T0; subst; reflexivity).
    all: try (apply literal_start in T0; destruct T0 as (? & ? & X & Y); inversion X; subst; unfold num_start; lia).
    all: destruct T0 as [_ T0]; try (destruct T0 as [T0|T0]; [discriminate|]); destruct T0 as (l2 & X); inversion X; reflexivity. }
  rewrite (scan_other _ _ _ E D). destruct (scan_at_tok cf t _ _ _ _ (n_p s) m A L B T0 O) as (p' & Sc & A'). rewrite Sc.
  eexists. split; [reflexivity|exact A'].
Qed.

Lemma scan_cpl_num : forall s l l1 x l' m i, at_n s l -> (length l < m)%nat -> blank l l1 -> number_lit (src_ck cf) (ndebug cf) l1 x l' ->
  whole T x = Some i -> ok t l' -> exists r, n_scan T cf m s = Ret r /\ at_n (snd r) l' /\ reads_lit T x r.
Proof.
  intros s l l1 x l' m i A L B N W O. destruct (number_lit_start _ _ _ _ _ N) as (c & l2 & -> & C).
  destruct (skip_cpl _ _ m _ A L B (ok_cons _ _ _)) as (p & E & A1). pose proof (blank_len _ _ B) as Bl.
  rewrite (scan_number_start m s p E); [|rewrite (at_eof _ _ _ _ A1); reflexivity|rewrite (at_cur _ _ _ _ A1); exact C].
  eapply number_cpl; [exact A1|lia|eassumption..].
Qed.

Lemma get_str_snd : forall s l n k s', at_n s (34 :: l) -> (length l < n)%nat -> n_get_str T cf n s = (k, Ret s') ->
  exists l', strlit (tgt_enc cf) (tgt_ck cf) (34 :: l) k l' /\ at_n s' l'.
Proof.
  intros s l n k s' A L H. unfold n_get_str in H. destruct (get_string cf n (n_p s)) as [k' r] eqn:G. inversion H as [[K R]]; subst k'; clear H.
  destruct r as [p| | | |]; try discriminate. inversion R; subst s'; clear R.
  destruct (get_string_sim cf t n (34 :: l) (n_p s) A ltac:(cbn [length]; lia) ltac:(lia)) as [E X]. rewrite G in E, X. cbn [fst snd] in E, X.
  destruct (a_get_string cf t n (34 :: l)) as [k2 r2] eqn:Ga. cbn [fst snd] in E, X. subst k2.
  destruct r2 as [l'| | | |]; cbn [sim] in X; try contradiction. apply get_string_iff in Ga; [|assumption|assumption]. exists l'. split; [apply Ga|exact X].
Qed.
Lemma get_str_cpl : forall s l k l' n, at_n s l -> (length l <= n)%nat -> n <> 0%nat -> strlit (tgt_enc cf) (tgt_ck cf) l k l' -> ok t l' ->
  exists s', n_get_str T cf n s = (k, Ret s') /\ at_n s' l'.
Proof.
  intros s l k l' n A L N S O. destruct (get_string_at cf t Hok _ _ _ _ n A L N S O) as (p & G & A'). unfold n_get_str. rewrite G.
  eexists. split; [reflexivity|exact A'].
Qed.

(** ** What is accepted is a document *)
Definition begins (l0 : list N) (tok : option token) (s : nst T) (l : list N) : Prop :=
  match tok with
  | None => l = l0 /\ at_n s l
  | Some k => at_n s l /\ exists l1, blank l0 l1 /\ phrase l1 (k, s) l
  end.

Lemma stands_int : forall x s l i, reads_lit T x (Tint, s) -> n_get_int T s = Ret i -> at_n s l -> stands T x (GInt i).
Proof.
  intros x s l i (w & W & Ng & [(I & _ & E)|(_ & X & _)]) G A; [|discriminate]. cbn [fst snd] in *. unfold n_get_int in G. rewrite Ng, E in G.
  eapply st_int; [eassumption|eassumption|]. destruct (l_neg x); congruence.
Qed.
Lemma stands_float : forall x s, reads_lit T x (Tfloat, s) -> stands T x (GFloat (n_get_flt T s)).
Proof.
  intros x s (w & W & Ng & [(_ & X & _)|(I & _ & E)]); [discriminate|]. cbn [fst snd] in *. unfold n_get_flt. rewrite Ng.
  eapply st_float; eassumption.
Qed.
Lemma phrase_tok : forall l k s l', phrase l (k, s) l' -> k <> Tint -> k <> Tfloat -> tok_at cf l (AT k) l'.
Proof.
  intros l k s l' [(x & _ & R)|H] A B; [|exact H]. destruct R as (i & _ & _ & [(_ & E & _)|(_ & E & _)]); cbn [fst] in E; contradiction.
Qed.
Lemma phrase_num : forall l k s l', phrase l (k, s) l' -> k = Tint \/ k = Tfloat ->
  exists x, number_lit (src_ck cf) (ndebug cf) l x l' /\ reads_lit T x (k, s).
Proof. intros l k s l' [H|H] K; [exact H|]. cbn [fst] in H. apply tok_none in H. destruct K; subst; contradiction. Qed.

Definition n_snd_parse n := forall c tok s l l0 v s', begins l0 tok s l -> (2 * length l0 + 1 <= n)%nat ->
  n_parse T cf n c tok s = (v, Ret s') -> exists d l', says cf l0 d l' /\ gives T d v /\ at_n s' l'.
Definition n_snd_arr n := forall vs s l vs' s', at_n s l -> (2 * length l + 2 <= n)%nat ->
  n_arr T cf n vs s = (vs', Ret (Tend_arr, s')) ->
  exists ds ws l', vs' = vs ++ ws /\ says_elems cf l ds l' /\ gives_all T ds ws /\ at_n s' l'.
Definition n_snd_obj n := forall m s l m' s', at_n s l -> (2 * length l + 2 <= n)%nat ->
  n_obj T cf n m s = (m', Ret (Tend_obj, s')) ->
  exists ds ws l', m' = emplace_any ws m /\ says_members cf l ds l' /\ gives_members T ds ws /\ at_n s' l'.

Lemma n_sound : forall n, n_snd_parse n /\ n_snd_arr n /\ n_snd_obj n.
Proof.
  induction n as [|n (IHp & IHa & IHo)].
  { repeat split; repeat intro; discriminate. }
  split; [|split].
  - intros c tok s l l0 v s' St Fl H. cbn [n_parse] in H; fold (n_parse T cf) (n_arr T cf) (n_obj T cf) in H.
    assert (X : exists k s1 l1 l2, (match tok with None => n_scan T cf (S n) s | Some k => Ret (k, s) end) = Ret (k, s1) /\
       blank l0 l2 /\ phrase l2 (k, s1) l1 /\ at_n s1 l1).
    { destruct tok as [k|]; cbn [begins] in St.
      - destruct St as [A (l1 & B & P)]. exists k, s, l, l1. auto.
      - destruct St as [-> A]. destruct (n_scan T cf (S n) s) as [[k s1]| | | |] eqn:E; try discriminate.
        destruct (scan_snd _ _ (S n) _ A ltac:(cbn [length] in *; lia) E) as (l2 & l1 & B & A1 & P). cbn [fst snd] in *. exists k, s1, l1, l2. auto. }
    destruct X as (k & s1 & l1 & l2 & E & B & P & A1). rewrite E in H. clear E St. pose proof (blank_len _ _ B) as Bl.
    destruct k; try (inversion H; fail); try (apply phrase_tok in P; [apply tok_none in P|discriminate|discriminate]).
    + inversion H; subst. eexists _, _. split; [eapply sy_lit; eassumption|]. split; [constructor|assumption].
    + inversion H; subst. eexists _, _. split; [eapply sy_lit; eassumption|]. split; [constructor|assumption].
    + inversion H; subst. eexists _, _. split; [eapply sy_lit; eassumption|]. split; [constructor|assumption].
    + destruct P as [-> (l3 & ->)]. destruct (n_get_str T cf (S n) s1) as [x r] eqn:G. inversion H; subst.
      destruct (get_str_snd _ _ (S n) _ _ A1 ltac:(cbn [length] in *; lia) G) as (l' & Sl & A'). exists (LStr x), l'.
      split; [eapply sy_str; eassumption|]. split; [constructor|assumption].
    + apply phrase_num in P; [|auto]. destruct P as (x & N & R). destruct (n_get_int T s1) as [i| | | |] eqn:G; inversion H; subst.
      exists (LNum x), l1. split; [eapply sy_num; eassumption|]. split; [|assumption]. constructor. eapply stands_int; eassumption.
    + apply phrase_num in P; [|auto]. destruct P as (x & N & R). inversion H; subst.
      exists (LNum x), l1. split; [eapply sy_num; eassumption|]. split; [|assumption]. constructor. apply stands_float. assumption.
    + subst l2. cbn [length] in Bl. destruct (n_arr T cf n [] s1) as [vs r] eqn:Ea.
      destruct r as [[k s2]| | | |]; try (inversion H; fail). destruct k; try (inversion H; fail). inversion H; subst.
      destruct (IHa _ _ _ _ _ A1 ltac:(lia) Ea) as (ds & ws & l' & -> & El & G & A'). exists (LArr ds), l'.
      split; [eapply sy_arr; eassumption|]. split; [constructor; assumption|assumption].
    + subst l2. cbn [length] in Bl. destruct (n_obj T cf n [] s1) as [m r] eqn:Ea.
      destruct r as [[k s2]| | | |]; try (inversion H; fail). destruct k; try (inversion H; fail). inversion H; subst.
      destruct (IHo _ _ _ _ _ A1 ltac:(lia) Ea) as (ds & ws & l' & -> & El & G & A'). exists (LObj ds), l'.
      split; [eapply sy_obj; eassumption|]. split; [|assumption]. econstructor; [eassumption|]. apply obj_of_any_iff. reflexivity.
  - intros vs s l vs' s' A L H. cbn [n_arr] in H; fold (n_parse T cf) (n_arr T cf) (n_obj T cf) in H.
    destruct (n_scan T cf (S n) s) as [[k s1]| | | |] eqn:E; try discriminate.
    destruct (scan_snd _ _ (S n) _ A ltac:(cbn [length] in *; lia) E) as (l2 & l1 & B & A1 & P). cbn [snd] in A1.
    destruct (starts_value k) eqn:Es.
    + destruct (n_parse T cf n GNull (Some k) s1) as [v r] eqn:Ep. destruct r as [s2| | | |]; try (inversion H; fail).
      destruct (IHp GNull (Some k) s1 l1 l v s2 ltac:(split; [assumption|eauto]) ltac:(lia) Ep) as (d & l3 & Sy & G & A3).
      pose proof (says_len _ _ _ _ Sy) as Ls.
      destruct (n_scan T cf (S n) s2) as [[k2 s3]| | | |] eqn:E2; try (inversion H; fail).
      destruct (scan_snd _ _ (S n) _ A3 ltac:(cbn [length] in *; lia) E2) as (l5 & l4 & B2 & A4 & P2). cbn [snd] in A4. pose proof (blank_len _ _ B2) as Bl2.
      destruct k2; try (inversion H; fail); (apply phrase_tok in P2; [apply tok_none in P2|discriminate|discriminate]); subst l5.
      * inversion H; subst. exists [d], [v], l4. split; [reflexivity|]. split; [eapply se_last; eassumption|]. split; [repeat constructor; assumption|assumption].
      * cbn [length] in Bl2. destruct (IHa _ _ _ _ _ A4 ltac:(lia) H) as (ds & ws & l' & -> & El & Gs & A'). exists (d :: ds), (v :: ws), l'.
        rewrite <- app_assoc. split; [reflexivity|]. split; [eapply se_more; eassumption|]. split; [constructor; assumption|assumption].
    + inversion H; subst. apply phrase_tok in P; [apply tok_none in P|discriminate|discriminate]. subst l2. exists [], [], l1. rewrite app_nil_r.
      split; [reflexivity|]. split; [apply se_end; assumption|]. split; [constructor|assumption].
  - intros m s l m' s' A L H. cbn [n_obj] in H; fold (n_parse T cf) (n_arr T cf) (n_obj T cf) in H.
    destruct (n_scan T cf (S n) s) as [[k s1]| | | |] eqn:E; try discriminate.
    destruct (scan_snd _ _ (S n) _ A ltac:(cbn [length] in *; lia) E) as (l2 & l1 & B & A1 & P). cbn [snd] in A1. pose proof (blank_len _ _ B) as Bl.
    destruct k; try (inversion H; fail); (apply phrase_tok in P; [apply tok_none in P|discriminate|discriminate]).
    + destruct P as [-> (l3 & ->)]. destruct (n_get_str T cf (S n) s1) as [key r] eqn:G. destruct r as [s2| | | |]; try (inversion H; fail).
      destruct (get_str_snd _ _ (S n) _ _ A1 ltac:(cbn [length] in *; lia) G) as (l4 & Sl & A2).
      destruct (strlit_start cf _ _ _ _ _ Sl) as (? & _ & Lsl).
      destruct (n_scan T cf (S n) s2) as [[k2 s3]| | | |] eqn:E2; try (inversion H; fail).
      destruct (scan_snd _ _ (S n) _ A2 ltac:(cbn [length] in *; lia) E2) as (l6 & l5 & B2 & A3 & P2). cbn [snd] in A3. pose proof (blank_len _ _ B2) as Bl2.
      destruct k2; try (inversion H; fail); (apply phrase_tok in P2; [apply tok_none in P2|discriminate|discriminate]); subst l6; cbn [length] in Bl2.
      * inversion H; subst. exists [], [], l5. split; [reflexivity|]. split; [eapply sm_key; eassumption|]. split; [constructor|assumption].
      * destruct (n_parse T cf n GNull None s3) as [v r] eqn:Ep. destruct r as [s4| | | |]; try (inversion H; fail).
        destruct (IHp GNull None s3 l5 l5 v s4 (conj eq_refl A3) ltac:(lia) Ep) as (d & l7 & Sy & Gd & A4). pose proof (says_len _ _ _ _ Sy) as Ls.
        destruct (n_scan T cf (S n) s4) as [[k3 s5]| | | |] eqn:E3; try (inversion H; fail).
        destruct (scan_snd _ _ (S n) _ A4 ltac:(cbn [length] in *; lia) E3) as (l9 & l8 & B3 & A5 & P3). cbn [snd] in A5. pose proof (blank_len _ _ B3) as Bl3.
        destruct k3; try (inversion H; fail); (apply phrase_tok in P3; [apply tok_none in P3|discriminate|discriminate]); subst l9; cbn [length] in Bl3.
        -- inversion H; subst. exists [(key, d)], [(key, v)], l8. split; [reflexivity|]. split; [eapply sm_last; eassumption|].
           split; [repeat constructor; assumption|assumption].
        -- destruct (IHo _ _ _ _ _ A5 ltac:(lia) H) as (ds & ws & l' & -> & El & Gs & A'). exists ((key, d) :: ds), ((key, v) :: ws), l'.
           split; [reflexivity|]. split; [eapply sm_more; eassumption|]. split; [constructor; assumption|assumption].
    + subst l2. inversion H; subst. exists [], [], l1. split; [reflexivity|]. split; [apply sm_end; assumption|]. split; [constructor|assumption].
Qed.

(** ** Documents are accepted *)
Definition n_val (l : list N) (d : ldoc) (l' : list N) : Prop := ok t l' ->
  forall v n m s, gives T d v -> (2 * length l <= n)%nat -> (length l < m)%nat -> at_n s l ->
  exists tk s1 s', n_scan T cf m s = Ret (tk, s1) /\ starts_value tk = true /\
    (forall c, n_parse T cf (S n) c (Some tk) s1 = (v, Ret s')) /\ at_n s' l'.
Definition n_elems (l : list N) (ds : list ldoc) (l' : list N) : Prop := ok t l' ->
  forall vs n acc s, gives_all T ds vs -> (2 * length l + 2 <= n)%nat -> at_n s l ->
  exists s', n_arr T cf n acc s = (acc ++ vs, Ret (Tend_arr, s')) /\ at_n s' l'.
Definition n_members (l : list N) (ds : list (str * ldoc)) (l' : list N) : Prop := ok t l' ->
  forall vs n acc s, gives_members T ds vs -> (2 * length l + 2 <= n)%nat -> at_n s l ->
  exists s', n_obj T cf n acc s = (emplace_any vs acc, Ret (Tend_obj, s')) /\ at_n s' l'.

Lemma n_none : forall l d l', n_val l d l' -> ok t l' -> forall v n c s, gives T d v -> (2 * length l + 1 <= n)%nat -> at_n s l ->
  exists s', n_parse T cf n c None s = (v, Ret s') /\ at_n s' l'.
Proof.
  intros l d l' W O v n c s Gv L A. destruct n as [|n]; [lia|].
  destruct (W O v n (S n) s Gv ltac:(lia) ltac:(lia) A) as (tk & s1 & s' & Sc & _ & P & A'). exists s'. split; [|assumption].
  rewrite <- (P c). cbn [n_parse]; fold (n_parse T cf) (n_arr T cf) (n_obj T cf). rewrite Sc. reflexivity.
Qed.

Lemma n_complete : forall l d l', says cf l d l' -> n_val l d l'.
Proof.
  apply (says_mut cf n_val n_elems n_members).
  - (* literal *)
    intros l l1 w l' B Li O v n m s Gv Ln Lm A. apply tok_of_literal in Li. destruct Li as (x & T0 & X).
    destruct (scan_cpl s l l1 x l' m A Lm B T0 O) as (s1 & Sc & A1).
    exists x, s1, s1. split; [assumption|]. destruct x; try contradiction; subst w; inversion Gv; subst; repeat split; assumption.
  - (* number *)
    intros l l1 x l' B Nu O v n m s Gv Ln Lm A. inversion Gv as [? ? St| | | | | |]; subst.
    assert (W : exists i, whole T x = Some i) by (inversion St; eauto). destruct W as (i & W).
    destruct (scan_cpl_num s l l1 x l' m i A Lm B Nu W O) as ([k s1] & Sc & A1 & R). cbn [snd] in A1. exists k, s1, s1. split; [assumption|].
    destruct R as (i' & W' & Ng & R). cbn [fst snd] in *. rewrite W in W'. injection W' as <-.
    inversion St as [? i2 j I W2 E|? i2 f I W2 E]; subst; rewrite W in W2; injection W2 as <-.
    + destruct R as [(_ & -> & Ei)|(I' & _)]; [|contradiction]. split; [reflexivity|]. split; [|assumption]. intro c. cbn [n_parse]; fold (n_parse T cf) (n_arr T cf) (n_obj T cf).
      unfold n_get_int. rewrite Ng, Ei. destruct (l_neg x); [rewrite E; reflexivity|subst; reflexivity].
    + destruct R as [(I' & _)|(_ & -> & Ef)]; [contradiction|]. split; [reflexivity|]. split; [|assumption]. intro c. cbn [n_parse]; fold (n_parse T cf) (n_arr T cf) (n_obj T cf).
      unfold n_get_flt. rewrite Ng, Ef. reflexivity.
  - (* string *)
    intros l l1 k l' B Sl O v n m s Gv Ln Lm A. inversion Gv; subst. destruct (strlit_start cf _ _ _ _ _ Sl) as (l2 & -> & Ll). pose proof (blank_len _ _ B) as Bl.
    destruct (scan_cpl s _ _ _ _ m A Lm B (ta_str cf l2) (ok_cons _ _ _)) as (s1 & Sc & A1).
    destruct (get_str_cpl s1 _ k l' (S n) A1 ltac:(lia) ltac:(lia) Sl O) as (s' & G & A').
    exists Tstring, s1, s'. split; [assumption|]. split; [reflexivity|]. split; [|assumption]. intro c. cbn [n_parse]; fold (n_parse T cf) (n_arr T cf) (n_obj T cf). rewrite G. reflexivity.
  - (* array *)
    intros l l1 ds l' B El IH O v n m s Gv Ln Lm A. inversion Gv as [| | | | |? vs Ga|]; subst.
    assert (O1 : ok t l1) by (eapply ok_mono; [exact O|apply elems_len in El; lia]).
    pose proof (blank_len _ _ B) as Bl. cbn [length] in Bl.
    destruct (scan_cpl s _ _ _ _ m A Lm B (ta_larr cf l1) O1) as (s1 & Sc & A1).
    destruct (IH O vs n [] s1 Ga ltac:(lia) A1) as (s' & G & A').
    exists Tbegin_arr, s1, s'. split; [assumption|]. split; [reflexivity|]. split; [|assumption]. intro c. cbn [n_parse]; fold (n_parse T cf) (n_arr T cf) (n_obj T cf).
    cbn [app] in G. rewrite G. reflexivity.
  - (* object *)
    intros l l1 ds l' B El IH O v n m s Gv Ln Lm A. inversion Gv as [| | | | | |? vs mm Ga Ob]; subst.
    assert (O1 : ok t l1) by (eapply ok_mono; [exact O|apply members_len in El; lia]).
    pose proof (blank_len _ _ B) as Bl. cbn [length] in Bl.
    destruct (scan_cpl s _ _ _ _ m A Lm B (ta_lobj cf l1) O1) as (s1 & Sc & A1).
    destruct (IH O vs n [] s1 Ga ltac:(lia) A1) as (s' & G & A').
    exists Tbegin_obj, s1, s'. split; [assumption|]. split; [reflexivity|]. split; [|assumption]. intro c. cbn [n_parse]; fold (n_parse T cf) (n_arr T cf) (n_obj T cf).
    rewrite G. apply obj_of_any_iff in Ob. subst mm. reflexivity.
  - (* ] *)
    intros l l' B O vs n acc s Gv L A. inversion Gv; subst. pose proof (blank_len _ _ B) as Bl. cbn [length] in Bl.
    destruct n as [|n]; [lia|].
    destruct (scan_cpl s _ _ _ _ (S n) A ltac:(lia) B (ta_rarr cf l') O) as (s1 & Sc & A1).
    exists s1. split; [|assumption]. cbn [n_arr]; fold (n_parse T cf) (n_arr T cf) (n_obj T cf). rewrite Sc. cbn [starts_value]. rewrite app_nil_r. reflexivity.
  - (* value ] *)
    intros l d l1 l' V IH B O vs n acc s Gv L A. inversion Gv as [|? v ? ? G1 G2]; subst. inversion G2; subst.
    assert (O1 : ok t l1) by (eapply ok_blank; [exact B|apply ok_cons]).
    pose proof (says_len _ _ _ _ V) as Ll. pose proof (blank_len _ _ B) as Bl. cbn [length] in Bl.
    destruct n as [|[|n]]; [lia|lia|].
    destruct (IH O1 v n (S (S n)) s G1 ltac:(lia) ltac:(lia) A) as (tk & s1 & s2 & Sc & Sv & P & A2).
    destruct (scan_cpl s2 _ _ _ _ (S (S n)) A2 ltac:(lia) B (ta_rarr cf l') O) as (s3 & Sc3 & A3).
    exists s3. split; [|assumption]. remember (S n) as n1. cbn [n_arr]; fold (n_parse T cf) (n_arr T cf) (n_obj T cf). rewrite Sc, Sv, P, Sc3. reflexivity.
  - (* value , ... *)
    intros l d l1 l2 ds l' V IH B El IH2 O vs n acc s Gv L A. inversion Gv as [|? v ? vs' G1 G2]; subst.
    assert (O2 : ok t l2) by (eapply ok_mono; [exact O|apply elems_len in El; lia]).
    assert (O1 : ok t l1) by (eapply ok_blank; [exact B|apply ok_cons]).
    pose proof (says_len _ _ _ _ V) as Ll. pose proof (blank_len _ _ B) as Bl. cbn [length] in Bl.
    destruct n as [|[|n]]; [lia|lia|].
    destruct (IH O1 v n (S (S n)) s G1 ltac:(lia) ltac:(lia) A) as (tk & s1 & s2 & Sc & Sv & P & A2).
    destruct (scan_cpl s2 _ _ _ _ (S (S n)) A2 ltac:(lia) B (ta_comma cf l2) O2) as (s3 & Sc3 & A3).
    destruct (IH2 O vs' (S n) (acc ++ [v]) s3 G2 ltac:(lia) A3) as (s' & G & A').
    exists s'. split; [|assumption]. rewrite <- app_assoc in G. cbn [app] in G. rewrite <- G.
    remember (S n) as n1. cbn [n_arr]; fold (n_parse T cf) (n_arr T cf) (n_obj T cf). rewrite Sc, Sv, P, Sc3. reflexivity.
  - (* } *)
    intros l l' B O vs n acc s Gv L A. inversion Gv; subst. pose proof (blank_len _ _ B) as Bl. cbn [length] in Bl.
    destruct n as [|n]; [lia|].
    destruct (scan_cpl s _ _ _ _ (S n) A ltac:(lia) B (ta_robj cf l') O) as (s1 & Sc & A1).
    exists s1. split; [|assumption]. cbn [n_obj]; fold (n_parse T cf) (n_arr T cf) (n_obj T cf). rewrite Sc. reflexivity.
  - (* key } *)
    intros l l1 k l2 l' B Sl B2 O vs n acc s Gv L A. inversion Gv; subst. destruct (strlit_start cf _ _ _ _ _ Sl) as (l3 & -> & Ll).
    assert (O2 : ok t l2) by (eapply ok_blank; [exact B2|apply ok_cons]).
    pose proof (blank_len _ _ B) as Bl. pose proof (blank_len _ _ B2) as Bl2. cbn [length] in *.
    destruct n as [|n]; [lia|].
    destruct (scan_cpl s _ _ _ _ (S n) A ltac:(lia) B (ta_str cf l3) (ok_cons _ _ _)) as (s1 & Sc & A1).
    destruct (get_str_cpl s1 _ k l2 (S n) A1 ltac:(cbn [length]; lia) ltac:(lia) Sl O2) as (s2 & G & A2).
    destruct (scan_cpl s2 _ _ _ _ (S n) A2 ltac:(lia) B2 (ta_robj cf l') O) as (s3 & Sc3 & A3).
    exists s3. split; [|assumption]. cbn [n_obj]; fold (n_parse T cf) (n_arr T cf) (n_obj T cf). rewrite Sc, G, Sc3. reflexivity.
  - (* key : value } *)
    intros l l1 k l2 l3 d l4 l' B Sl B2 V IH B3 O vs n acc s Gv L A. inversion Gv as [|? ? v ? ? G1 G2]; subst. inversion G2; subst.
    destruct (strlit_start cf _ _ _ _ _ Sl) as (l5 & -> & Ll).
    assert (O4 : ok t l4) by (eapply ok_blank; [exact B3|apply ok_cons]). pose proof (says_len _ _ _ _ V) as Lv.
    assert (O3 : ok t l3) by (eapply ok_mono; [exact O4|lia]).
    assert (O2 : ok t l2) by (eapply ok_blank; [exact B2|apply ok_cons]).
    pose proof (blank_len _ _ B) as Bl. pose proof (blank_len _ _ B2) as Bl2. pose proof (blank_len _ _ B3) as Bl3.
    cbn [length] in *. destruct n as [|n]; [lia|].
    destruct (scan_cpl s _ _ _ _ (S n) A ltac:(lia) B (ta_str cf l5) (ok_cons _ _ _)) as (s1 & Sc & A1).
    destruct (get_str_cpl s1 _ k l2 (S n) A1 ltac:(cbn [length]; lia) ltac:(lia) Sl O2) as (s2 & G & A2).
    destruct (scan_cpl s2 _ _ _ _ (S n) A2 ltac:(lia) B2 (ta_colon cf l3) O3) as (s3 & Sc3 & A3).
    destruct (n_none _ _ _ IH O4 v n GNull s3 G1 ltac:(lia) A3) as (s4 & P & A4).
    destruct (scan_cpl s4 _ _ _ _ (S n) A4 ltac:(lia) B3 (ta_robj cf l') O) as (s5 & Sc5 & A5).
    exists s5. split; [|assumption]. cbn [n_obj]; fold (n_parse T cf) (n_arr T cf) (n_obj T cf). rewrite Sc, G, Sc3, P, Sc5. reflexivity.
  - (* key : value , ... *)
    intros l l1 k l2 l3 d l4 l6 ms l' B Sl B2 V IH B3 Me IH2 O vs n acc s Gv L A. inversion Gv as [|? ? v ? vs' G1 G2]; subst.
    destruct (strlit_start cf _ _ _ _ _ Sl) as (l5 & -> & Ll).
    assert (O6 : ok t l6) by (eapply ok_mono; [exact O|apply members_len in Me; lia]).
    assert (O4 : ok t l4) by (eapply ok_blank; [exact B3|apply ok_cons]). pose proof (says_len _ _ _ _ V) as Lv.
    assert (O3 : ok t l3) by (eapply ok_mono; [exact O4|lia]).
    assert (O2 : ok t l2) by (eapply ok_blank; [exact B2|apply ok_cons]).
    pose proof (blank_len _ _ B) as Bl. pose proof (blank_len _ _ B2) as Bl2. pose proof (blank_len _ _ B3) as Bl3.
    cbn [length] in *. destruct n as [|n]; [lia|].
    destruct (scan_cpl s _ _ _ _ (S n) A ltac:(lia) B (ta_str cf l5) (ok_cons _ _ _)) as (s1 & Sc & A1).
    destruct (get_str_cpl s1 _ k l2 (S n) A1 ltac:(cbn [length]; lia) ltac:(lia) Sl O2) as (s2 & G & A2).
    destruct (scan_cpl s2 _ _ _ _ (S n) A2 ltac:(lia) B2 (ta_colon cf l3) O3) as (s3 & Sc3 & A3).
    destruct (n_none _ _ _ IH O4 v n GNull s3 G1 ltac:(lia) A3) as (s4 & P & A4).
    destruct (scan_cpl s4 _ _ _ _ (S n) A4 ltac:(lia) B3 (ta_comma cf l6) O6) as (s5 & Sc5 & A5).
    destruct (IH2 O vs' n (obj_emplace k v acc) s5 G2 ltac:(lia) A5) as (s' & G' & A').
    exists s'. split; [|assumption]. cbn [n_obj]; fold (n_parse T cf) (n_arr T cf) (n_obj T cf). rewrite Sc, G, Sc3, P, Sc5. exact G'.
Qed.
End Parse.

(** ** The whole text *)
Lemma n_reads : forall T cf l t b n h c v m, enc_ok (tgt_enc cf) (tgt_ck cf) = true ->
  feeds (src_enc cf) (src_ck cf) (is_open b) l t -> (2 * length l + 1 <= n)%nat -> h = HNone ->
  (n_parse_ibuf T cf h n c b = (v, (Ret tt, m)) <->
   m = ""%string /\ exists d rest, said cf l d rest /\ (t = TEof \/ rest <> []) /\ gives T d v).
Proof.
  intros T cf l t b n h c v m Hok F L ->.
  assert (At : at_ cf (init_pst b) (0 :: l) t) by (apply (at_cons cf (init_pst b) l t); [reflexivity|assumption]).
  split.
  - unfold n_parse_ibuf. intro H. destruct (n_next T cf (n_init T b)) as [s| | | |] eqn:E; try discriminate.
    destruct (next_snd T cf t (n_init T b) (0 :: l) s At E) as [A _]. cbn [tl] in A.
    unfold n_body in H. destruct (n_parse T cf n c None s) as [w r] eqn:P. destruct r as [s1| | | |]; try (cbn in H; discriminate).
    destruct (proj1 (n_sound T cf t Hok n) c None s l l w s1 (conj eq_refl A) L P) as (d & l1 & Sy & Gv & A1).
    cbn [bind] in H. pose proof (says_len _ _ _ _ Sy) as Ls.
    destruct (n_scan T cf n s1) as [[k s2]| | | |] eqn:Sc; try (cbn in H; discriminate). cbn [bind fst] in H.
    destruct (scan_snd T cf t s1 l1 n _ A1 ltac:(lia) Sc) as (l2 & l3 & B & A2 & Ph).
    destruct k; try (cbn in H; discriminate). cbn in H. inversion H; subst. split; [reflexivity|].
    apply phrase_tok in Ph; [apply tok_none in Ph|discriminate|discriminate]. destruct Ph as [-> Ph]. cbn [snd] in A2.
    destruct Ph as [->|(l4 & ->)].
    + exists d, []. split; [eapply sd_end; eassumption|]. split; [|assumption]. left. inversion A2. reflexivity.
    + exists d, (0 :: l4). split; [eapply sd_nul; eassumption|]. split; [|assumption]. right. discriminate.
  - intros (-> & d & rest & W & Hr & Gv).
    assert (X : exists l1, says cf l d l1 /\ blank l1 rest /\ tok_at cf rest (AT Teoi) rest /\ ok t rest).
    { inversion W; subst.
      - exists l1. repeat split; auto; [constructor|]. destruct Hr as [->|Hr]; [reflexivity|contradiction].
      - exists l1. repeat split; auto; [constructor]. }
    destruct X as (l1 & V & B & T0 & Or). assert (O1 : ok t l1) by (eapply ok_blank; eassumption).
    pose proof (says_len _ _ _ _ V) as Ll.
    destruct (next_cpl T cf t (n_init T b) (0 :: l) At) as (s & E & A & _); [cbn [tl]; eapply ok_mono; [exact O1|lia]|]. cbn [tl] in A.
    unfold n_parse_ibuf. rewrite E. unfold n_body.
    destruct (n_none T cf t l d l1 (n_complete T cf t Hok l d l1 V) O1 v n c s Gv L A) as (s' & P & A'). rewrite P. cbn [bind].
    destruct (scan_cpl T cf t s' _ _ _ _ n A' ltac:(lia) B T0 Or) as (s2 & Sc & _). rewrite Sc. reflexivity.
Qed.

Lemma n_string_iff : forall T cf s l t v, enc_ok (tgt_enc cf) (tgt_ck cf) = true -> feeds (src_enc cf) (src_ck cf) (sis s) l t ->
  (n_parse_string T cf s = Ret v <-> exists d rest, said cf l d rest /\ (t = TEof \/ rest <> []) /\ gives T d v).
Proof.
  intros T cf s l t v Hok F.
  assert (Ln : (length l <= length s)%nat).
  { destruct (feeds_string (src_enc cf) (src_ck cf) s) as (l2 & t2 & F2 & L2). destruct (feeds_det _ _ _ _ _ F _ _ F2) as [<- _]. exact L2. }
  pose proof (fun w m => n_reads T cf l t (IStr s) (fuel_for s) HNone GNull w m Hok F ltac:(unfold fuel_for; lia) eq_refl) as X.
  unfold n_parse_string. destruct (n_parse_ibuf T cf HNone (fuel_for s) GNull (IStr s)) as [w [r m]]. split.
  - intro H. apply bind_ret_iff in H. destruct H as ([] & -> & E). injection E as <-. destruct (X w m) as [Y _]. destruct (Y eq_refl) as [_ Z]. exact Z.
  - intro H. destruct (X v ""%string) as [_ Y]. specialize (Y (conj eq_refl H)). inversion Y; subst. reflexivity.
Qed.
