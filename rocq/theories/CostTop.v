(** The cost of parsing a text, from its grammar and in general. *)
From Coq Require Import Lia ZifyBool ZifyNat ZifyN Floats.SpecFloat.
From Verif Require Import Base Stream Encoding Value ValueOps Token Message Parser EncodingProofs Feeds ListMachine Simulation SimParse
  SpecUnicode SpecGrammar GrammarLex GrammarTok GrammarProofs GrammarFacts ObjFacts DumpText Mono Cost SpecCost CostProofs CostCompare CostParse CostBound.
Open Scope nat_scope.

(** every accepted text has a derivation with numbers *)
Definition g_val (cf : pcfg) (l : list N) (v : value) (l' : list N) : Prop := exists l1 c d k, blanks l l1 c /\ phrase cf l1 v l' d k.
Definition g_elems (cf : pcfg) (l : list N) (vs : list value) (l' : list N) : Prop := exists d k, contents cf l vs l' d k.
Definition g_members (cf : pcfg) (l : list N) (ms : list (str * value)) (l' : list N) : Prop := exists d k, fields cf l ms l' d k.
Lemma val_phrase : forall cf l v l', val cf l v l' -> g_val cf l v l'.
Proof.
  intro cf. apply (val_mut cf (g_val cf) (g_elems cf) (g_members cf)); unfold g_val, g_elems, g_members.
  - intros l l1 v l' B L. destruct (blank_blanks _ _ B) as [c Bc]. eauto 8 using ph_lit.
  - intros l l1 v l' B L. destruct (blank_blanks _ _ B) as [c Bc]. eauto 8 using ph_num.
  - intros l l1 s l' B L. destruct (blank_blanks _ _ B) as [c Bc]. eauto 8 using ph_str.
  - intros l l1 vs l' B _ (d & k & C). destruct (blank_blanks _ _ B) as [c Bc]. eauto 8 using ph_arr.
  - intros l l1 ms m l' B _ (d & k & C) O. destruct (blank_blanks _ _ B) as [c Bc]. exists (123%N :: l1), c, (S d), k. split; [assumption|]. eapply ph_obj; eassumption.
  - intros l l' B. destruct (blank_blanks _ _ B) as [c Bc]. eauto using co_end.
  - intros l v l1 l' _ (l2 & c & d & k & Bc & P) B. destruct (blank_blanks _ _ B) as [c2 Bc2]. eauto using co_last.
  - intros l v l1 l2 vs l' _ (l3 & c & d & k & Bc & P) B _ (d2 & k2 & C). destruct (blank_blanks _ _ B) as [c2 Bc2]. do 2 eexists. eapply co_more; eassumption.
  - intros l l' B. destruct (blank_blanks _ _ B) as [c Bc]. eauto using fi_end.
  - intros l l1 k l2 l' B S B2. destruct (blank_blanks _ _ B) as [c Bc]. destruct (blank_blanks _ _ B2) as [c2 Bc2]. eauto using fi_key.
  - intros l l1 k l2 l3 v l4 l' B S B2 _ (l5 & c0 & d & kk & Bv & P) B3. destruct (blank_blanks _ _ B) as [c Bc]. destruct (blank_blanks _ _ B2) as [c2 Bc2].
    destruct (blank_blanks _ _ B3) as [c3 Bc3]. do 2 eexists. eapply fi_last; eassumption.
  - intros l l1 k l2 l3 v l4 l5 ms l' B S B2 _ (l6 & c0 & d & kk & Bv & P) B3 _ (d2 & k2 & F). destruct (blank_blanks _ _ B) as [c Bc]. destruct (blank_blanks _ _ B2) as [c2 Bc2].
    destruct (blank_blanks _ _ B3) as [c3 Bc3]. do 2 eexists. eapply fi_more; eassumption.
Qed.
Theorem takes_all : forall cf y l v rest, document cf l v rest -> exists d k, takes cf y l v rest d k.
Proof.
  intros cf y l v rest D. destruct D as [l v l1 V B|l v l1 l2 V B]; apply val_phrase in V; destruct V as (l0 & c & d & k & Bc & P); destruct (blank_blanks _ _ B) as [c2 Bc2];
    do 2 eexists; eapply ta_doc; try eassumption; eauto.
Qed.

(** and no text that is not a document has one *)
Definition h_phrase (cf : pcfg) (l : list N) (v : value) (l' : list N) (d k : nat) : Prop := forall l0, blank l0 l -> val cf l0 v l'.
Definition h_contents (cf : pcfg) (l : list N) (vs : list value) (l' : list N) (d k : nat) : Prop := elems cf l vs l'.
Definition h_fields (cf : pcfg) (l : list N) (ms : list (str * value)) (l' : list N) (d k : nat) : Prop := members cf l ms l'.
Lemma phrase_val : forall cf l v l' d k, phrase cf l v l' d k -> h_phrase cf l v l' d k.
Proof.
  intro cf. apply (phrase_mut cf (h_phrase cf) (h_contents cf) (h_fields cf)); unfold h_phrase, h_contents, h_fields; intros;
    repeat match goal with H : blanks _ _ _ |- _ => apply blanks_blank in H end.
  - eapply v_lit; eassumption.
  - eapply v_num; eassumption.
  - eapply v_str; eassumption.
  - eapply v_arr; eassumption.
  - eapply v_obj; eassumption.
  - apply el_end. assumption.
  - eapply el_last; eauto.
  - eapply el_more; eauto.
  - apply me_end. assumption.
  - eapply me_key; eassumption.
  - eapply me_last; eauto.
  - eapply me_more; eauto.
Qed.
Theorem takes_document : forall cf y l v rest d k, takes cf y l v rest d k -> document cf l v rest.
Proof.
  intros cf y l v rest d k T. destruct T as [l l1 v l2 rest c d k c2 B P B2 R]. apply phrase_val in P. apply blanks_blank in B, B2.
  destruct R as [->|[l3 ->]]; [eapply doc_end|eapply doc_nul]; eauto.
Qed.

(** ** The whole text *)
Lemma first_at : forall cf s l t, feeds (src_enc cf) (src_ck cf) (sis s) l t ->
  (ok t l -> exists st, read_next cf (init_pst (IStr s)) = Ret st /\ at_ cf st l t) /\
  (~ ok t l -> exists e, read_next cf (init_pst (IStr s)) = Throw e).
Proof.
  intros cf s l t F. assert (At : at_ cf (init_pst (IStr s)) (0%N :: l) t) by (apply (at_cons cf (init_pst (IStr s)) l t); [reflexivity|exact F]).
  pose proof (read_sim cf (init_pst (IStr s)) (0%N :: l) t At) as R. cbn [tl] in R. split; intro O.
  - rewrite ok_guard in R by assumption. destruct (read_next cf (init_pst (IStr s))) as [st| | | |]; cbn in R; try contradiction. exists st. split; [reflexivity|apply R].
  - unfold ok in O. destruct l, t; try (exfalso; apply O; reflexivity). cbn [guard] in R.
    destruct (read_next cf (init_pst (IStr s))) as [st|e| | |]; cbn in R; try contradiction. exists e. reflexivity.
Qed.
Lemma feeds_len : forall cf s l t, feeds (src_enc cf) (src_ck cf) (sis s) l t -> length l <= length s.
Proof.
  intros cf s l t F. destruct (feeds_string (src_enc cf) (src_ck cf) s) as (l' & t' & F' & L). destruct (feeds_det _ _ _ _ _ F _ _ F') as [-> _]. exact L.
Qed.

Theorem parse_exact : forall cf h y s l t v rest d k, enc_ok (tgt_enc cf) (tgt_ck cf) = true ->
  feeds (src_enc cf) (src_ck cf) (sis s) l t -> takes cf y l v rest d k -> t = TEof \/ rest <> [] ->
  k_into cf h y s = ((v, (Ret tt, ""%string)), (d, k)).
Proof.
  intros cf h y s l t v rest d k Hok F T R.
  assert (O : ok t rest) by (unfold ok; destruct R as [->|R]; [destruct rest; reflexivity|destruct rest; [contradiction|reflexivity]]).
  assert (Ol : ok t l).
  { eapply ok_mono; [exact O|]. destruct T as [l l1 v l2 rest c d k c2 B P B2 E].
    assert (O2 : ok t l2) by (eapply ok_blank; [eapply blanks_blank; exact B2|exact O]).
    destruct (exact_all cf t Hok _ _ _ _ _ P O2) as (L & _). pose proof (blank_len _ _ (blanks_blank _ _ _ B)). pose proof (blank_len _ _ (blanks_blank _ _ _ B2)). lia. }
  destruct (proj1 (first_at cf s l t F) Ol) as (st & E & A). unfold k_into. rewrite E.
  rewrite (takes_body cf t Hok y l v rest d k T O st (fuel_for s) A); [destruct h; reflexivity|].
  pose proof (feeds_len _ _ _ _ F). unfold fuel_for. lia.
Qed.

Theorem parse_bounds : forall cf h y s,
  fst (snd (k_into cf h y s)) <= S (Nat.max (levels y) (length s)) /\ snd (snd (k_into cf h y s)) <= length s * length s.
Proof.
  intros cf h y s. destruct (feeds_string (src_enc cf) (src_ck cf) s) as (l & t & F & L). destruct (first_at cf s l t F) as [F1 F2].
  unfold k_into. destruct (at_bad t l) eqn:B.
  { destruct F2 as [e ->]; [unfold ok; congruence|]. unfold free. cbn [fst snd]. lia. }
  destruct (F1 B) as (st & -> & A). unfold k_body. destruct (bound_all cf t (fuel_for s)) as (P & _ & _).
  assert (Fu : 2 * length l + 1 <= fuel_for s) by (unfold fuel_for; lia).
  specialize (P y None st l A Fu). destruct (k_parse cf (fuel_for s) y None st) as [[v r] [d c]]. destruct P as (D & _ & C & R).
  assert (C' : c <= length s * length s) by (eapply sq_le; [exact C|lia]).
  assert (D' : d <= S (Nat.max (levels y) (length s))) by lia.
  destruct r as [st'| | | |]; try (cbn [fst snd]; split; assumption). destruct R as (l' & A' & L' & _).
  destruct (scan_le cf t l' st' (fuel_for s) A' ltac:(lia)) as (r & ds & -> & Ds & _).
  destruct r as [[tk st2]| | | |]; try (cbn [fst snd both]; lia). destruct tk; cbn [fst snd both]; lia.
Qed.

(** ** What a derivation says of its value *)
Definition i_phrase (cf : pcfg) (l : list N) (v : value) (l' : list N) (d k : nat) : Prop :=
  nest v <= d /\ nodes v + length l' <= length l /\ k <= (d - 1) * (length l - length l').
Definition i_contents (cf : pcfg) (l : list N) (vs : list value) (l' : list N) (d k : nat) : Prop :=
  Forall (fun v => nest v <= d) vs /\ lsum nodes vs + length l' < length l /\ k <= (d - 1) * (length l - length l').
Definition i_fields (cf : pcfg) (l : list N) (ms : list (str * value)) (l' : list N) (d k : nat) : Prop :=
  Forall (fun kv => nest (snd kv) <= d) ms /\ lsum nodes2 ms + length l' < length l /\ k <= d * (length l - length l').

Section Value.
Variable cf : pcfg.
Hypothesis Hok : enc_ok (tgt_enc cf) (tgt_ck cf) = true.

Lemma phrase_len : forall l v l' d k, phrase cf l v l' d k -> length l' < length l.
Proof. intros l v l' d k P. destruct (exact_all cf TEof Hok _ _ _ _ _ P ltac:(destruct l'; reflexivity)) as (L & _). lia. Qed.
Lemma strlit_len : forall l s l', strlit (tgt_enc cf) (tgt_ck cf) l s l' -> length l' < length l.
Proof. intros l s l' H. eapply phrase_len. apply ph_str. exact H. Qed.

Lemma part_le : forall k d1 d a b, k <= d1 * a -> d1 <= d -> a <= b -> k <= d * b.
Proof. intros. etransitivity; [eassumption|]. apply Nat.mul_le_mono; assumption. Qed.
Lemma parts_le : forall k k2 d1 d2 d a b e, k <= d1 * a -> k2 <= d2 * b -> d1 <= d -> d2 <= d -> a + b <= e -> k + k2 <= d * e.
Proof. intros. assert (d1 * a <= d * a) by (apply Nat.mul_le_mono_r; assumption). assert (d2 * b <= d * b) by (apply Nat.mul_le_mono_r; assumption).
  assert (d * (a + b) <= d * e) by (apply Nat.mul_le_mono_l; assumption). rewrite Nat.mul_add_distr_l in *. lia. Qed.
Lemma member_le : forall k n d d' a b, k <= (d - 1) * a -> n <= a -> 1 <= d -> d <= d' -> a <= b -> k + n <= d' * b.
Proof. intros. assert (d' * a <= d' * b) by (apply Nat.mul_le_mono_l; assumption). assert (d * a <= d' * a) by (apply Nat.mul_le_mono_r; assumption).
  destruct d as [|d]; [lia|]. cbn [Nat.sub Nat.mul] in *. rewrite Nat.sub_0_r in *. lia. Qed.
Lemma emplace_all_nodes : forall ms m, lsum nodes2 (emplace_all ms m) <= lsum nodes2 ms + lsum nodes2 m.
Proof.
  induction ms as [|[key v] ms IH]; intro m; [apply le_n|]. change (emplace_all ((key, v) :: ms) m) with (emplace_all ms (obj_emplace key v m)).
  specialize (IH (obj_emplace key v m)). pose proof (emplace_nodes key v m). cbn [map list_sum fold_right snd]. fold (lsum nodes2 ms). lia.
Qed.
Lemma max_le : forall A (f : A -> nat) d l, Forall (fun x => f x <= d) l -> lmax f l <= d.
Proof. intros A f d l F. apply list_max_le. rewrite Forall_map. exact F. Qed.
Lemma max_in : forall A (f : A -> nat) d d' l, Forall (fun x => f x <= d) l -> d <= d' -> Forall (fun x => f x <= d') l.
Proof. intros A f d d' l F L. eapply Forall_impl; [|exact F]. intros a H. cbn beta in *. lia. Qed.

Ltac lens := repeat match goal with
  | H : blanks _ _ _ |- _ => pose proof (blank_len _ _ (blanks_blank _ _ _ H)); revert H
  | H : strlit _ _ _ _ _ |- _ => pose proof (strlit_len _ _ _ H); revert H
  | H : phrase _ _ _ _ _ _ |- _ => pose proof (phrase_len _ _ _ _ _ H); revert H
  end; intros; unfold deepest in *; cbn [length list_max fold_right] in *.

Lemma phrase_value : forall l v l' d k, phrase cf l v l' d k -> i_phrase cf l v l' d k.
Proof.
  apply (phrase_mut cf (i_phrase cf) (i_contents cf) (i_fields cf)); unfold i_phrase, i_contents, i_fields.
  - intros l v l' H. assert (P : phrase cf l v l' 1 0) by (apply ph_lit; assumption). apply phrase_len in P. destruct H; cbn [nest nodes]; lia.
  - intros l v l' H. assert (P : phrase cf l v l' 1 0) by (apply ph_num; assumption). apply phrase_len in P.
    assert (E : nest v = 1 /\ nodes v = 1).
    { clear P. destruct H as [c l v l' _ _ U|l v l' U|l v l' U]; destruct U; cbn [negate nest nodes]; repeat match goal with |- context [match ?x with _ => _ end] => destruct x end; split; reflexivity. }
    lia.
  - intros l s l' H. apply strlit_len in H. cbn [nest nodes]. lia.
  - intros l vs l' d k C (F & N & K). cbn [nest nodes length]. pose proof (max_le _ nest d vs F). repeat split; [lia|lia|].
    replace (S d - 1) with d by lia. eapply part_le; [exact K|lia|lia].
  - intros l ms m l' d k C (F & N & K) O. cbn [nest nodes length].
    assert (F2 : Forall (fun kv => nest (snd kv) <= d) m).
    { rewrite Forall_forall in *. intros [key v] I. apply (F (key, v)). eapply obj_of_in; eassumption. }
    pose proof (max_le _ (fun kv : str * value => nest (snd kv)) d m F2). apply obj_of_iff in O. pose proof (emplace_all_nodes ms []) as E. rewrite <- O in E.
    change (lsum nodes2 []) with 0 in E. repeat split; [lia|lia|]. replace (S d - 1) with d by lia. eapply part_le; [exact K|lia|lia].
  - intros l l' c B. lens. change (lsum nodes []) with 0. split; [apply Forall_nil|]; split; [lia|apply Nat.le_0_l].
  - intros l l1 v l2 l' c d k c2 B P (D & N & K) B2. lens. repeat split.
    + constructor; [lia|constructor].
    + cbn [map list_sum fold_right]. lia.
    + eapply part_le; [exact K|lia|lia].
  - intros l l1 v l2 l3 vs l' c d k c2 d2 k2 B P (D & N & K) B2 C (F & N2 & K2). lens. repeat split.
    + constructor; [lia|]. eapply max_in; [exact F|lia].
    + cbn [map list_sum fold_right]. fold (lsum nodes vs). lia.
    + eapply parts_le; [exact K|exact K2|lia|lia|lia].
  - intros l l' c B. lens. change (lsum nodes2 []) with 0. split; [apply Forall_nil|]; split; [lia|apply Nat.le_0_l].
  - intros l l1 key l2 l' c c1 B S B2. lens. change (lsum nodes2 []) with 0. split; [apply Forall_nil|]; split; [lia|apply Nat.le_0_l].
  - intros l l1 key l2 l3 l4 v l5 l' c c1 c2 d k c3 B S B2 B3 P (D & N & K) B4.
    assert (1 <= d) by (destruct P; lia). lens. repeat split.
    + constructor; [cbn [snd]; lia|constructor].
    + cbn [map list_sum fold_right snd]. lia.
    + eapply (member_le k (nodes v) d _ (length l4 - length l5)); [exact K|lia|lia|lia|lia].
  - intros l l1 key l2 l3 l4 v l5 l6 ms l' c c1 c2 d k c3 d2 k2 B S B2 B3 P (D & N & K) B4 Fi (F & N2 & K2).
    assert (1 <= d) by (destruct P; lia). lens. repeat split.
    + constructor; [cbn [snd]; lia|]. eapply max_in; [exact F|lia].
    + cbn [map list_sum fold_right snd]. fold (lsum nodes2 ms). lia.
    + assert (X : k + nodes v <= d * (length l4 - length l5)) by (eapply member_le; [exact K|lia|lia|lia|lia]).
      eapply parts_le; [exact X|exact K2|lia|lia|lia].
Qed.

Theorem takes_value : forall y l v rest d k, takes cf y l v rest d k ->
  nest v <= d /\ nodes v <= length l /\ k <= (d - 1) * length l.
Proof.
  intros y l v rest d k T. destruct T as [l l1 v l2 rest c d k c2 B P B2 R]. destruct (phrase_value _ _ _ _ _ P) as (D & N & K). lens.
  repeat split; [lia|lia|]. eapply part_le; [exact K|lia|lia].
Qed.
End Value.

(** ** Families *)
Lemma tower_phrase : forall cf n r, phrase cf (tower_text n ++ r) (tower n) r (S n) 0.
Proof.
  intros cf n. induction n as [|n IH]; intro r.
  - cbn [tower tower_text app]. apply ph_arr. apply co_end with (c := 0). apply bk_none. unfold space. lia.
  - cbn [tower tower_text app]. rewrite <- app_assoc. cbn [app]. apply ph_arr.
    replace (S n) with (deepest [0; S n; 0]) by (unfold deepest; cbn [list_max fold_right]; lia).
    eapply co_last; [|exact (IH (93%N :: r))|].
    + apply bk_none. destruct n; cbn [tower_text app]; unfold space; lia.
    + apply bk_none. unfold space. lia.
Qed.
Lemma otower_phrase : forall cf n r, exists k, phrase cf (otower_text n ++ r) (otower n) r (S n) k /\ 2 * k = n * S n.
Proof.
  intros cf n. induction n as [|n IH]; intro r.
  - exists 0. split; [|reflexivity]. cbn [otower otower_text app]. eapply ph_obj with (ms := []).
    + apply fi_end with (c := 0). apply bk_none. unfold space. lia.
    + apply obj_of_iff. reflexivity.
  - destruct (IH (125%N :: r)) as (k & P & K). exists (k + nodes (otower n)). split.
    + cbn [otower otower_text app]. rewrite <- app_assoc. cbn [app]. apply ph_obj with (ms := [([], otower n)]).
      * replace (S n) with (deepest [0; 0; 1; S n; 0]) by (unfold deepest; cbn [list_max fold_right]; lia).
        eapply fi_last with (c2 := 0); [| | | |exact P|].
        -- apply bk_none. unfold space. lia.
        -- apply (sl _ _ [] []); [constructor|reflexivity].
        -- apply bk_none. unfold space. lia.
        -- apply bk_none. destruct n; cbn [otower_text app]; unfold space; lia.
        -- apply bk_none. unfold space. lia.
      * apply obj_of_iff. reflexivity.
    + assert (E : nodes (otower n) = S n). { clear. induction n as [|n IH]; [reflexivity|]. cbn [otower nodes map snd list_sum fold_right]. rewrite IH. lia. }
      rewrite E. lia.
Qed.
Lemma remarks_blanks : forall n, blanks (remarks n) [48%N] n.
Proof.
  induction n as [|n IH]; cbn [remarks].
  - apply bk_none. unfold space. lia.
  - apply (bk_block []); [apply cb_nil|exact IH].
Qed.

Lemma family : forall cf h l v d k, enc_ok (src_enc cf) (src_ck cf) = true -> enc_ok (tgt_enc cf) (tgt_ck cf) = true ->
  Forall (fun c => c < 128)%N l -> takes cf VNull l v [] d k -> k_into cf h VNull l = ((v, (Ret tt, ""%string)), (d, k)).
Proof. intros cf h l v d k Es Et A T. eapply parse_exact; [exact Et|apply feeds_ascii; [exact Es|exact A]|exact T|left; reflexivity]. Qed.
Lemma tower_ascii : forall n, Forall (fun c => c < 128)%N (tower_text n).
Proof. induction n as [|n IH]; cbn [tower_text]; repeat constructor; try lia. apply Forall_app. split; [exact IH|]. repeat constructor; lia. Qed.
Lemma otower_ascii : forall n, Forall (fun c => c < 128)%N (otower_text n).
Proof. induction n as [|n IH]; cbn [otower_text]; repeat constructor; try lia. apply Forall_app. split; [exact IH|]. repeat constructor; lia. Qed.
Lemma remarks_ascii : forall n, Forall (fun c => c < 128)%N (remarks n).
Proof. induction n as [|n IH]; cbn [remarks]; repeat constructor; try lia. exact IH. Qed.
Lemma tower_length : forall n, length (tower_text n) = 2 * n + 2.
Proof. induction n as [|n IH]; [reflexivity|]. cbn [tower_text length]. rewrite app_length, IH. cbn [length]. lia. Qed.
Lemma otower_length : forall n, length (otower_text n) = 5 * n + 2.
Proof. induction n as [|n IH]; [reflexivity|]. cbn [otower_text length]. rewrite app_length, IH. cbn [length]. lia. Qed.
Lemma remarks_length : forall n, length (remarks n) = 4 * n + 1.
Proof. induction n as [|n IH]; [reflexivity|]. cbn [remarks length]. rewrite IH. lia. Qed.

Theorem tower_cost : forall cf h n, enc_ok (src_enc cf) (src_ck cf) = true -> enc_ok (tgt_enc cf) (tgt_ck cf) = true ->
  k_into cf h VNull (tower_text n) = ((tower n, (Ret tt, ""%string)), (S n, 0)) /\ length (tower_text n) = 2 * n + 2.
Proof.
  intros cf h n Es Et. split; [|apply tower_length]. apply family; [assumption|assumption|apply tower_ascii|].
  replace (S n) with (deepest [1; 1; S n; 0]) by (unfold deepest; cbn [list_max fold_right]; lia).
  pose proof (tower_phrase cf n []) as P. rewrite app_nil_r in P. eapply (ta_doc cf VNull (tower_text n) (tower_text n) _ [] [] 0); [|exact P| |left; reflexivity].
  - apply bk_none. destruct n; cbn [tower_text]; unfold space; lia.
  - apply bk_none. exact Logic.I.
Qed.
Theorem otower_cost : forall cf h n, enc_ok (src_enc cf) (src_ck cf) = true -> enc_ok (tgt_enc cf) (tgt_ck cf) = true ->
  exists k, k_into cf h VNull (otower_text n) = ((otower n, (Ret tt, ""%string)), (S n, k)) /\ 2 * k = n * S n /\ length (otower_text n) = 5 * n + 2.
Proof.
  intros cf h n Es Et. destruct (otower_phrase cf n []) as (k & P & K). exists k. split; [|split; [exact K|apply otower_length]].
  apply family; [assumption|assumption|apply otower_ascii|].
  replace (S n) with (deepest [1; 1; S n; 0]) by (unfold deepest; cbn [list_max fold_right]; lia).
  rewrite app_nil_r in P. eapply (ta_doc cf VNull (otower_text n) (otower_text n) _ [] [] 0); [|exact P| |left; reflexivity].
  - apply bk_none. destruct n; cbn [otower_text]; unfold space; lia.
  - apply bk_none. exact Logic.I.
Qed.
Theorem remarks_cost : forall cf h n, enc_ok (src_enc cf) (src_ck cf) = true -> enc_ok (tgt_enc cf) (tgt_ck cf) = true ->
  k_into cf h VNull (remarks n) = ((VInt 0, (Ret tt, ""%string)), (S n, 0)) /\ length (remarks n) = 4 * n + 1.
Proof.
  intros cf h n Es Et. split; [|apply remarks_length]. apply family; [assumption|assumption|apply remarks_ascii|].
  replace (S n) with (deepest [S n; 1; 1; 0]) by (unfold deepest; cbn [list_max fold_right]; lia).
  eapply (ta_doc cf VNull (remarks n) [48%N] _ [] [] n); [apply remarks_blanks| | |left; reflexivity].
  - apply ph_num. apply nu_plain; [lia|lia|]. apply un_zero. exact Logic.I.
  - apply bk_none. exact Logic.I.
Qed.

(** ** Without members nothing is copied *)
Lemma memberless_arr : forall l, memberless (VArr l) <-> Forall memberless l.
Proof.
  induction l as [|x l IH]; [split; constructor|]. cbn [memberless] in *. split.
  - intros [A B]. constructor; [exact A|]. apply IH. exact B.
  - intro F. inversion F. split; [assumption|]. apply IH. assumption.
Qed.
Definition j_phrase (cf : pcfg) (l : list N) (v : value) (l' : list N) (d k : nat) : Prop := memberless v -> k = 0.
Definition j_contents (cf : pcfg) (l : list N) (vs : list value) (l' : list N) (d k : nat) : Prop := Forall memberless vs -> k = 0.
Definition j_fields (cf : pcfg) (l : list N) (ms : list (str * value)) (l' : list N) (d k : nat) : Prop := ms = [] -> k = 0.
Lemma memberless_phrase : forall cf l v l' d k, phrase cf l v l' d k -> j_phrase cf l v l' d k.
Proof.
  intro cf. apply (phrase_mut cf (j_phrase cf) (j_contents cf) (j_fields cf)); unfold j_phrase, j_contents, j_fields; try reflexivity; try discriminate.
  - intros l vs l' d k C IH M. apply IH. apply memberless_arr. exact M.
  - intros l ms m l' d k F IH O M. apply IH. cbn [memberless] in M. subst m. destruct ms as [|[key v] ms]; [reflexivity|]. exfalso.
    destruct O as [_ O]. assert (A : assoc key v []) by (apply O; constructor). inversion A.
  - intros l l1 v l2 l' c d k c2 _ _ IH _ F. inversion F. apply IH. assumption.
  - intros l l1 v l2 l3 vs l' c d k c2 d2 k2 _ _ IH _ _ IH2 F. inversion F. rewrite IH, IH2 by assumption. reflexivity.
Qed.
Theorem memberless_copies : forall cf y l v rest d k, takes cf y l v rest d k -> memberless v -> k = 0.
Proof. intros cf y l v rest d k T M. destruct T as [l l1 v l2 rest c d k c2 B P B2 R]. exact (memberless_phrase _ _ _ _ _ _ P M). Qed.

(** ** No limit *)
Theorem no_limit : forall limit, exists s v, parse_string cfg_json s = Ret v /\ length s = 2 * limit + 2 /\ fst (snd (k_into cfg_json HNone VNull s)) = S limit.
Proof.
  intro limit. destruct (tower_cost cfg_json HNone limit eq_refl eq_refl) as [E L]. exists (tower_text limit), (tower limit).
  split; [|split; [exact L|rewrite E; reflexivity]]. unfold parse_string. rewrite <- into_same, E. reflexivity.
Qed.
Theorem depth_of_value_refuted : ~ exists f : value -> nat, forall s v, parse_string cfg_json s = Ret v -> fst (snd (k_into cfg_json HNone VNull s)) <= f v.
Proof.
  intros [f H]. destruct (remarks_cost cfg_json HNone (f (VInt 0)) eq_refl eq_refl) as [E _]. specialize (H (remarks (f (VInt 0))) (VInt 0)). rewrite E in H.
  cbn [fst snd] in H. enough (S (f (VInt 0)) <= f (VInt 0)) by lia. apply H. unfold parse_string. rewrite <- into_same, E. reflexivity.
Qed.
Theorem not_linear : ~ exists c, forall s v, parse_string cfg_json s = Ret v -> snd (snd (k_into cfg_json HNone VNull s)) <= c * length s.
Proof.
  intros [c H]. destruct (otower_cost cfg_json HNone (12 * c + 12) eq_refl eq_refl) as (k & E & K & L). specialize (H (otower_text (12 * c + 12)) (otower (12 * c + 12))).
  rewrite E, L in H. cbn [fst snd] in H. assert (k <= c * (5 * (12 * c + 12) + 2)) by (apply H; unfold parse_string; rewrite <- into_same, E; reflexivity). nia.
Qed.
Theorem less_not_polynomial : forall n, nodes (tower n) = S n /\ fst (snd (k_lt (tower n) (tower n))) = 2 ^ S n - 1.
Proof. intro n. destruct (tower_sizes n) as (A & _). destruct (tower_calls n) as [_ B]. rewrite B. split; [exact A|reflexivity]. Qed.
