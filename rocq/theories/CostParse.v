(** What parsing costs, by the grammar. *)
From Coq Require Import Lia ZifyBool ZifyNat ZifyN Floats.SpecFloat.
From Verif Require Import Base Stream Encoding Value ValueOps Token Message Parser EncodingProofs Feeds ListMachine Simulation SimParse
  SpecUnicode SpecGrammar GrammarLex GrammarTok GrammarProofs ObjFacts DumpText Cost SpecCost CostProofs CostCompare.
Open Scope nat_scope.

(** ** Copies and releases *)
Lemma fold_cost : forall A (f : A -> cost) l, fold_right (fun x c => both (f x) c) free l = (lmax (fun x => fst (f x)) l, lsum (fun x => snd (f x)) l).
Proof. intros A f l. induction l as [|x l IH]; [reflexivity|]. cbn [fold_right]. rewrite IH. reflexivity. Qed.
Lemma lmax_ext : forall A (f g : A -> nat) l, Forall (fun x => f x = g x) l -> lmax f l = lmax g l.
Proof. intros A f g l F. induction F as [|x l E F IH]; [reflexivity|]. cbn [map list_max fold_right] in *. fold (lmax f l) (lmax g l) in *. congruence. Qed.
Lemma lsum_ext : forall A (f g : A -> nat) l, Forall (fun x => f x = g x) l -> lsum f l = lsum g l.
Proof. intros A f g l F. induction F as [|x l E F IH]; [reflexivity|]. cbn [map list_sum fold_right] in *. fold (lsum f l) (lsum g l) in *. congruence. Qed.
Lemma copy_eq : forall v, copy_cost v = (levels v, nodes v).
Proof.
  apply (value_rect2 (fun v => copy_cost v = (levels v, nodes v))); try reflexivity.
  - intros l F. cbn [copy_cost]. rewrite fold_cost. unfold both, called. cbn [fst snd levels nodes Nat.max Nat.add]. f_equal; f_equal.
    + apply lmax_ext. eapply Forall_impl; [|exact F]. intros x ->. reflexivity.
    + apply lsum_ext. eapply Forall_impl; [|exact F]. intros x ->. reflexivity.
  - intros l F. cbn [copy_cost]. rewrite (fold_cost _ (fun kv => copy_cost (snd kv))). unfold both, called. cbn [fst snd levels nodes Nat.max Nat.add]. f_equal; f_equal.
    + apply lmax_ext. eapply Forall_impl; [|exact F]. intros x E. rewrite E. reflexivity.
    + apply lsum_ext. eapply Forall_impl; [|exact F]. intros x E. rewrite E. reflexivity.
Qed.
Lemma lsum_0 : forall A (f : A -> nat) l, Forall (fun x => f x = 0) l -> lsum f l = 0.
Proof. intros A f l F. induction F as [|x l E F IH]; [reflexivity|]. cbn [map list_sum fold_right] in *. fold (lsum f l) in *. lia. Qed.
Lemma drop_eq : forall v, drop_cost v = (levels v, 0).
Proof.
  apply (value_rect2 (fun v => drop_cost v = (levels v, 0))); try reflexivity.
  - intros l F. cbn [drop_cost]. rewrite fold_cost. unfold called. cbn [fst snd levels]. f_equal; [f_equal|].
    + apply lmax_ext. eapply Forall_impl; [|exact F]. intros x ->. reflexivity.
    + apply lsum_0. eapply Forall_impl; [|exact F]. intros x ->. reflexivity.
  - intros l F. cbn [drop_cost]. rewrite (fold_cost _ (fun kv => drop_cost (snd kv))). unfold called. cbn [fst snd levels]. f_equal; [f_equal|].
    + apply lmax_ext. eapply Forall_impl; [|exact F]. intros x E. rewrite E. reflexivity.
    + apply lsum_0. eapply Forall_impl; [|exact F]. intros x E. rewrite E. reflexivity.
Qed.

(** ** Blanks *)
Section Exact.
Variables (cf : pcfg) (t : term).
Hypothesis Hok : enc_ok (tgt_enc cf) (tgt_ck cf) = true.

Lemma read_at : forall st c l, at_ cf st (c :: l) t -> ok t l -> exists st', read_next cf st = Ret st' /\ at_ cf st' l t.
Proof.
  intros st c l A O. pose proof (read_sim cf st (c :: l) t A) as R. cbn [tl] in R. rewrite ok_guard in R by assumption.
  destruct (read_next cf st) as [st'| | | |]; cbn in R; try contradiction. exists st'. split; [reflexivity|apply R].
Qed.
Lemma line_at : forall b st x n l fuel, Forall (fun c => ~ newline c) b -> newline n -> at_ cf st (x :: b ++ n :: l) t -> length b < fuel ->
  exists st', line_comment cf fuel st = Ret (true, st') /\ at_ cf st' (n :: l) t.
Proof.
  induction b as [|c b IH]; intros st x n l fuel F Hn A L; (destruct fuel as [|f]; [lia|]); cbn [line_comment app] in *.
  - destruct (read_at _ _ _ A (ok_cons _ _ _)) as (st' & -> & A'). cbn [bind]. rewrite (at_cur _ _ _ _ A'). cbn [hd0 hd].
    apply is_nl_iff in Hn. unfold is_nl in Hn. rewrite Hn. exists st'. split; [reflexivity|assumption].
  - inversion F as [|? ? Nc F']; subst. destruct (read_at _ _ _ A (ok_cons _ _ _)) as (st' & -> & A'). cbn [bind].
    rewrite (at_cur _ _ _ _ A'). cbn [hd0 hd]. assert (E : is_nl c = false) by (destruct (is_nl c) eqn:E; [apply is_nl_iff in E; contradiction|reflexivity]).
    unfold is_nl in E. rewrite E. rewrite (at_eof _ _ _ _ A'). apply (IH st' c n l f F' Hn A'). cbn [length] in L. lia.
Qed.
Lemma line_at_end : forall b st x fuel, Forall (fun c => ~ newline c) b -> ok t [] -> at_ cf st (x :: b) t -> length b < fuel ->
  exists st', line_comment cf fuel st = Ret (false, st') /\ at_ cf st' [] t.
Proof.
  induction b as [|c b IH]; intros st x fuel F O A L; (destruct fuel as [|f]; [lia|]); cbn [line_comment] in *.
  - destruct (read_at _ _ _ A O) as (st' & -> & A'). cbn [bind]. rewrite (at_cur _ _ _ _ A'). cbn [hd0 hd].
    rewrite (at_eof _ _ _ _ A'). exists st'. split; [reflexivity|assumption].
  - inversion F as [|? ? Nc F']; subst. destruct (read_at _ _ _ A (ok_cons _ _ _)) as (st' & -> & A'). cbn [bind].
    rewrite (at_cur _ _ _ _ A'). cbn [hd0 hd]. assert (E : is_nl c = false) by (destruct (is_nl c) eqn:E; [apply is_nl_iff in E; contradiction|reflexivity]).
    unfold is_nl in E. rewrite E. rewrite (at_eof _ _ _ _ A'). apply (IH st' c f F' O A'). cbn [length] in L. lia.
Qed.
Lemma block_at : forall b, comment_body b -> forall st x l fuel, ok t l -> at_ cf st (x :: b ++ 42 :: 47 :: l)%N t -> length b < fuel ->
  exists st', block_comment cf fuel st = Ret st' /\ at_ cf st' l t.
Proof.
  intros b B. induction B as [|c b Nc B IH|c b Nc B IH]; intros st x l fuel O A L; (destruct fuel as [|f]; [lia|]); cbn [block_comment app] in *.
  - destruct (read_at _ _ _ A (ok_cons _ _ _)) as (st1 & -> & A1). cbn [bind]. rewrite (at_cur _ _ _ _ A1). cbn [hd0 hd]. change (42 =? c_star)%N with true. cbv match.
    destruct (read_at _ _ _ A1 (ok_cons _ _ _)) as (st2 & -> & A2). cbn [bind]. rewrite (at_cur _ _ _ _ A2). cbn [hd0 hd]. change (47 =? c_slash)%N with true. cbv match.
    exact (read_at _ _ _ A2 O).
  - destruct (read_at _ _ _ A (ok_cons _ _ _)) as (st1 & -> & A1). cbn [bind]. rewrite (at_cur _ _ _ _ A1). cbn [hd0 hd].
    replace (c =? c_star)%N with false by (symmetry; apply N.eqb_neq; exact Nc). rewrite (at_eof _ _ _ _ A1).
    apply (IH st1 c l f O A1). cbn [length] in L. lia.
  - destruct (read_at _ _ _ A (ok_cons _ _ _)) as (st1 & -> & A1). cbn [bind]. rewrite (at_cur _ _ _ _ A1). cbn [hd0 hd]. change (42 =? c_star)%N with true. cbv match.
    destruct (read_at _ _ _ A1 (ok_cons _ _ _)) as (st2 & -> & A2). cbn [bind]. rewrite (at_cur _ _ _ _ A2). cbn [hd0 hd].
    replace (c =? c_slash)%N with false by (symmetry; apply N.eqb_neq; exact Nc). rewrite (at_eof _ _ _ _ A2).
    apply (IH st2 c l f O A2). cbn [length] in L. lia.
Qed.

Lemma blanks_blank : forall l l' c, blanks l l' c -> blank l l'.
Proof. intros l l' c B. induction B; [apply bl_none|apply bl_space|apply bl_line|apply bl_line_end|apply bl_block]; assumption. Qed.
Lemma blank_blanks : forall l l', blank l l' -> exists c, blanks l l' c.
Proof.
  intros l l' B. induction B as [l H|x l l' S B [c IH]|b n l l' F N B [c IH]|b F|b l l' C B [c IH]].
  - exists 0. apply bk_none. assumption.
  - exists c. apply bk_space; assumption.
  - exists (S c). apply bk_line; assumption.
  - exists 1. apply bk_line_end; assumption.
  - exists (S c). apply bk_block; assumption.
Qed.

Lemma skip_at : forall l l' c, blanks l l' c -> ok t l' -> forall st fuel, at_ cf st l t -> length l < fuel -> snd (k_skip cf fuel st) = (c, 0).
Proof.
  assert (G : forall l l' c, blanks l l' c -> ok t l' -> forall st g fuel f, at_ cf st l t -> length l < g -> length l < fuel -> length l < S f ->
    snd (match skip_ws cf g st with
      | Ret st =>
          if (p_cur st =? c_slash)%N then
            let '(r, k) :=
              match read_next cf st with
              | Ret st =>
                  if (p_cur st =? c_slash)%N then
                    match line_comment cf fuel st with
                    | Ret (true, st) => k_skip cf f st
                    | Ret (false, st) => (Ret st, free)
                    | r => (stop r, free)
                    end
                  else if (p_cur st =? c_star)%N then
                    match block_comment cf fuel st with
                    | Ret st => k_skip cf f st
                    | r => (stop r, free)
                    end
                  else (fail "unexpected character '/'", free)
              | r => (r, free)
              end in
            (r, called k)
          else (Ret st, free)
      | r => (r, free)
      end) = (c, 0)).
  { intros l l' c B. induction B as [l H|x l l' c S B IH|b n l l' c F N B IH|b F|b l l' c C B IH]; intros O st g fuel f A Lg Lf Lr; (destruct g as [|g]; [lia|]); cbn [skip_ws].
    - rewrite (at_cur _ _ _ _ A). assert (E : is_space (hd0 l) = false /\ (hd0 l =? c_slash)%N = false).
      { destruct l as [|x l]; [split; reflexivity|]. cbn [hd0 hd]. destruct H as [H1 H2]. split; [|apply N.eqb_neq; exact H2].
        destruct (is_space x) eqn:E; [apply is_space_iff in E; contradiction|reflexivity]. }
      destruct E as [E1 E2]. rewrite E1. rewrite (at_cur _ _ _ _ A), E2. reflexivity.
    - rewrite (at_cur _ _ _ _ A). cbn [hd0 hd]. apply is_space_iff in S. rewrite S.
      assert (Ol : ok t l) by (eapply ok_mono; [exact O|]; apply blank_len; eapply blanks_blank; exact B).
      destruct (read_at _ _ _ A Ol) as (st' & -> & A'). cbn [bind]. cbn [length] in *. apply IH; try assumption; lia.
    - rewrite (at_cur _ _ _ _ A). cbn [hd0 hd]. change (is_space 47%N) with false. cbv match. rewrite (at_cur _ _ _ _ A). cbn [hd0 hd]. change (47 =? c_slash)%N with true. cbv match.
      destruct (read_at _ _ _ A (ok_cons _ _ _)) as (st1 & -> & A1). rewrite (at_cur _ _ _ _ A1). cbn [hd0 hd]. change (47 =? c_slash)%N with true. cbv match.
      cbn [length] in *. rewrite app_length in *. cbn [length] in *.
      destruct (line_at b st1 47%N n l fuel F N A1 ltac:(lia)) as (st2 & -> & A2).
      destruct f as [|f]; [lia|]. assert (E : snd (k_skip cf (Datatypes.S f) st2) = (c, 0)).
      { cbn [k_skip skip_ws]. rewrite (at_cur _ _ _ _ A2). cbn [hd0 hd]. assert (Sn : is_space n = true) by (apply is_space_iff, newline_space; assumption). rewrite Sn.
        assert (Ol : ok t l) by (eapply ok_mono; [exact O|]; apply blank_len; eapply blanks_blank; exact B).
        destruct (read_at _ _ _ A2 Ol) as (st3 & -> & A3). cbn [bind]. apply IH; try assumption; lia. }
      destruct (k_skip cf (Datatypes.S f) st2) as [r k]. cbn [snd] in *. subst k. reflexivity.
    - rewrite (at_cur _ _ _ _ A). cbn [hd0 hd]. change (is_space 47%N) with false. cbv match. rewrite (at_cur _ _ _ _ A). cbn [hd0 hd]. change (47 =? c_slash)%N with true. cbv match.
      destruct (read_at _ _ _ A (ok_cons _ _ _)) as (st1 & -> & A1). rewrite (at_cur _ _ _ _ A1). cbn [hd0 hd]. change (47 =? c_slash)%N with true. cbv match.
      cbn [length] in *. destruct (line_at_end b st1 47%N fuel F O A1 ltac:(lia)) as (st2 & -> & A2). reflexivity.
    - rewrite (at_cur _ _ _ _ A). cbn [hd0 hd]. change (is_space 47%N) with false. cbv match. rewrite (at_cur _ _ _ _ A). cbn [hd0 hd]. change (47 =? c_slash)%N with true. cbv match.
      destruct (read_at _ _ _ A (ok_cons _ _ _)) as (st1 & -> & A1). rewrite (at_cur _ _ _ _ A1). cbn [hd0 hd]. change (42 =? c_slash)%N with false. change (42 =? c_star)%N with true. cbv match.
      cbn [length] in *. rewrite app_length in *. cbn [length] in *.
      assert (Ol : ok t l) by (eapply ok_mono; [exact O|]; apply blank_len; eapply blanks_blank; exact B).
      destruct (block_at b C st1 42%N l fuel Ol A1 ltac:(lia)) as (st2 & -> & A2).
      destruct f as [|f]; [lia|]. assert (E : snd (k_skip cf (Datatypes.S f) st2) = (c, 0)).
      { cbn [k_skip]. apply IH; try assumption; lia. }
      destruct (k_skip cf (Datatypes.S f) st2) as [r k]. cbn [snd] in *. subst k. reflexivity. }
  intros l l' c B O st fuel A L. destruct fuel as [|f]; [lia|]. cbn [k_skip]. eapply G; try eassumption.
Qed.

(** a token, after its blanks *)
Lemma scan_at : forall l l1 c k lk, blanks l l1 c -> tok_at cf l1 k lk -> ok t lk -> forall st n, at_ cf st l t -> length l < n ->
  exists tk st1, k_scan cf n st = (Ret (tk, st1), (c, 0)) /\ tok_on cf t (tk, st1) (k, lk).
Proof.
  intros l l1 c k lk B T O st n A L.
  assert (O1 : ok t l1) by (eapply ok_of_tok; eassumption).
  pose proof (skip_at _ _ _ B O1 st n A L) as E.
  pose proof (scan_sim cf t l st n A L) as S. rewrite (scan_c cf t l l1 k lk (blanks_blank _ _ _ B) T O) in S.
  rewrite <- scan_same in S.
  assert (E' : snd (k_scan cf n st) = (c, 0)) by (unfold k_scan; destruct (k_skip cf n st) as [[] ?]; exact E).
  destruct (k_scan cf n st) as [r kk]. cbn [fst snd] in *. subst kk. destruct r as [[tk st1]| | | |]; cbn in S; try contradiction.
  eauto.
Qed.

(** a call that scans its token first *)
Lemma parse_none : forall n y st tk st1 c, k_scan cf (S n) st = (Ret (tk, st1), (c, 0)) ->
  k_parse cf (S n) y None st = (fst (k_parse cf (S n) y (Some tk) st1), both (S c, 0) (snd (k_parse cf (S n) y (Some tk) st1))).
Proof.
  intros n y st tk st1 c E. cbn [k_parse]. rewrite E. unfold both, called, free. cbn [fst snd Nat.max Nat.add].
  destruct tk; cbn [fst snd]; rewrite ?Nat.max_0_r; try reflexivity.
  - destruct (get_string cf (S n) st1) as [s r]. cbn [fst snd]. reflexivity.
  - destruct (get_integer st1); cbn [fst snd]; reflexivity.
  - destruct (k_arr cf n [] st1) as [[l r] k]. cbn [fst snd]. f_equal. f_equal; lia.
  - destruct (k_obj cf n [] st1) as [[l r] k]. cbn [fst snd]. f_equal. f_equal; lia.
Qed.

(** what is left after a phrase is shorter, and not beyond a decoding error *)
Definition x_phrase (l : list N) (v : value) (l' : list N) (d k : nat) : Prop := ok t l' ->
  length l' < length l /\ (levels v <= d /\ 1 <= d) /\
  exists tok lk, tok_at cf l tok lk /\ ok t lk /\ a_starts tok = true /\
  forall tk st n y, tok_on cf t (tk, st) (tok, lk) -> 2 * length l + 1 <= n ->
  exists st', k_parse cf n y (Some tk) st = ((v, Ret st'), (Nat.max (S (levels y)) d, k)) /\ at_ cf st' l' t.
Definition x_contents (l : list N) (vs : list value) (l' : list N) (d k : nat) : Prop := ok t l' ->
  length l' < length l /\ Forall (fun v => levels v <= d) vs /\
  forall st n acc, at_ cf st l t -> 2 * length l + 2 <= n ->
  exists st', k_arr cf n acc st = ((acc ++ vs, Ret (Tend_arr, st')), (d, k)) /\ at_ cf st' l' t.
Definition x_fields (l : list N) (ms : list (str * value)) (l' : list N) (d k : nat) : Prop := ok t l' ->
  length l' < length l /\ Forall (fun kv => levels (snd kv) <= d) ms /\
  forall st n m, at_ cf st l t -> 2 * length l + 2 <= n ->
  exists st', k_obj cf n m st = ((emplace_all ms m, Ret (Tend_obj, st')), (d, k)) /\ at_ cf st' l' t.

Lemma parse_full : forall l v l' d k, x_phrase l v l' d k -> ok t l' -> forall l0 c, blanks l0 l c ->
  forall st n y, at_ cf st l0 t -> 2 * length l0 + 1 <= n ->
  exists st', k_parse cf n y None st = ((v, Ret st'), (Nat.max (S c) (Nat.max (S (levels y)) d), k)) /\ at_ cf st' l' t.
Proof.
  intros l v l' d k X O l0 c B st n y A L. destruct (X O) as (Ll & _ & tok & lk & T & Ok & _ & P).
  destruct (scan_at _ _ _ _ _ B T Ok st n A ltac:(lia)) as (tk & st1 & S & To).
  pose proof (blank_len _ _ (blanks_blank _ _ _ B)) as Bl.
  destruct (P tk st1 n y To ltac:(lia)) as (st' & E & A'). exists st'. split; [|assumption].
  destruct n as [|n]; [lia|]. rewrite (parse_none _ _ _ _ _ _ S), E. reflexivity.
Qed.

Lemma lmax_le : forall A (f : A -> nat) l d, Forall (fun x => f x <= d) l -> lmax f l <= d.
Proof. intros A f l d F. induction F as [|x l H F IH]; cbn [map list_max fold_right]; [lia|]. fold (lmax f l). lia. Qed.
Lemma Forall_le : forall A (f : A -> nat) l d d', d <= d' -> Forall (fun x => f x <= d) l -> Forall (fun x => f x <= d') l.
Proof. intros A f l d d' L F. eapply Forall_impl; [|exact F]. cbv beta. intros. lia. Qed.
Lemma obj_of_in : forall ms m, obj_of ms m -> forall k v, In (k, v) m -> In (k, v) ms.
Proof.
  intros ms m [S E] k v I. assert (AS : assoc k v m).
  { clear E. induction S as [|k0 v0 m F S IH]; [destruct I|]. destruct I as [I|I]; [injection I as -> ->; constructor|].
    apply as_next; [|auto]. rewrite Forall_forall in F. specialize (F _ I). cbn [fst] in F. intros ->. exact (key_lt_irrefl _ F). }
  apply E in AS. clear - AS. induction AS; [left; reflexivity|right; assumption].
Qed.

Ltac pairs := unfold both, called, free, deepest; cbn [fst snd list_max fold_right Nat.add]; rewrite ?Nat.add_0_r; f_equal; f_equal; lia.

Scheme phrase_mut := Minimality for phrase Sort Prop
  with contents_mut := Minimality for contents Sort Prop
  with fields_mut := Minimality for fields Sort Prop.

Lemma tok_on_AT : forall tk st k lk, tok_on cf t (tk, st) (AT k, lk) -> tk = k /\ at_ cf st lk t.
Proof. intros tk st k lk [A B]. cbn [fst snd] in *. destruct B as [B _]. split; assumption. Qed.
Lemma string_at : forall l s l' st n, strlit (tgt_enc cf) (tgt_ck cf) (34%N :: l) s l' -> ok t l' -> at_ cf st (34%N :: l) t -> length l < n ->
  exists st', get_string cf n st = (s, Ret st') /\ at_ cf st' l' t.
Proof.
  intros l s l' st n Sl O A L. assert (G : a_get_string cf t n (34%N :: l) = (s, Ret l')) by (apply get_string_iff; auto).
  destruct (get_string_sim cf t n (34%N :: l) st A ltac:(cbn [length]; lia) ltac:(lia)) as [E1 E2]. rewrite G in *. cbn [fst snd] in *.
  destruct (get_string cf n st) as [s' r]. cbn [fst snd] in *. subst s'. destruct r as [st'| | | |]; cbn in E2; try contradiction. eauto.
Qed.

Lemma exact_all : forall l v l' d k, phrase cf l v l' d k -> x_phrase l v l' d k.
Proof.
  apply (phrase_mut cf x_phrase x_contents x_fields).
  - (* literal *)
    intros l v l' Li O. destruct (tok_of_literal _ _ _ _ Li) as (x & T & X).
    assert (Ln : length l' < length l) by (inversion Li; subst; cbn [length]; rewrite app_length; lia).
    split; [assumption|]. split; [destruct x; try contradiction; subst v; cbn [levels]; lia|].
    exists (AT x), l'. split; [assumption|]. split; [assumption|]. split; [destruct x; try contradiction; reflexivity|].
    intros tk st n y To L. apply tok_on_AT in To. destruct To as [-> A]. exists st. split; [|assumption].
    destruct n as [|n]; [lia|]. cbn [k_parse]. rewrite drop_eq. destruct x; try contradiction; subst v; pairs.
  - (* number *)
    intros l v l' Nu O. destruct (number_numv _ _ _ _ _ Nu) as (k & Ek & Nk).
    assert (T : tok_at cf l k l') by (eapply ta_num; eassumption).
    assert (E : eats k = true) by (destruct k; try reflexivity; exfalso; eapply Nk; reflexivity).
    assert (Sc : a_scan cf t l = Ret (k, l')).
    { eapply scan_c; [|exact T|exact O]. destruct (number_start _ _ _ _ _ Nu) as (c & l1 & -> & C). constructor. unfold num_start in C. unfold space. lia. }
    apply a_scan_len in Sc. destruct Sc as [_ Sc]. specialize (Sc E).
    split; [assumption|]. split; [destruct k; cbn [tokv] in Ek; try discriminate; inversion Ek; subst; cbn [levels]; lia|].
    exists k, l'. split; [assumption|]. split; [assumption|]. split; [destruct k; cbn [tokv] in Ek; try discriminate; reflexivity|].
    intros tk st n y [A To] L. cbn [fst snd] in *. exists st. split; [|assumption]. destruct n as [|n]; [lia|].
    destruct k; cbn [tokv] in Ek; try discriminate; inversion Ek; subst; destruct To as [-> G]; cbn [k_parse]; rewrite drop_eq.
    + rewrite G. pairs.
    + rewrite G. pairs.
  - (* string *)
    intros l s l' Sl O. destruct (strlit_start cf _ _ _ _ _ Sl) as (l1 & -> & Ll).
    split; [lia|]. split; [cbn [levels]; lia|]. exists (AT Tstring), (34%N :: l1). split; [constructor|]. split; [apply ok_cons|]. split; [reflexivity|].
    intros tk st n y To L. apply tok_on_AT in To. destruct To as [-> A]. cbn [length] in L.
    destruct (string_at _ _ _ _ n Sl O A ltac:(lia)) as (st' & G & A'). exists st'. split; [|assumption].
    destruct n as [|n]; [lia|]. cbn [k_parse]. rewrite G, drop_eq. pairs.
  - (* array *)
    intros l vs l' d k Co IH O. destruct (IH O) as (Ll & Lv & P).
    split; [cbn [length]; lia|]. split; [split; [cbn [levels]; apply le_n_S, lmax_le; assumption|lia]|].
    exists (AT Tbegin_arr), l. split; [constructor|]. split; [eapply ok_mono; [exact O|lia]|]. split; [reflexivity|].
    intros tk st n y To L. apply tok_on_AT in To. destruct To as [-> A]. cbn [length] in L. destruct n as [|n]; [lia|].
    destruct (P st n [] A ltac:(lia)) as (st' & E & A'). exists st'. split; [|assumption].
    cbn [k_parse]. rewrite E, drop_eq. cbn [app]. pairs.
  - (* object *)
    intros l ms m l' d k Fi IH Ob O. destruct (IH O) as (Ll & Lv & P).
    split; [cbn [length]; lia|]. split.
    { split; [|lia]. cbn [levels]. apply le_n_S, lmax_le. rewrite Forall_forall in *. intros [key v] I. apply (Lv (key, v)). eapply obj_of_in; eassumption. }
    exists (AT Tbegin_obj), l. split; [constructor|]. split; [eapply ok_mono; [exact O|lia]|]. split; [reflexivity|].
    intros tk st n y To L. apply tok_on_AT in To. destruct To as [-> A]. cbn [length] in L. destruct n as [|n]; [lia|].
    destruct (P st n [] A ltac:(lia)) as (st' & E & A'). exists st'. split; [|assumption].
    apply obj_of_iff in Ob. subst m. cbn [k_parse]. rewrite E, drop_eq. pairs.
  - (* ] *)
    intros l l' c B O. pose proof (blank_len _ _ (blanks_blank _ _ _ B)) as Bl. cbn [length] in Bl. split; [lia|]. split; [constructor|].
    intros st n acc A L. destruct n as [|n]; [lia|].
    destruct (scan_at _ _ _ _ _ B (ta_rarr cf l') O st (S n) A ltac:(lia)) as (tk & st1 & Sc & To). apply tok_on_AT in To. destruct To as [-> A1].
    exists st1. split; [|assumption]. cbn [k_arr]. rewrite Sc. cbn [starts_value]. rewrite app_nil_r. reflexivity.
  - (* value ] *)
    intros l l1 v l2 l' c d k c2 B Ph IH B2 O.
    pose proof (blank_len _ _ (blanks_blank _ _ _ B)) as Bl. pose proof (blank_len _ _ (blanks_blank _ _ _ B2)) as Bl2. cbn [length] in Bl2.
    assert (O2 : ok t l2) by (eapply ok_blank; [eapply blanks_blank; exact B2|apply ok_cons]).
    destruct (IH O2) as (Ll & Lv & tok & lk & T & Ok & St & P). split; [lia|]. split; [constructor; [unfold deepest; cbn [list_max fold_right]; lia|constructor]|].
    intros st n acc A L. destruct n as [|n]; [lia|].
    destruct (scan_at _ _ _ _ _ B T Ok st (S n) A ltac:(lia)) as (tk & st1 & Sc & To).
    destruct (P tk st1 n VNull To ltac:(lia)) as (st2 & E & A2).
    destruct (scan_at _ _ _ _ _ B2 (ta_rarr cf l') O st2 (S n) A2 ltac:(lia)) as (tk3 & st3 & Sc3 & To3). apply tok_on_AT in To3. destruct To3 as [-> A3].
    exists st3. split; [|assumption]. cbn [k_arr]. rewrite Sc, (tok_on_starts _ _ _ _ _ _ To), St, E, Sc3. cbn [levels]. pairs.
  - (* value , ... *)
    intros l l1 v l2 l3 vs l' c d k c2 d2 k2 B Ph IH B2 Co IH2 O.
    pose proof (blank_len _ _ (blanks_blank _ _ _ B)) as Bl. pose proof (blank_len _ _ (blanks_blank _ _ _ B2)) as Bl2. cbn [length] in Bl2.
    assert (O2 : ok t l2) by (eapply ok_blank; [eapply blanks_blank; exact B2|apply ok_cons]).
    destruct (IH2 O) as (L3 & Lv2 & P2). assert (O3 : ok t l3) by (eapply ok_mono; [exact O|lia]).
    destruct (IH O2) as (Ll & Lv & tok & lk & T & Ok & St & P). split; [lia|].
    split; [constructor; [unfold deepest; cbn [list_max fold_right]; lia|eapply Forall_le; [|exact Lv2]; unfold deepest; cbn [list_max fold_right]; lia]|].
    intros st n acc A L. destruct n as [|n]; [lia|].
    destruct (scan_at _ _ _ _ _ B T Ok st (S n) A ltac:(lia)) as (tk & st1 & Sc & To).
    destruct (P tk st1 n VNull To ltac:(lia)) as (st2 & E & A2).
    destruct (scan_at _ _ _ _ _ B2 (ta_comma cf l3) O3 st2 (S n) A2 ltac:(lia)) as (tk3 & st3 & Sc3 & To3). apply tok_on_AT in To3. destruct To3 as [-> A3].
    destruct (P2 st3 n (acc ++ [v]) A3 ltac:(lia)) as (st4 & E4 & A4).
    exists st4. split; [|assumption]. cbn [k_arr]. rewrite Sc, (tok_on_starts _ _ _ _ _ _ To), St, E, Sc3, E4, <- app_assoc. cbn [levels app]. pairs.
  - (* } *)
    intros l l' c B O. pose proof (blank_len _ _ (blanks_blank _ _ _ B)) as Bl. cbn [length] in Bl. split; [lia|]. split; [constructor|].
    intros st n m A L. destruct n as [|n]; [lia|].
    destruct (scan_at _ _ _ _ _ B (ta_robj cf l') O st (S n) A ltac:(lia)) as (tk & st1 & Sc & To). apply tok_on_AT in To. destruct To as [-> A1].
    exists st1. split; [|assumption]. cbn [k_obj]. rewrite Sc. reflexivity.
  - (* key } *)
    intros l l1 key l2 l' c c1 B Sl B2 O. destruct (strlit_start cf _ _ _ _ _ Sl) as (l3 & -> & Ll).
    pose proof (blank_len _ _ (blanks_blank _ _ _ B)) as Bl. pose proof (blank_len _ _ (blanks_blank _ _ _ B2)) as Bl2. cbn [length] in *.
    assert (O2 : ok t l2) by (eapply ok_blank; [eapply blanks_blank; exact B2|apply ok_cons]).
    split; [lia|]. split; [constructor|]. intros st n m A L. destruct n as [|n]; [lia|].
    destruct (scan_at _ _ _ _ _ B (ta_str cf l3) (ok_cons _ _ _) st (S n) A ltac:(lia)) as (tk & st1 & Sc & To). apply tok_on_AT in To. destruct To as [-> A1].
    destruct (string_at _ _ _ _ (S n) Sl O2 A1 ltac:(lia)) as (st2 & G & A2).
    destruct (scan_at _ _ _ _ _ B2 (ta_robj cf l') O st2 (S n) A2 ltac:(lia)) as (tk3 & st3 & Sc3 & To3). apply tok_on_AT in To3. destruct To3 as [-> A3].
    exists st3. split; [|assumption]. cbn [k_obj]. rewrite Sc, G, Sc3. pairs.
  - (* key : value } *)
    intros l l1 key l2 l3 l4 v l5 l' c c1 c2 d k c3 B Sl B2 B4 Ph IH B5 O. destruct (strlit_start cf _ _ _ _ _ Sl) as (l6 & -> & Ll).
    pose proof (blank_len _ _ (blanks_blank _ _ _ B)) as Bl. pose proof (blank_len _ _ (blanks_blank _ _ _ B2)) as Bl2.
    pose proof (blank_len _ _ (blanks_blank _ _ _ B4)) as Bl4. pose proof (blank_len _ _ (blanks_blank _ _ _ B5)) as Bl5. cbn [length] in *.
    assert (O5 : ok t l5) by (eapply ok_blank; [eapply blanks_blank; exact B5|apply ok_cons]).
    destruct (IH O5) as (Lp & Lv & _). assert (O3 : ok t l3) by (eapply ok_mono; [exact O5|lia]).
    assert (O2 : ok t l2) by (eapply ok_blank; [eapply blanks_blank; exact B2|apply ok_cons]).
    split; [lia|]. split; [constructor; [unfold deepest; cbn [list_max fold_right snd]; lia|constructor]|].
    intros st n m A L. destruct n as [|n]; [lia|].
    destruct (scan_at _ _ _ _ _ B (ta_str cf l6) (ok_cons _ _ _) st (S n) A ltac:(lia)) as (tk & st1 & Sc & To). apply tok_on_AT in To. destruct To as [-> A1].
    destruct (string_at _ _ _ _ (S n) Sl O2 A1 ltac:(lia)) as (st2 & G & A2).
    destruct (scan_at _ _ _ _ _ B2 (ta_colon cf l3) O3 st2 (S n) A2 ltac:(lia)) as (tk3 & st3 & Sc3 & To3). apply tok_on_AT in To3. destruct To3 as [-> A3].
    destruct (parse_full _ _ _ _ _ IH O5 _ _ B4 st3 n VNull A3 ltac:(lia)) as (st4 & E & A4).
    destruct (scan_at _ _ _ _ _ B5 (ta_robj cf l') O st4 (S n) A4 ltac:(lia)) as (tk5 & st5 & Sc5 & To5). apply tok_on_AT in To5. destruct To5 as [-> A5].
    exists st5. split; [|assumption]. cbn [k_obj]. rewrite Sc, G, Sc3, E, Sc5, copy_eq, drop_eq. cbn [levels]. pairs.
  - (* key : value , ... *)
    intros l l1 key l2 l3 l4 v l5 l7 ms l' c c1 c2 d k c3 d2 k2 B Sl B2 B4 Ph IH B5 Fi IH2 O. destruct (strlit_start cf _ _ _ _ _ Sl) as (l6 & -> & Ll).
    pose proof (blank_len _ _ (blanks_blank _ _ _ B)) as Bl. pose proof (blank_len _ _ (blanks_blank _ _ _ B2)) as Bl2.
    pose proof (blank_len _ _ (blanks_blank _ _ _ B4)) as Bl4. pose proof (blank_len _ _ (blanks_blank _ _ _ B5)) as Bl5. cbn [length] in *.
    destruct (IH2 O) as (L7 & Lv2 & P2). assert (O7 : ok t l7) by (eapply ok_mono; [exact O|lia]).
    assert (O5 : ok t l5) by (eapply ok_blank; [eapply blanks_blank; exact B5|apply ok_cons]).
    destruct (IH O5) as (Lp & Lv & _). assert (O3 : ok t l3) by (eapply ok_mono; [exact O5|lia]).
    assert (O2 : ok t l2) by (eapply ok_blank; [eapply blanks_blank; exact B2|apply ok_cons]).
    split; [lia|]. split; [constructor; [unfold deepest; cbn [list_max fold_right snd]; lia|]|].
    { eapply (Forall_le _ (fun kv : str * value => levels (snd kv))); [|exact Lv2]. unfold deepest; cbn [list_max fold_right]; lia. }
    intros st n m A L. destruct n as [|n]; [lia|].
    destruct (scan_at _ _ _ _ _ B (ta_str cf l6) (ok_cons _ _ _) st (S n) A ltac:(lia)) as (tk & st1 & Sc & To). apply tok_on_AT in To. destruct To as [-> A1].
    destruct (string_at _ _ _ _ (S n) Sl O2 A1 ltac:(lia)) as (st2 & G & A2).
    destruct (scan_at _ _ _ _ _ B2 (ta_colon cf l3) O3 st2 (S n) A2 ltac:(lia)) as (tk3 & st3 & Sc3 & To3). apply tok_on_AT in To3. destruct To3 as [-> A3].
    destruct (parse_full _ _ _ _ _ IH O5 _ _ B4 st3 n VNull A3 ltac:(lia)) as (st4 & E & A4).
    destruct (scan_at _ _ _ _ _ B5 (ta_comma cf l7) O7 st4 (S n) A4 ltac:(lia)) as (tk5 & st5 & Sc5 & To5). apply tok_on_AT in To5. destruct To5 as [-> A5].
    destruct (P2 st5 n (obj_emplace key v m) A5 ltac:(lia)) as (st6 & E6 & A6).
    exists st6. split; [|assumption]. cbn [k_obj]. rewrite Sc, G, Sc3, E, Sc5, E6, copy_eq, drop_eq. cbn [levels].
    change (emplace_all ((key, v) :: ms) m) with (emplace_all ms (obj_emplace key v m)). pairs.
Qed.

Lemma takes_body : forall y l v rest d k, takes cf y l v rest d k -> ok t rest -> forall st n, at_ cf st l t -> 2 * length l + 1 <= n ->
  k_body cf n y st = ((v, Ret tt), (d, k)).
Proof.
  intros y l v rest d k T O st n A L. destruct T as [l l1 v l2 rest c d k c2 B Ph B2 R].
  assert (O2 : ok t l2) by (eapply ok_blank; [eapply blanks_blank; exact B2|exact O]).
  pose proof (exact_all _ _ _ _ _ Ph) as X. destruct (X O2) as (Ll & _).
  pose proof (blank_len _ _ (blanks_blank _ _ _ B)) as Bl.
  destruct (parse_full _ _ _ _ _ X O2 _ _ B st n y A L) as (st1 & E & A1). unfold k_body. rewrite E.
  assert (Tk : tok_at cf rest (AT Teoi) rest) by (destruct R as [->|[l3 ->]]; constructor).
  destruct (scan_at _ _ _ _ _ B2 Tk O st1 n A1 ltac:(lia)) as (tk & st2 & Sc & To). apply tok_on_AT in To. destruct To as [-> _].
  rewrite Sc. pairs.
Qed.
End Exact.
