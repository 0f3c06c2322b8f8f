(** Bounds on the cost of parsing, for every text and every outcome. *)
From Coq Require Import Lia ZifyBool ZifyNat ZifyN Floats.SpecFloat.
From Verif Require Import Base Stream Encoding Value ValueOps Token Message Parser EncodingProofs Feeds ListMachine Simulation SimParse
  SpecUnicode SpecGrammar GrammarLex GrammarTok GrammarProofs ObjFacts DumpText Cost SpecCost CostProofs CostCompare CostParse.
Open Scope nat_scope.

Section Bound.
Variables (cf : pcfg) (t : term).

Lemma read_le : forall st l st', at_ cf st l t -> read_next cf st = Ret st' -> at_ cf st' (tl l) t.
Proof.
  intros st l st' A E. pose proof (read_sim cf st l t A) as R. rewrite E in R.
  destruct (guard t (tl l) (Ret tt)); cbn in R; try contradiction. apply R.
Qed.
Lemma skip_le : forall n l st fuel, length l <= n -> at_ cf st l t -> length l < fuel ->
  fst (snd (k_skip cf fuel st)) <= length l /\ snd (snd (k_skip cf fuel st)) = 0.
Proof.
  induction n as [n IH] using lt_wf_ind. intros l st fuel Hn A L. destruct fuel as [|f]; [lia|]. cbn [k_skip].
  pose proof (skip_ws_sim cf t l st (S f) A L) as W.
  destruct (skip_ws cf (S f) st) as [st1| | | |]; try (split; [apply Nat.le_0_l|reflexivity]).
  destruct (drop_ws t l) as [l1| | | |] eqn:D; cbn in W; try contradiction. destruct W as [A1 _]. apply drop_ws_len in D.
  rewrite (at_cur _ _ _ _ A1). destruct (hd0 l1 =? c_slash)%N eqn:Es; [|split; [apply Nat.le_0_l|reflexivity]].
  destruct l1 as [|c1 l1]; [discriminate Es|]. cbn [length] in D.
  destruct (read_next cf st1) as [st2| | | |] eqn:R; cbn [called fst snd free]; try (split; [lia|reflexivity]).
  pose proof (read_le _ _ _ A1 R) as A2. cbn [tl] in A2. rewrite (at_cur _ _ _ _ A2).
  destruct (hd0 l1 =? c_slash)%N eqn:E1.
  - assert (Ne : l1 <> []) by (intros ->; discriminate E1). pose proof (line_sim cf t l1 st2 (S f) A2 Ne ltac:(lia)) as Li.
    destruct (line_comment cf (S f) st2) as [[b st3]| | | |]; cbn [called fst snd free]; try (split; [lia|reflexivity]).
    destruct b; cbn [called fst snd free]; [|split; [lia|reflexivity]]. destruct Li as (l2 & A3 & _ & L2 & _). cbn [fst snd] in *.
    specialize (IH (length l2) ltac:(lia) l2 st3 f ltac:(lia) A3 ltac:(lia)). destruct (k_skip cf f st3) as [r k]. cbn [fst snd called] in *. lia.
  - destruct (hd0 l1 =? c_star)%N eqn:E2; cbn [called fst snd free]; [|split; [lia|reflexivity]].
    assert (Ne : l1 <> []) by (intros ->; discriminate E2). pose proof (block_sim cf t (length l1) l1 st2 (S f) ltac:(lia) A2 Ne ltac:(lia)) as Bl.
    destruct (block_comment cf (S f) st2) as [st3| | | |]; cbn [called fst snd free]; try (split; [lia|reflexivity]).
    destruct Bl as (l2 & A3 & _ & L2 & _).
    specialize (IH (length l2) ltac:(lia) l2 st3 f ltac:(lia) A3 ltac:(lia)). destruct (k_skip cf f st3) as [r k]. cbn [fst snd called] in *. lia.
Qed.

Lemma scan_le : forall l st n, at_ cf st l t -> length l < n ->
  exists r d, k_scan cf n st = (r, (d, 0)) /\ d <= length l /\
  match r with
  | Ret (tk, st1) => exists k lk, tok_on cf t (tk, st1) (k, lk) /\ length lk <= length l /\ (eats k = true -> length lk < length l) /\
                     (tk = Tstring -> 1 <= length l)
  | _ => True
  end.
Proof.
  intros l st n A L. pose proof (skip_le (length l) l st n (le_n _) A L) as [D C].
  pose proof (scan_sim cf t l st n A L) as S. rewrite <- scan_same in S.
  assert (E : snd (k_scan cf n st) = snd (k_skip cf n st)) by (unfold k_scan; destruct (k_skip cf n st) as [[] ?]; reflexivity).
  destruct (k_scan cf n st) as [r k]. destruct (k_skip cf n st) as [r0 [d c]]. cbn [fst snd] in *. subst k c. exists r, d.
  split; [reflexivity|]. split; [assumption|]. destruct r as [[tk st1]| | | |]; try exact Logic.I.
  destruct (a_scan cf t l) as [[k lk]| | | |] eqn:Sc; cbn in S; try contradiction. exists k, lk. split; [exact S|].
  pose proof Sc as Sc'. apply a_scan_len in Sc'. split; [apply Sc'|]. split; [apply Sc'|].
  intros ->. destruct l; [|cbn [length]; lia]. cbn in Sc. injection Sc as <- <-. destruct S as [_ [S _]]. discriminate S.
Qed.

Lemma string_le : forall l st n s r, at_ cf st l t -> length l <= n -> n <> 0 -> get_string cf n st = (s, r) ->
  match r with Ret st' => exists l', at_ cf st' l' t /\ length l' + 2 <= length l | _ => True end.
Proof.
  intros l st n s r A L N E. destruct (get_string_sim cf t n l st A L N) as [_ S]. rewrite E in S. cbn [snd] in S.
  destruct r as [st'| | | |]; try exact Logic.I. destruct (a_get_string cf t n l) as [s' r'] eqn:G. cbn [snd] in S.
  destruct r' as [l'| | | |]; cbn in S; try contradiction. exists l'. split; [assumption|]. eapply a_get_string_len; eassumption.
Qed.

(** at most one entry more *)
Lemma emplace_nodes : forall key v m, lsum nodes2 (obj_emplace key v m) <= nodes v + lsum nodes2 m.
Proof.
  intros key v m. induction m as [|[k x] m IH]; cbn [obj_emplace]; [cbn; lia|].
  destruct (str_ltb key k); [cbn [map list_sum fold_right snd]; lia|].
  destruct (str_eqb key k); cbn [map list_sum fold_right snd] in *; fold (lsum nodes2 m) in *; [lia|].
  fold (lsum nodes2 (obj_emplace key v m)) in *. lia.
Qed.
Notation levels2 := (fun kv : str * value => levels (snd kv)).
Lemma emplace_levels : forall key v m, lmax levels2 (obj_emplace key v m) <= Nat.max (levels v) (lmax levels2 m).
Proof.
  intros key v m. induction m as [|[k x] m IH]; cbn [obj_emplace]; [cbn; lia|].
  destruct (str_ltb key k); [cbn [map list_max fold_right snd]; lia|].
  destruct (str_eqb key k); cbn [map list_max fold_right snd] in *; fold (lmax levels2 m) in *; [lia|].
  fold (lmax levels2 (obj_emplace key v m)) in *. lia.
Qed.
Lemma lsum_app : forall A (f : A -> nat) l l', lsum f (l ++ l') = lsum f l + lsum f l'.
Proof. intros. rewrite map_app, list_sum_app. reflexivity. Qed.
Lemma lmax_app : forall A (f : A -> nat) l l', lmax f (l ++ l') = Nat.max (lmax f l) (lmax f l').
Proof. intros. rewrite map_app, list_max_app. reflexivity. Qed.

(** copies made when [l] was there and [l'] is left *)
Definition paid (c : nat) (l l' : list N) : Prop := c <= length l * (length l - length l').

Definition b_parse n := forall y tk st l, at_ cf st l t ->
  match tk with None => 2 * length l + 1 <= n | Some Tstring => length l + 1 <= n | Some _ => 2 * length l + 3 <= n end ->
  match k_parse cf n y tk st with
  | ((v, r), (d, c)) =>
      d <= S (Nat.max (levels y) (match tk with Some Tstring => 0 | _ => length l end)) /\
      levels v <= Nat.max d (levels y) /\ c <= length l * length l /\
      match r with
      | Ret st' => exists l', at_ cf st' l' t /\ length l' <= length l /\ paid c l l' /\
                   nodes v + length l' <= match tk with None | Some Tstring => length l | _ => S (length l) end
      | _ => True
      end
  end.
Definition b_arr n := forall acc st l, at_ cf st l t -> 2 * length l + 2 <= n ->
  match k_arr cf n acc st with
  | ((vs, r), (d, c)) =>
      d <= length l /\ lmax levels vs <= Nat.max d (lmax levels acc) /\ c <= length l * length l /\
      match r with
      | Ret (_, st') => exists l', at_ cf st' l' t /\ length l' <= length l /\ paid c l l' /\ lsum nodes vs + length l' <= lsum nodes acc + length l
      | _ => True
      end
  end.
Definition b_obj n := forall acc st l, at_ cf st l t -> 2 * length l + 2 <= n ->
  match k_obj cf n acc st with
  | ((m, r), (d, c)) =>
      d <= length l /\ lmax levels2 m <= Nat.max d (lmax levels2 acc) /\ c <= length l * length l /\
      match r with
      | Ret (_, st') => exists l', at_ cf st' l' t /\ length l' <= length l /\ paid c l l' /\ lsum nodes2 m + length l' <= lsum nodes2 acc + length l
      | _ => True
      end
  end.

Lemma paid_0 : forall l l', paid 0 l l'. Proof. unfold paid. lia. Qed.
Lemma paid_mono : forall c l l0 l1 l', paid c l0 l1 -> length l0 <= length l -> length l1 <= length l0 -> length l' <= length l1 -> paid c l l'.
Proof. unfold paid. intros. nia. Qed.
Lemma paid_add : forall a b l l1 l', paid a l l1 -> paid b l1 l' -> length l1 <= length l -> length l' <= length l1 -> paid (a + b) l l'.
Proof. unfold paid. intros. nia. Qed.

(** a call with its token scanned *)
Lemma some_body : forall n y tk st l, b_arr n -> b_obj n -> at_ cf st l t ->
  match tk with Tstring => length l + 1 <= S n | Tbegin_arr | Tbegin_obj => 2 * length l + 2 <= n | _ => True end ->
  match k_parse cf (S n) y (Some tk) st with
  | ((v, r), (d, c)) =>
      d <= S (Nat.max (levels y) (match tk with Tbegin_arr | Tbegin_obj => length l | _ => 0 end)) /\
      levels v <= Nat.max d (levels y) /\ c <= length l * length l /\
      match r with
      | Ret st' => exists l', at_ cf st' l' t /\ length l' <= length l /\ paid c l l' /\
                   nodes v + length l' <= match tk with Tstring => length l | _ => S (length l) end
      | _ => True
      end
  end.
Proof.
  intros n y tk st l IHa IHo A L. cbn [k_parse]. rewrite drop_eq. unfold both, called, free. cbn [fst snd Nat.max Nat.add].
  destruct tk; cbn [fst snd levels nodes]; try (repeat split; try lia; exact Logic.I);
    try (split; [lia|]; split; [lia|]; split; [lia|]; exists l; repeat split; try assumption; try lia; apply paid_0).
  - destruct (get_string cf (S n) st) as [s r] eqn:G. pose proof (string_le l st (S n) s r A ltac:(lia) ltac:(lia) G) as St.
    cbn [levels nodes]. split; [lia|]. split; [lia|]. split; [lia|]. destruct r; try exact Logic.I.
    destruct St as (l' & A' & L'). exists l'. repeat split; try assumption; try lia. apply paid_0.
  - destruct (get_integer st); cbn [levels nodes]; (split; [lia|]; split; [lia|]; split; [lia|]); try exact Logic.I.
    exists l; repeat split; try assumption; try lia; apply paid_0.
  - specialize (IHa [] st l A L). destruct (k_arr cf n [] st) as [[vs r] [d c]]. cbn [fst snd levels nodes] in *.
    destruct IHa as (D & Lv & C & R). change (lmax levels []) with 0 in Lv. split; [lia|]. split; [lia|]. split; [lia|].
    destruct r as [[tk st']| | | |]; try exact Logic.I. destruct R as (l' & A' & L' & P & Nd). change (lsum nodes []) with 0 in Nd.
    destruct tk; try exact Logic.I. exists l'. repeat split; try assumption. lia.
  - specialize (IHo [] st l A L). destruct (k_obj cf n [] st) as [[vs r] [d c]]. cbn [fst snd levels nodes] in *.
    destruct IHo as (D & Lv & C & R). change (lmax levels2 []) with 0 in Lv. split; [lia|]. split; [lia|]. split; [lia|].
    destruct r as [[tk st']| | | |]; try exact Logic.I. destruct R as (l' & A' & L' & P & Nd). change (lsum nodes2 []) with 0 in Nd.
    destruct tk; try exact Logic.I. exists l'. repeat split; try assumption. lia.
Qed.

Lemma tok_eats : forall tk st k lk, tok_on cf t (tk, st) (k, lk) -> eats k = true \/ tk = Tstring \/ tk = Teoi.
Proof. intros tk st k lk [_ T]. cbn [fst snd] in T. destruct k as [k| |]; try (left; reflexivity). destruct T as [-> _]. destruct k; auto. Qed.
Lemma pay_member : forall a b x c m, c <= a * x -> m <= x -> S a <= b -> c + m <= b * x.
Proof. intros. nia. Qed.
Lemma pay_sq : forall b x c, c <= b * x -> x <= b -> c <= b * b.
Proof. intros. nia. Qed.
Lemma pay_more : forall b x z c, c <= b * x -> x <= z -> c <= b * z.
Proof. intros. nia. Qed.
Lemma pay_both : forall b x y c c', c <= b * x -> c' <= y * y -> x + y <= b -> c + c' <= b * b.
Proof. intros. nia. Qed.
Lemma pay_all : forall b x y z w c c', c <= b * x -> c' <= y * z -> y <= b -> x + z <= w -> c + c' <= b * w.
Proof. intros. nia. Qed.
Lemma sq_le : forall a b c, c <= a * a -> a <= b -> c <= b * b.
Proof. intros. nia. Qed.

Lemma bound_all : forall n, b_parse n /\ b_arr n /\ b_obj n.
Proof.
  induction n as [|n (IHp & IHa & IHo)].
  { split; [|split]; [intros y [[]|] st l A L|intros acc st l A L|intros acc st l A L]; lia. }
  split; [|split].
  - intros y tk st l A L. destruct tk as [tk|].
    + pose proof (some_body n y tk st l IHa IHo A) as B. destruct (k_parse cf (S n) y (Some tk) st) as [[v r] [d c]].
      destruct tk; try specialize (B Logic.I); try specialize (B ltac:(lia)); destruct B as (D & Lv & C & R); (split; [lia|]); (split; [exact Lv|]); (split; [exact C|]); exact R.
    + destruct (scan_le l st (S n) A ltac:(lia)) as (r & ds & Sc & Ds & R).
      destruct r as [[tk st1]| | | |]; try (cbn [k_parse]; rewrite Sc; unfold called; cbn [fst snd stop]; repeat split; try lia; exact Logic.I).
      destruct R as (k & lk & To & Lk & Le & Ls). rewrite (parse_none cf n y st tk st1 ds Sc).
      pose proof (tok_eats _ _ _ _ To) as [Ea|[->| ->]].
      * specialize (Le Ea). pose proof (some_body n y tk st1 lk IHa IHo (proj1 To)) as B.
        destruct (k_parse cf (S n) y (Some tk) st1) as [[v r] [d c]]. unfold both. cbn [fst snd Nat.add].
        assert (D' : d <= S (Nat.max (levels y) (length lk)) /\ levels v <= Nat.max d (levels y) /\ c <= length lk * length lk /\
          match r with Ret st' => exists l', at_ cf st' l' t /\ length l' <= length lk /\ paid c lk l' /\ nodes v + length l' <= S (length lk) | _ => True end).
        { destruct tk; try specialize (B Logic.I); try specialize (B ltac:(lia)); destruct B as (D & Lv & C & R); (split; [lia|]); (split; [exact Lv|]); (split; [exact C|]); try exact R.
          destruct r; try exact Logic.I. destruct R as (l' & A' & L' & P & Nd). exists l'. repeat split; try assumption. lia. }
        destruct D' as (D & Lv & C & R). split; [lia|]. split; [lia|]. split; [eapply sq_le; [exact C|lia]|]. destruct r; try exact Logic.I.
        destruct R as (l' & A' & L' & P & Nd). exists l'. repeat split; try assumption; try lia. eapply paid_mono; [exact P| | |]; lia.
      * pose proof (some_body n y Tstring st1 lk IHa IHo (proj1 To) ltac:(cbv match; lia)) as B.
        destruct (k_parse cf (S n) y (Some Tstring) st1) as [[v r] [d c]]. unfold both. cbn [fst snd Nat.add].
        destruct B as (D & Lv & C & R). split; [lia|]. split; [lia|]. split; [eapply sq_le; [exact C|lia]|]. destruct r; try exact Logic.I.
        destruct R as (l' & A' & L' & P & Nd). exists l'. repeat split; try assumption; try lia. eapply paid_mono; [exact P| | |]; lia.
      * cbn [k_parse]. unfold both, called, free. cbn [fst snd Nat.add]. repeat split; try lia.
  - intros acc st l A L. cbn [k_arr]. destruct (scan_le l st (S n) A ltac:(lia)) as (r & ds & Sc & Ds & R). rewrite Sc.
    destruct r as [[tk st1]| | | |]; try (repeat split; try lia; exact Logic.I). destruct R as (k & lk & To & Lk & Le & Ls).
    destruct (starts_value tk) eqn:Sv; [|split; [lia|]; split; [lia|]; split; [lia|]; exists lk; split; [exact (proj1 To)|]; split; [lia|]; split; [apply paid_0|lia]].
    assert (Pr : match k_parse cf n VNull (Some tk) st1 with
      | ((v, r), (d, c)) => d <= length l /\ levels v <= d /\ c <= length lk * length lk /\
         match r with Ret st' => exists l', at_ cf st' l' t /\ length l' <= length lk /\ paid c lk l' /\ nodes v + length l' <= length l | _ => True end end).
    { specialize (IHp VNull (Some tk) st1 lk (proj1 To)). destruct (k_parse cf n VNull (Some tk) st1) as [[v r] [d c]]. cbn [levels] in IHp.
      pose proof (tok_eats _ _ _ _ To) as [Ea|[->| ->]]; [|..|discriminate Sv].
      - specialize (Le Ea). assert (B : d <= length l /\ levels v <= Nat.max d 0 /\ c <= length lk * length lk /\
          match r with Ret st' => exists l', at_ cf st' l' t /\ length l' <= length lk /\ paid c lk l' /\ nodes v + length l' <= S (length lk) | _ => True end).
        { destruct tk; specialize (IHp ltac:(lia)); destruct IHp as (D & Lv & C & R); (split; [lia|]); (split; [exact Lv|]); (split; [exact C|]); try exact R.
          destruct r; try exact Logic.I. destruct R as (l' & A' & L' & P & Nd). exists l'. repeat split; try assumption. lia. }
        destruct B as (D & Lv & C & R). split; [lia|]. split; [lia|]. split; [exact C|]. destruct r; try exact Logic.I.
        destruct R as (l' & A' & L' & P & Nd). exists l'. repeat split; try assumption. lia.
      - specialize (IHp ltac:(lia)). specialize (Ls eq_refl). destruct IHp as (D & Lv & C & R). split; [lia|]. split; [lia|]. split; [exact C|]. destruct r; try exact Logic.I.
        destruct R as (l' & A' & L' & P & Nd). exists l'. repeat split; try assumption. lia. }
    destruct (k_parse cf n VNull (Some tk) st1) as [[v r] [d c]]. destruct Pr as (D & Lv & C & R).
    assert (V1 : lmax levels [v] = levels v) by (cbn; lia). assert (V2 : lsum nodes [v] = nodes v) by (cbn; lia).
    destruct r as [st2| | | |]; try (unfold both; cbn [fst snd Nat.add]; rewrite lmax_app, V1; split; [lia|]; split; [lia|]; split; [eapply sq_le; [exact C|lia]|exact Logic.I]).
    destruct R as (l2 & A2 & L2 & P2 & Nd2). destruct (scan_le l2 st2 (S n) A2 ltac:(lia)) as (r & ds2 & Sc2 & Ds2 & R). rewrite Sc2.
    destruct r as [[tk3 st3]| | | |]; try (unfold both; cbn [fst snd Nat.add]; rewrite ?Nat.add_0_r, lmax_app, V1; split; [lia|]; split; [lia|]; split; [eapply sq_le; [exact C|lia]|exact Logic.I]).
    destruct R as (k3 & l3 & To3 & L3 & Le3 & _).
    assert (Other : match ((acc ++ [v], Ret (tk3, st3)), both (ds, 0) (both (d, c) (ds2, 0))) with
      | ((vs, r), (d, c)) => d <= length l /\ lmax levels vs <= Nat.max d (lmax levels acc) /\ c <= length l * length l /\
        match r : outcome (token * pst) with
        | Ret (_, st') => exists l', at_ cf st' l' t /\ length l' <= length l /\ paid c l l' /\ lsum nodes vs + length l' <= lsum nodes acc + length l
        | _ => True end end).
    { unfold both; cbn [fst snd Nat.add]; rewrite ?Nat.add_0_r, lmax_app, V1. split; [lia|]; split; [lia|]; split; [eapply sq_le; [exact C|lia]|].
      exists l3. split; [exact (proj1 To3)|]. split; [lia|]. split; [eapply paid_mono; [exact P2|lia..]|]. rewrite lsum_app, V2. lia. }
    destruct tk3; try exact Other. clear Other.
    assert (Ek3 : length l3 < length l2) by (apply Le3; destruct To3 as [_ To3]; cbn [fst snd] in To3; destruct k3; [destruct To3 as [<- _]; reflexivity|reflexivity..]).
    specialize (IHa (acc ++ [v]) st3 l3 (proj1 To3) ltac:(lia)). destruct (k_arr cf n (acc ++ [v]) st3) as [[vs r] [d4 c4]].
    destruct IHa as (D4 & Lv4 & C4 & R4). unfold both; cbn [fst snd Nat.add]. rewrite lmax_app, V1 in Lv4. split; [lia|]. split; [lia|].
    split; [unfold paid in P2; nia|]. destruct r as [[tk4 st4]| | | |]; try exact Logic.I. destruct R4 as (l4 & A4 & L4 & P4 & Nd4).
    exists l4. split; [exact A4|]. split; [lia|]. split; [|rewrite lsum_app, V2 in Nd4; lia].
    apply (paid_mono _ _ lk l4); [|lia..]. eapply (paid_add _ _ _ l2); [exact P2| |lia..]. eapply paid_mono; [exact P4|lia..].
  - intros acc st l A L. cbn [k_obj]. destruct (scan_le l st (S n) A ltac:(lia)) as (r & ds & Sc & Ds & R). rewrite Sc.
    destruct r as [[tk st1]| | | |]; try (repeat split; try lia; exact Logic.I). destruct R as (k & lk & To & Lk & Le & Ls).
    assert (Other : match ((acc, Ret (tk, st1)), (ds, 0)) with
      | ((m, r), (d, c)) => d <= length l /\ lmax levels2 m <= Nat.max d (lmax levels2 acc) /\ c <= length l * length l /\
        match r : outcome (token * pst) with
        | Ret (_, st') => exists l', at_ cf st' l' t /\ length l' <= length l /\ paid c l l' /\ lsum nodes2 m + length l' <= lsum nodes2 acc + length l
        | _ => True end end).
    { split; [lia|]; split; [lia|]; split; [lia|]; exists lk; split; [exact (proj1 To)|]; split; [lia|]; split; [apply paid_0|lia]. }
    destruct tk; try exact Other. clear Other.
    destruct (get_string cf (S n) st1) as [key r] eqn:G. pose proof (string_le lk st1 (S n) key r (proj1 To) ltac:(lia) ltac:(lia) G) as St.
    destruct r as [st2| | | |]; try (repeat split; try lia; exact Logic.I). destruct St as (l2 & A2 & L2).
    destruct (scan_le l2 st2 (S n) A2 ltac:(lia)) as (r & ds2 & Sc2 & Ds2 & R). rewrite Sc2.
    destruct r as [[tk3 st3]| | | |]; try (unfold both; cbn [fst snd Nat.add]; repeat split; try lia; exact Logic.I). destruct R as (k3 & l3 & To3 & L3 & Le3 & _).
    assert (Other : match ((acc, Ret (tk3, st3)), both (ds, 0) (ds2, 0)) with
      | ((m, r), (d, c)) => d <= length l /\ lmax levels2 m <= Nat.max d (lmax levels2 acc) /\ c <= length l * length l /\
        match r : outcome (token * pst) with
        | Ret (_, st') => exists l', at_ cf st' l' t /\ length l' <= length l /\ paid c l l' /\ lsum nodes2 m + length l' <= lsum nodes2 acc + length l
        | _ => True end end).
    { unfold both; cbn [fst snd Nat.add]. split; [lia|]; split; [lia|]; split; [lia|]; exists l3; split; [exact (proj1 To3)|]; split; [lia|]; split; [apply paid_0|lia]. }
    destruct tk3; try exact Other. clear Other.
    assert (Ek3 : length l3 < length l2) by (apply Le3; destruct To3 as [_ To3]; cbn [fst snd] in To3; destruct k3; [destruct To3 as [<- _]; reflexivity|reflexivity..]).
    specialize (IHp VNull None st3 l3 (proj1 To3) ltac:(cbv match; lia)). destruct (k_parse cf n VNull None st3) as [[v r] [d c]]. cbn [levels] in IHp.
    destruct IHp as (D & Lv & C & R). rewrite copy_eq, drop_eq.
    destruct r as [st4| | | |]; try (unfold both; cbn [fst snd Nat.add]; rewrite ?Nat.add_0_r; split; [lia|]; split; [lia|]; split; [eapply sq_le; [exact C|lia]|exact Logic.I]).
    destruct R as (l4 & A4 & L4 & P4 & Nd4). destruct (scan_le l4 st4 (S n) A4 ltac:(lia)) as (r & ds5 & Sc5 & Ds5 & R). rewrite Sc5.
    assert (Nd' : nodes v + length l4 <= length l3) by exact Nd4. clear Nd4.
    assert (Pv : c + nodes v <= length l * (length l3 - length l4)) by (unfold paid in P4; apply (pay_member (length l3)); [exact P4|lia|lia]).
    pose proof (emplace_nodes key v acc) as En. pose proof (emplace_levels key v acc) as El.
    destruct r as [[tk5 st5]| | | |]; try (unfold both; cbn [fst snd Nat.add]; rewrite ?Nat.add_0_r; split; [lia|]; split; [lia|]; split; [eapply pay_sq; [exact Pv|lia]|exact Logic.I]).
    destruct R as (k5 & l5 & To5 & L5 & Le5 & _).
    assert (Other : match ((obj_emplace key v acc, Ret (tk5, st5)), both (both (both (ds, 0) (both (ds2, 0) (d, c))) (both (levels v, nodes v) (levels v, 0))) (ds5, 0)) with
      | ((m, r), (d, c)) => d <= length l /\ lmax levels2 m <= Nat.max d (lmax levels2 acc) /\ c <= length l * length l /\
        match r : outcome (token * pst) with
        | Ret (_, st') => exists l', at_ cf st' l' t /\ length l' <= length l /\ paid c l l' /\ lsum nodes2 m + length l' <= lsum nodes2 acc + length l
        | _ => True end end).
    { unfold both; cbn [fst snd Nat.add]; rewrite ?Nat.add_0_r. split; [lia|]; split; [lia|]; split; [eapply pay_sq; [exact Pv|lia]|].
      exists l5. split; [exact (proj1 To5)|]. split; [lia|]. split; [unfold paid; eapply pay_more; [exact Pv|lia]|]. lia. }
    destruct tk5; try exact Other. clear Other.
    assert (Ek5 : length l5 < length l4) by (apply Le5; destruct To5 as [_ To5]; cbn [fst snd] in To5; destruct k5; [destruct To5 as [<- _]; reflexivity|reflexivity..]).
    specialize (IHo (obj_emplace key v acc) st5 l5 (proj1 To5) ltac:(lia)). destruct (k_obj cf n (obj_emplace key v acc) st5) as [[m r] [d6 c6]].
    destruct IHo as (D6 & Lv6 & C6 & R6). unfold both; cbn [fst snd Nat.add]; rewrite ?Nat.add_0_r. split; [lia|]. split; [lia|].
    split; [eapply pay_both; [exact Pv|exact C6|lia..]|]. destruct r as [[tk6 st6]| | | |]; try exact Logic.I. destruct R6 as (l6 & A6 & L6 & P6 & Nd6).
    exists l6. split; [exact A6|]. split; [lia|]. split; [unfold paid in *; eapply pay_all; [exact Pv|exact P6|lia..]|lia].
Qed.
End Bound.
