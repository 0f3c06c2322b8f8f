(** Parsing into memory: the calls a program makes. *)
From Coq Require Import Lia Permutation Arith.
From Verif Require Import Base Stream Encoding Value Token ValueOps ObjFacts ValueProofs Serializer Target TargetProofs Parser Heap SpecHeap HeapGhost HeapPaths HeapOps HeapProofs Alloc SpecAlloc AllocRules AllocProofs AllocMain SpecGrammar ParseHeap SpecParseHeap SpecContainer Container ContainerProofs SpecParseDoc ParseHeapText ParseHeapProofs ParseDoc.
Open Scope nat_scope.

Definition bpost (G : forest) (L : list gt) (a : place) (n : nat) (pl : plan) (c v : value) (d : doc) (r : outcome unit) (s' : hstate) (pl' : plan) (r' : outcome unit) : Prop :=
  ends_as r' r /\ (granted pl pl' -> r' = r) /\
  (comes_back r' -> exists v' K, put G (map raw K ++ L) a v' s' /\ length K <= n /\ (K = [] \/ r' = Throw EAlloc) /\
     (granted pl pl' -> v' = v /\ K = []) /\ (v' = c \/ cut_to v' d) /\ (returns r' -> short_to v' d /\ means d v)).

Lemma body_ok : forall cf n s pl G L a la x st, rep s G L -> fwalk G a = Some (la, x) ->
  let '(v, r) := parse_body cf n (val_of x) st in goes (mparse_body cf n la st) s pl (bpost G L a n pl (val_of x) v (rdoc cf n None st) r).
Proof.
  intros cf n s pl G L a la x st H W. unfold parse_body, mparse_body.
  pose proof (proj1 (parser_ok cf n) s pl G L a la x None st H W) as X. destruct (do_parse cf n (val_of x) None st) as [v r] eqn:DP.
  eapply goes_seq; [exact X| |].
  - intros s1 pl1 st1 S1 (E1 & P1 & B1). apply ends_ret in E1. subst r. cbn [bind]. destruct (B1 Logic.I) as (v' & K & Pu & LK & KK & GG & CC & SS).
    destruct KK as [->|KK]; [|discriminate]. destruct (SS Logic.I) as [SH _]. pose proof (rdoc_ret _ _ _ _ _ _ _ DP) as MV.
    assert (FIN : forall r r' pl2, spent pl1 pl2 -> ends_as r' r -> (granted pl1 pl2 -> r' = r) -> bpost G L a n pl (val_of x) v (rdoc cf n None st) r s1 pl2 r').
    { intros r r' pl2 S2 E2 P2. split; [exact E2|].
      assert (YY : granted pl pl2 -> granted pl pl1 /\ granted pl1 pl2) by (apply granted_split; assumption).
      split; [intro Y; apply P2, YY; exact Y|]. intros _. exists v', []. split; [exact Pu|]. split; [cbn; lia|]. split; [auto|].
      split; [intro Y; apply GG, YY; exact Y|]. auto. }
    destruct (scan cf n st1) as [[t st2]|e| | |].
    2-5: (apply goes_tell_end; [intros []|]; intros pl2 r2 S2 E2 P2 R2; apply FIN; assumption).
    apply goes_told. cbn [bind fst].
    destruct t; try (apply goes_tell; intros pl2 r2 S2 E2 P2 R2; apply FIN; assumption).
    apply goes_ret. apply FIN; [apply spent_refl|apply ends_refl|auto].
  - intros s1 pl1 r' S1 (E1 & P1 & B1) N. split; [|split].
    + apply ends_any with (r := r); [exact E1|exact N|]. intros r3 -> N3. destruct r3 as [?|e| | |]; try reflexivity. destruct (N3 Logic.I).
    + intro Y. rewrite <- (P1 Y). destruct r' as [?|e| | |]; try reflexivity. destruct (N Logic.I).
    + intro C. destruct (B1 (stop_back _ _ _ N C)) as (v' & K & Pu & LK & KK & GG & CC & SS). exists v', K.
      split; [exact Pu|]. split; [exact LK|]. split; [apply back_alloc; exact KK|]. split; [exact GG|]. split; [exact CC|].
      intro R. destruct (stop_returns _ _ _ R).
Qed.

(** with a handler *)
Definition hpost (h : handler) (G : forest) (L : list gt) (a : place) (n : nat) (pl : plan) (c v : value) (d : doc) (r : outcome string) (s' : hstate) (pl' : plan) (r' : outcome string) : Prop :=
  ended h r' r /\ (granted pl pl' -> r' = r) /\
  (comes_back r' -> exists v' K, put G (map raw K ++ L) a v' s' /\ length K <= n /\ (h <> HIgnore -> K = [] \/ r' = Throw EAlloc) /\
     (granted pl pl' -> v' = v /\ K = []) /\ (v' = c \/ cut_to v' d) /\ (h <> HIgnore -> r' = Ret ""%string -> short_to v' d /\ means d v)).

Lemma handle_ok : forall h (m : F unit) G L a n c v d r s pl, goes m s pl (bpost G L a n pl c v d r) ->
  goes (mhandle h m) s pl (hpost h G L a n pl c v d (said (handle h r))).
Proof.
  intros h m G L a n c v d r s pl (s1 & pl1 & r1 & E & S1 & (E1 & P1 & B1)). unfold goes, mhandle. rewrite E.
  assert (NOEX : forall r2, (forall e, r1 <> Throw e) -> (forall u, r1 = Ret u -> r2 = Ret ""%string) -> (~ returns r1 -> r2 = stop r1) -> hpost h G L a n pl c v d (said (handle h r)) s1 pl1 r2).
  { intros r2 NT R1 R2. assert (Er : r = r1) by (destruct E1 as [E1|[E1|[c0 E1]]]; [auto|destruct (NT _ E1)|destruct (NT _ E1)]). subst r.
    assert (E2 : r2 = said (handle h r1)).
    { destruct r1 as [u|e| | |]; [rewrite (R1 u eq_refl); reflexivity|destruct (NT e eq_refl)| | |]; rewrite R2 by (intros []); reflexivity. }
    split; [left; exact E2|]. split; [auto|]. intro C. destruct (B1 ltac:(destruct r1 as [u|e| | |]; try exact Logic.I; rewrite R2 in C by (intros []); destruct C)) as (v' & K & Pu & LK & KK & GG & CC & SS).
    exists v', K. split; [exact Pu|]. split; [exact LK|]. split; [destruct KK as [KK|KK]; [auto|destruct (NT _ KK)]|]. split; [exact GG|]. split; [exact CC|].
    intros _ R. apply SS. destruct r1 as [u|e| | |]; try exact Logic.I; rewrite R2 in R by (intros []); discriminate. }
  destruct r1 as [u|e| | |].
  1,3,4,5: (eexists _, _, _; split; [reflexivity|]; split; [exact S1|]; (apply NOEX; [discriminate|discriminate|reflexivity]) || (apply NOEX; [discriminate|reflexivity|intro Z; destruct (Z Logic.I)])).
  - (* an exception *)
    destruct (B1 Logic.I) as (v' & K & Pu & LK & KK & GG & CC & _). clear NOEX B1.
    assert (GEN : forall r2 pl2, spent pl1 pl2 -> ended h r2 (said (handle h r)) -> (granted pl pl2 -> r2 = said (handle h r)) -> (h <> HIgnore -> K = [] \/ r2 = Throw EAlloc) ->
      (h <> HIgnore -> r2 <> Ret ""%string) -> hpost h G L a n pl c v d (said (handle h r)) s1 pl2 r2).
    { intros r2 pl2 S2 E2 P2 K2 N2. split; [exact E2|]. split; [exact P2|]. intros _. exists v', K. split; [exact Pu|]. split; [exact LK|]. split; [exact K2|].
      split; [intro Y; apply GG; apply (granted_split _ _ _ S1 S2 Y)|]. split; [exact CC|]. intros N R. destruct (N2 N R). }
    assert (PASS : h <> HIgnore -> (h = HRecord -> is_configor_exn e = false) -> hpost h G L a n pl c v d (said (handle h r)) s1 pl1 (Throw e)).
    { intros NI NR. assert (Q : said (handle h (Throw e)) = Throw e) by (destruct h; cbn [handle]; try reflexivity; [tauto|rewrite (NR eq_refl); reflexivity]).
      apply GEN; [apply spent_refl| | |intros _; destruct KK as [KK|KK]; [auto|right; congruence]|discriminate].
      - destruct E1 as [E1|[E1|[c0 E1]]]; [left; rewrite <- E1; auto|injection E1 as E1; right; left; rewrite E1; split; [reflexivity|tauto]|right; right; right; exists c0; rewrite <- E1; auto].
      - intro Y. rewrite <- (P1 Y). auto. }
    destruct h.
    + exists s1, pl1, (Throw e). split; [reflexivity|]. split; [exact S1|]. apply PASS; discriminate.
    + exists s1, pl1, (Throw e). split; [reflexivity|]. split; [exact S1|]. apply PASS; discriminate.
    + exists s1, pl1, (Ret ""%string). split; [reflexivity|]. split; [exact S1|]. apply GEN; [apply spent_refl|right; right; left; auto| |tauto|tauto].
      intro Y. rewrite <- (P1 Y). reflexivity.
    + destruct (is_configor_exn e) eqn:Ce; [|exists s1, pl1, (Throw e); split; [reflexivity|]; split; [exact S1|]; apply PASS; [discriminate|auto]].
      assert (K0 : K = []). { destruct KK as [KK|KK]; [exact KK|]. injection KK as ->. discriminate Ce. }
      assert (Q : said (handle HRecord (Throw e)) = Ret (exn_msg e)) by (cbn [handle]; rewrite Ce; reflexivity).
      assert (DONE : forall pl2, spent pl1 pl2 -> hpost HRecord G L a n pl c v d (said (handle HRecord r)) s1 pl2 (Ret (exn_msg e))).
      { intros pl2 S2. apply GEN; [exact S2| | |auto|].
        - destruct E1 as [E1|[E1|[c0 E1]]]; [left; rewrite <- E1; auto|injection E1 as ->; discriminate Ce|right; right; right; exists c0; rewrite <- E1; auto].
        - intro Y. rewrite <- (P1 (proj1 (granted_split _ _ _ S1 S2 Y))). auto.
        - intros _ Z. injection Z as Z. destruct e; discriminate. }
      destruct pl1 as [|[|] pl1].
      * exists s1, [], (Ret (exn_msg e)). split; [reflexivity|]. split; [exact S1|]. apply DONE. apply spent_refl.
      * exists s1, pl1, (Throw EAlloc). assert (R : refused (true :: pl1) pl1) by (exists []; auto). split; [reflexivity|].
        pose proof (refused_spent _ _ R) as S2. split; [eapply spent_trans; eassumption|]. apply GEN; [exact S2|right; left; split; [reflexivity|discriminate]| |auto|discriminate].
        intro Y. destruct (refused_not _ _ R (proj2 (granted_split _ _ _ S1 S2 Y))).
      * exists s1, pl1, (Ret (exn_msg e)). assert (S2 : spent (false :: pl1) pl1) by (exists [false]; reflexivity). split; [reflexivity|].
        split; [eapply spent_trans; eassumption|]. apply DONE. exact S2.
Qed.

Lemma tell_first : forall A B (r : outcome A) (k : A -> F B) s pl (Q : hstate -> plan -> outcome B -> Prop), ~ returns r ->
  (forall pl', spent pl pl' -> Q s pl' (stop r)) ->
  (forall pl' e, refused pl pl' -> r = Throw e -> Q s pl' (Throw EAlloc)) -> goes (fseq (told r) k) s pl Q.
Proof.
  intros A B r k s pl Q N H1 H2.
  destruct r as [x|e| | |]; [destruct (N Logic.I)| | | |].
  2-4: (eexists s, pl, _; split; [reflexivity|]; split; [apply spent_refl|]; apply H1; apply spent_refl).
  destruct pl as [|[|] pl].
  - exists s, [], (Throw e). split; [reflexivity|]. split; [apply spent_refl|]. apply H1. apply spent_refl.
  - exists s, pl, (Throw EAlloc). assert (R : refused (true :: pl) pl) by (exists []; auto). split; [reflexivity|]. split; [apply refused_spent; exact R|]. eapply H2; [exact R|reflexivity].
  - exists s, pl, (Throw e). assert (S2 : spent (false :: pl) pl) by (exists [false]; reflexivity). split; [reflexivity|]. split; [exact S2|]. apply H1. exact S2.
Qed.

Lemma mparse_ok : forall cf h w s pl G L a la x, rep s G L -> fwalk G a = Some (la, x) ->
  let '(v, o) := parse_into cf h (val_of x) w in goes (mparse cf h la w) s pl (hpost h G L a (fuel_for w) pl (val_of x) v (wdoc cf w) (said o)).
Proof.
  intros cf h w s pl G L a la x H W. unfold parse_into, parse_ibuf, mparse. 
  assert (KEEP : forall d r2 r pl', ~ returns r2 -> ended h r2 r -> (granted pl pl' -> r2 = r) -> hpost h G L a (fuel_for w) pl (val_of x) (val_of x) d r s pl' r2).
  { intros d r2 r pl' N E P. split; [exact E|]. split; [exact P|]. intros _. exists (val_of x), []. split; [eapply put_same; eassumption|].
    split; [cbn; lia|]. split; [auto|]. split; [auto|]. split; [auto|]. intros _ Z. rewrite Z in N. destruct (N Logic.I). }
  destruct (read_next cf (init_pst (Stream.IStr w))) as [st|e| | |] eqn:RN.
  2-5: (apply tell_first; [intros []| |]; [intros pl' S'; apply KEEP; [intros []|left; reflexivity|reflexivity]|
        intros pl' e' R Ee; apply KEEP; [intros []|right; left; split; [reflexivity|intros _; rewrite Ee || idtac; try discriminate Ee; eexists; reflexivity]|
          intro Y; destruct (refused_not _ _ R Y)]]).
  pose proof (body_ok cf (fuel_for w) s pl G L a la x st H W) as X. destruct (parse_body cf (fuel_for w) (val_of x) st) as [v r].
  rewrite (wdoc_fuel _ _ _ RN). apply goes_told. apply handle_ok. exact X.
Qed.

Lemma into_ok : forall cf h w d S a y s pl qs, read_as cf w d -> sget S a y -> holds_but s S qs ->
  let '(v, o) := parse_into cf h y w in
  exists s' pl' r', mparse_into cf h a w (s, pl) = ((s', pl'), r') /\ (exists u, pl = u ++ pl') /\ ended h r' (said o) /\ (granted pl pl' -> r' = said o) /\
    (comes_back r' -> exists v' S' ks, sset S a v' S' /\ holds_but s' S' (ks ++ qs) /\ (forall p, In p ks -> bare s' p) /\ length ks <= fuel_for w /\
       (granted pl pl' -> v' = v /\ ks = []) /\ (v' = y \/ cut_to v' d) /\
       (h <> HIgnore -> (ks = [] \/ r' = Throw EAlloc) /\ (r' = Ret ""%string -> short_to v' d /\ means d v))).
Proof.
  intros cf h w d S a y s pl qs Hd Ha H. rewrite <- (read_wdoc _ _ _ Hd). clear d Hd. apply but_rep in H. destruct H as (G & L & H & -> & ->).
  apply sget_walk in Ha. destruct Ha as (la & x & W & <-).
  pose proof (mparse_ok cf h w s pl G L a la x H W) as X. destruct (parse_into cf h (val_of x) w) as [v o].
  destruct X as (s' & pl' & r' & E & Sp & (E1 & P1 & B1)). exists s', pl', r'. unfold mparse_into.
  rewrite (lift_seq _ _ _ _ _ _ _ _ (locate_ok _ _ _ _ _ _ H W)). split; [exact E|]. split; [exact Sp|]. split; [exact E1|]. split; [exact P1|].
  intro C. destruct (B1 C) as (v' & K & (z & Vz & Hz) & LK & KK & GG & CC & SS). exists v', (vals (fput G a z)), K.
  split; [rewrite <- Vz; eapply walk_sset; exact W|]. split; [pose proof (rep_but _ _ _ Hz) as Y; rewrite raw_names in Y; exact Y|].
  split; [intros p I; eapply raw_bare; eassumption|]. split; [exact LK|]. split; [exact GG|]. split; [exact CC|]. intro NI. auto.
Qed.

Lemma vals_app : forall G y, vals (G ++ [Some y]) = vals G ++ [Some (val_of y)].
Proof. intros. unfold vals. rewrite map_app. reflexivity. Qed.

Lemma new_ok : forall cf w d S s pl qs, read_as cf w d -> holds_but s S qs ->
  exists s' pl' r', mparse_new cf w (s, pl) = ((s', pl'), r') /\ (exists u, pl = u ++ pl') /\
    ends_as r' (let* _ := parse_string cf w in Ret tt) /\
    (granted pl pl' -> r' = let* _ := parse_string cf w in Ret tt) /\
    (r' = Ret tt -> exists v v', parse_string cf w = Ret v /\ short_to v' d /\ means d v /\ holds_but s' (S ++ [Some v']) qs /\ (granted pl pl' -> v' = v)) /\
    (forall e, r' = Throw e -> exists ks, holds_but s' S (ks ++ qs) /\ (forall p, In p ks -> bare s' p) /\ length ks <= fuel_for w /\
       (granted pl pl' \/ e <> EAlloc -> ks = [])).
Proof.
  intros cf w d S s pl qs Hd H. rewrite <- (read_wdoc _ _ _ Hd). clear d Hd. apply but_rep in H. destruct H as (G & L & H & -> & ->).
  assert (H0 : rep s G (GNull :: L)) by (apply rep_scalar; [reflexivity|exact H]).
  destruct (push_slot_ok s G L GNull H0) as (s1 & E1 & H1).
  pose proof (mparse_ok cf HNone w s1 pl _ L _ _ _ H1 (last_slot G GNull)) as X. cbn [val_of] in X.
  unfold parse_string. destruct (parse_into cf HNone VNull w) as [v [r msg]] eqn:EP.
  destruct X as (s2 & pl2 & r2 & E2 & S2 & (R2 & P2 & B2)).
  unfold mparse_new. rewrite (lift_seq _ _ _ _ _ _ _ _ E1). unfold on_throw, fseq at 1. rewrite E2. clear E1 E2.
  assert (EQ : forall B (k : value -> outcome B), (let* x := (let* _ := r in Ret v) in k x) = let* _ := r in k v) by (intros B k; destruct r; reflexivity).
  assert (EN : ends_as (let* _ := r2 in Ret tt) (let* _ := r in Ret tt)).
  { destruct R2 as [R2|[[R2 _]|[[R2 _]|[c0 R2]]]]; [rewrite R2; left; destruct r; reflexivity|rewrite R2; right; left; reflexivity|discriminate|rewrite R2; right; right; exists c0; reflexivity]. }
  assert (PN : granted pl pl2 -> (let* _ := r2 in Ret tt) = (let* _ := r in Ret tt)) by (intro Y; rewrite (P2 Y); destruct r; reflexivity).
  destruct r2 as [m2|e| | |]; cbn [bind] in EN, PN.
  - exists s2, pl2, (Ret tt). split; [reflexivity|]. split; [exact S2|]. rewrite EQ. split; [exact EN|]. split; [exact PN|].
    split; [|discriminate]. intros _. destruct r as [[]|e| | |]; try (apply ends_ret in EN; discriminate EN).
    destruct (B2 Logic.I) as (v' & K & (z & Vz & Hz) & LK & KK & GG & CC & SS). rewrite fput_new in Hz. cbn [gput] in Hz.
    destruct (KK ltac:(discriminate)) as [->|Z]; [|discriminate Z]. exists v, v'. split; [reflexivity|].
    assert (M : m2 = ""%string). { destruct R2 as [R2|[[R2 _]|[[R2 _]|[c0 R2]]]]; try discriminate R2. injection R2 as ->.
      unfold parse_into, parse_ibuf in EP. destruct (read_next cf (init_pst (Stream.IStr w))) as [st|e| | |]; try discriminate EP.
      destruct (parse_body cf (fuel_for w) VNull st) as [v2 r2]. destruct r2; cbn [handle] in EP; injection EP as _ _ <-; reflexivity. }
    destruct (SS ltac:(discriminate) ltac:(rewrite M; reflexivity)) as [SH MV]. split; [exact SH|]. split; [exact MV|].
    split; [pose proof (rep_but _ _ _ Hz) as Y; cbn [map app] in Y; rewrite vals_app, Vz in Y; exact Y|]. intro Y. apply GG. exact Y.
  - destruct (B2 Logic.I) as (v' & K & (z & Vz & Hz) & LK & KK & GG & CC & SS). rewrite fput_new in Hz. cbn [gput] in Hz.
    destruct (pop_slot_ok _ _ _ _ Hz) as (s3 & E3 & H3). exists s3, pl2, (Throw e). cbn [stop]. rewrite (lift_seq _ _ _ _ _ _ _ _ E3).
    split; [reflexivity|]. split; [exact S2|]. rewrite EQ. split; [exact EN|]. split; [exact PN|]. split; [discriminate|].
    intros e' Ee. injection Ee as <-. exists K. split; [pose proof (rep_but _ _ _ H3) as Y; rewrite raw_names in Y; exact Y|].
    split; [intros p I; eapply raw_bare; eassumption|]. split; [exact LK|]. intros [Y|Y]; [apply GG; exact Y|].
    destruct (KK ltac:(discriminate)) as [KK0|KK0]; [exact KK0|]. injection KK0 as KK0. destruct (Y KK0).
  - exists s2, pl2, Abort. split; [reflexivity|]. split; [exact S2|]. rewrite EQ. split; [exact EN|]. split; [exact PN|]. split; discriminate.
  - exists s2, pl2, UB. split; [reflexivity|]. split; [exact S2|]. rewrite EQ. split; [exact EN|]. split; [exact PN|]. split; discriminate.
  - exists s2, pl2, OutOfFuel. split; [reflexivity|]. split; [exact S2|]. rewrite EQ. split; [exact EN|]. split; [exact PN|]. split; discriminate.
Qed.

(** ** When nothing can be missing *)
Lemma clipped_plain : forall s' s, clipped s' s -> ends_plain s -> s' = s.
Proof.
  intros s' s (t & -> & F) P. destruct t as [|u t _] using rev_ind; [rewrite app_nil_r; reflexivity|].
  apply Forall_app in F. destruct F as [_ F]. inversion F as [|? ? Fu _]; subst. destruct (P (s' ++ t) u (app_assoc _ _ _) Fu).
Qed.

Scheme means_rec2 := Minimality for means Sort Prop
with means_all_rec2 := Minimality for means_all Sort Prop
with means_members_rec2 := Minimality for means_members Sort Prop.

Definition alike (a b : str * value) : Prop := fst b = fst a /\ (plain (snd a) -> snd b = snd a).

Lemma alike_find : forall k vs vs', Forall2 alike vs vs' -> (forall v, obj_find k vs = Some v -> plain v) -> obj_find k vs' = obj_find k vs.
Proof.
  intros k vs vs' H. induction H as [|[k1 v1] [k2 v2] vs vs' [E1 E2] H IH]; intro P; [reflexivity|]. cbn [fst snd] in *. subst k2. cbn [obj_find] in *.
  destruct (str_eqb k k1); [rewrite E2 by (apply P; reflexivity); reflexivity|]. apply IH. exact P.
Qed.
Lemma alike_obj : forall vs vs' m m', Forall2 alike vs vs' -> obj_of vs m -> obj_of vs' m' -> Forall (fun kv => plain (snd kv)) m -> m' = m.
Proof.
  intros vs vs' m m' H [S A] [S' A'] P. apply sorted_unique; [assumption|assumption|].
  assert (F : forall k, obj_find k vs' = obj_find k vs).
  { intro k. apply alike_find; [exact H|]. intros v Fv. apply find_iff, A, assoc_in in Fv. rewrite Forall_forall in P. apply (P _ Fv). }
  intros k v. rewrite <- A, <- A', <- !find_iff, F. reflexivity.
Qed.
Lemma key_there : forall A (vs : list (str * A)) k, In k (map fst vs) -> exists v, assoc k v vs.
Proof.
  intros A vs k. induction vs as [|[k1 v1] vs IH]; [intros []|]. cbn [map fst In]. destruct (list_eq_dec N.eq_dec k1 k) as [->|D]; [intros _; exists v1; constructor|].
  intros [E|I]; [congruence|]. destruct (IH I) as [v V]. exists v. constructor; assumption.
Qed.

Lemma short_exact : forall d v, means d v -> plain v -> forall d' v', short d' d -> means d' v' -> v' = v.
Proof.
  apply (means_rec2
    (fun d v => plain v -> forall d' v', short d' d -> means d' v' -> v' = v)
    (fun ds vs => Forall plain vs -> forall ds' vs', short_all ds' ds -> means_all ds' vs' -> vs' = vs)
    (fun ms vs => Forall ends_plain (map fst vs) -> forall ms' vs', short_members ms' ms -> means_members ms' vs' -> Forall2 alike vs vs')).
  - intros v Sv _ d' v' S M. inversion S; subst. inversion M; subst. reflexivity.
  - intros s P d' v' S M. inversion P; subst; [contradiction|]. inversion S; subst. inversion M; subst. f_equal. apply clipped_plain; assumption.
  - intros ds vs _ IH P d' v' S M. inversion P; subst; [contradiction|]. inversion S; subst. inversion M; subst. f_equal. eapply IH; eassumption.
  - intros ms vs m _ IH O P d' v' S M. inversion P as [|?|?|m1 F]; subst; [contradiction|]. inversion S; subst. inversion M as [| | |ms2 vs2 m2 M2 O2]; subst. f_equal.
    eapply alike_obj; [eapply IH; [|eassumption|exact M2]|exact O|exact O2|].
    + apply Forall_forall. intros k I. apply key_there in I. destruct I as [v V]. apply O, assoc_in in V. rewrite Forall_forall in F. apply (F _ V).
    + eapply Forall_impl; [|exact F]. intros kv [_ X]. exact X.
  - intros _ d' v' S M. inversion S; subst. inversion M; subst. reflexivity.
  - intros d v ds vs _ IH _ IHs P d' v' S M. inversion P; subst. inversion S; subst. inversion M; subst. f_equal; [eapply IH; eassumption|eapply IHs; eassumption].
  - intros _ d' v' S M. inversion S; subst. inversion M; subst. constructor.
  - intros k d v ms vs _ IH _ IHs P d' v' S M. cbn [map fst] in P. inversion P; subst. inversion S; subst. inversion M; subst. constructor.
    + split; cbn [fst snd]; [apply clipped_plain; assumption|]. intro Pv. eapply IH; eassumption.
    + eapply IHs; eassumption.
Qed.
Lemma all_granted : forall (pl u pl' : list bool), Forall (eq false) pl -> pl = u ++ pl' -> granted pl pl'.
Proof. intros pl u pl' F ->. exists u. split; [reflexivity|]. apply Forall_app in F. apply F. Qed.

Lemma into_enough : forall cf h w S a y s pl qs, sget S a y -> holds_but s S qs -> Forall (eq false) pl ->
  let '(v, o) := parse_into cf h y w in
  exists s' pl', mparse_into cf h a w (s, pl) = ((s', pl'), said o) /\
    (comes_back (said o) -> exists S', sset S a v S' /\ holds_but s' S' qs).
Proof.
  intros cf h w S a y s pl qs Ha H F. destruct (read_some cf w) as [d Hd]. pose proof (into_ok cf h w d S a y s pl qs Hd Ha H) as X. destruct (parse_into cf h y w) as [v o].
  destruct X as (s' & pl' & r' & E & [u U] & _ & P & B). pose proof (all_granted _ _ _ F U) as G. rewrite (P G) in *. exists s', pl'. split; [exact E|].
  intro C. destruct (B C) as (v' & S' & ks & A1 & A2 & _ & _ & A3 & _). destruct (A3 G) as [-> ->]. exists S'. auto.
Qed.

Lemma new_exact : forall cf w S s pl qs s' pl', holds_but s S qs -> mparse_new cf w (s, pl) = ((s', pl'), Ret tt) ->
  exists v v', parse_string cf w = Ret v /\ holds_but s' (S ++ [Some v']) qs /\ (plain v -> v' = v).
Proof.
  intros cf w S s pl qs s' pl' H E. destruct (read_some cf w) as [d Hd]. destruct (new_ok cf w d S s pl qs Hd H) as (s2 & pl2 & r & E2 & _ & _ & _ & R & _). rewrite E in E2. injection E2 as <- <- <-.
  destruct (R eq_refl) as (v0 & v' & P & (d' & D' & Sh) & MV & Hb & _). exists v0, v'. split; [exact P|]. split; [exact Hb|]. intro Pl. exact (short_exact d v0 MV Pl d' v' Sh D').
Qed.

Lemma into_exact : forall cf h w S a y s pl qs s' pl', sget S a y -> holds_but s S qs -> h <> HIgnore ->
  mparse_into cf h a w (s, pl) = ((s', pl'), Ret ""%string) ->
  exists v' S', sset S a v' S' /\ holds_but s' S' qs /\ (plain (fst (parse_into cf h y w)) -> v' = fst (parse_into cf h y w)).
Proof.
  intros cf h w S a y s pl qs s' pl' Ha H N E. destruct (read_some cf w) as [d Hd]. pose proof (into_ok cf h w d S a y s pl qs Hd Ha H) as X. destruct (parse_into cf h y w) as [v o].
  destruct X as (s2 & pl2 & r & E2 & _ & _ & _ & B). rewrite E in E2. injection E2 as <- <- <-.
  destruct (B Logic.I) as (v' & S' & ks & A1 & A2 & _ & _ & _ & _ & A3). destruct (A3 N) as [[->|Z] SH]; [|discriminate Z].
  exists v', S'. split; [exact A1|]. split; [exact A2|]. cbn [fst]. intro Pl. destruct (SH eq_refl) as [(d' & D' & Sh) MV]. exact (short_exact d v MV Pl d' v' Sh D').
Qed.
