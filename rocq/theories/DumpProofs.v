(** The serializer writes what DumpText.v says. *)
From Coq Require Import Lia ZifyBool ZifyNat ZifyN Floats.SpecFloat.
From Verif Require Import Base Stream Encoding Value Token FloatFmt Parser EncodingProofs Feeds SpecGrammar
  GrammarLex GrammarTok Serializer DumpText.
Ltac Zify.zify_post_hook ::= Z.div_mod_to_equations.
Open Scope N_scope.

(** ** Sequencing *)
Lemma dthen_assoc : forall a b c, dthen (dthen a b) c = dthen a (dthen b c).
Proof.
  intros [wa oa] [wb ob] [wc oc]. destruct oa as [[]| | | |]; cbn; try reflexivity.
  destruct ob as [[]| | | |]; cbn; rewrite ?app_assoc; reflexivity.
Qed.
Lemma dthen_txt : forall a b x, dthen (txt a) (dthen (txt b) x) = dthen (txt (a ++ b)) x.
Proof. intros a b [w o]. cbn. rewrite app_assoc. reflexivity. Qed.
Lemma txt_nil : forall x, dthen (txt []) x = x.
Proof. intros [w o]. reflexivity. Qed.
Lemma txt_txt : forall a b, dthen (txt a) (txt b) = txt (a ++ b).
Proof. reflexivity. Qed.
Lemma txt_nil_r : forall x, dthen x (txt []) = x.
Proof. intros [w [[]| | | |]]; cbn; rewrite ?app_nil_r; reflexivity. Qed.

(** ** Decoding *)
Lemma decs_feeds : forall e ck i l t, feeds e ck i l t -> forall n, (length l < n)%nat -> decs e ck n i = (l, t).
Proof.
  intros e ck i l t F. induction F as [i i' H|i c i' H G|i c i' l t H G F IH]; intros n L;
    (destruct n as [|n]; [cbn in L; lia|]); cbn [decs].
  - destruct (H 0) as [c ->]. reflexivity.
  - rewrite (H 0). cbn [negb]. rewrite G. reflexivity.
  - rewrite (H 0). cbn [negb]. rewrite G. cbn [negb]. rewrite IH by (cbn in L; lia). reflexivity.
Qed.

(** ** The stream-level dumper *)
Section Dump.
Variable cf : scfg.
Hypothesis Hok : enc_ok (out_enc cf) (out_ck cf) = true.

Definition okn (D n : N) : Prop :=
  (s_ichar cf = 0 -> n = 0) /\ (s_ichar cf <> 0 -> N.min D 65535 * s_step cf <= n).

Definition stt (u : list N) (b : bool) (t : token) (D n : N) : sst := mkS (mkOs u false) b t (u16 D) n.

(** r did what x says: wrote its text after u and, if it returned, left the
    state at depth D *)
Definition runs (r : sres) (u : list N) (D : N) (x : dres) : Prop :=
  match snd x with
  | Ret _ => exists t n, r = (stt (u ++ fst x) false t D n, Ret tt) /\ okn D n
  | o => exists s', r = (s', o) /\ os_units (s_os s') = u ++ fst x
  end.

Lemma runs_then : forall r k u D D' x y, runs r u D x ->
  (forall t n, okn D n -> runs (k (stt (u ++ fst x) false t D n)) (u ++ fst x) D' y) ->
  runs (sthen r k) u D' (dthen x y).
Proof.
  intros r k u D D' [w o] y H K. unfold runs in H. cbn [fst snd] in *.
  destruct o as [[]| | | |]; try (destruct H as (s' & -> & E); cbn [sthen dthen]; unfold runs; cbn [fst snd]; eauto; fail).
  destruct H as (t & n & -> & O). cbn [sthen dthen]. specialize (K t n O). unfold runs in *. cbn [fst snd]. rewrite app_assoc. exact K.
Qed.

Lemma runs_txt : forall u D w t n, okn D n -> runs (stt (u ++ w) false t D n, Ret tt) u D (txt w).
Proof. intros. cbn. eauto. Qed.

(** writing when the state is known exactly *)
Lemma runs_pre : forall r u D w x, runs r (u ++ w) D x -> runs r u D (dthen (txt w) x).
Proof.
  intros r u D w [w' o] H. unfold runs in *. cbn [dthen txt fst snd] in *. rewrite app_assoc. exact H.
Qed.

Lemma out1 : forall c u b t D n, c < 128 -> output1 cf c (stt u b t D n) = stt (u ++ [c]) b t D n.
Proof.
  intros c u b t D n L. unfold output1, stt, set_os, os_put. cbn [s_os os_fail os_units s_began s_last s_depth s_ilen].
  replace (Z.of_N c =? eof_int (out_ck cf))%Z with false; [reflexivity|]. destruct (out_ck cf); cbn [eof_int]; lia.
Qed.
Lemma outw : forall w u b t D n, output w (stt u b t D n) = stt (u ++ w) b t D n.
Proof. reflexivity. Qed.
Lemma out_nl : forall u b t D n, output_newline cf (stt u b t D n) = stt (u ++ d_nl cf) b t D n.
Proof.
  intros. unfold output_newline, d_nl. destruct (s_pretty cf); [apply out1; lia|]. rewrite app_nil_r. reflexivity.
Qed.

Lemma ind_ok : forall u b t D D' n, u16 D <= N.min D' 65535 -> okn D' n ->
  output_indent cf (stt u b t D n) = (stt (u ++ d_ind cf D) b t D n, Ret tt).
Proof.
  intros u b t D D' n L [O1 O2]. unfold output_indent, d_ind.
  destruct (s_pretty cf); [|rewrite app_nil_r; reflexivity].
  destruct (N.eqb_spec (s_ichar cf) 0) as [E|E]; cbn [negb andb]; [rewrite app_nil_r; reflexivity|].
  specialize (O2 E).
  destruct (N.ltb_spec 0 (s_step cf)) as [Hs|Hs]; cbn [andb].
  - destruct (N.ltb_spec 0 (s_depth (stt u b t D n))) as [Hd|Hd]; cbn [stt s_depth] in *.
    + unfold ind_write. cbn [stt s_ilen]. replace (u16 D * s_step cf <=? n) with true by nia. reflexivity.
    + replace (u16 D) with 0 by lia. cbn [N.mul N.to_nat repeat]. rewrite app_nil_r. reflexivity.
  - replace (s_step cf) with 0 by lia. rewrite N.mul_0_r. cbn [N.to_nat repeat]. rewrite app_nil_r. reflexivity.
Qed.

Lemma u16_min : forall D, u16 D <= N.min D 65535.
Proof. intro D. unfold u16. lia. Qed.

Lemma okn_dec : forall D n, okn (D + 1) n -> okn D n.
Proof. intros D n [A B]. split; [assumption|]. intro E. specialize (B E). nia. Qed.

(** what next() writes before a token that starts a value *)
Definition lead (b : bool) (t : token) (D : N) : list N :=
  (if b then d_nl cf else []) ++ (if token_eqb t Tname_sep then [] else d_ind cf D).

Definition scalar_text (t : token) : list N :=
  match t with Ttrue => lit_true | Tfalse => lit_false | Tnull => lit_null | _ => [] end.

Lemma next_scalar : forall t u b t0 D n, okn D n -> starts_value t = true -> t <> Tbegin_arr -> t <> Tbegin_obj ->
  next cf t (stt u b t0 D n) = (stt (u ++ lead b t0 D ++ scalar_text t) false t D n, Ret tt).
Proof.
  intros t u b t0 D n O S N1 N2. unfold next, lead. rewrite S.
  assert (E : (if s_began (stt u b t0 D n) then output_newline cf (set_began (stt u b t0 D n) false) else stt u b t0 D n) =
    stt (u ++ (if b then d_nl cf else [])) false t0 D n).
  { cbn [stt s_began]. destruct b; [|rewrite app_nil_r; reflexivity]. change (set_began _ false) with (stt u false t0 D n). apply out_nl. }
  cbv zeta. cbn [s_began stt] in E |- *. rewrite E. cbn [s_last]. rewrite andb_true_r.
  assert (E2 : (if s_pretty cf && negb (token_eqb t0 Tname_sep) then output_indent cf (stt (u ++ (if b then d_nl cf else [])) false t0 D n)
     else sret (stt (u ++ (if b then d_nl cf else [])) false t0 D n)) =
     (stt (u ++ (if b then d_nl cf else []) ++ (if token_eqb t0 Tname_sep then [] else d_ind cf D)) false t0 D n, Ret tt)).
  { destruct (token_eqb t0 Tname_sep); cbn [negb]; [rewrite andb_false_r, app_nil_r; reflexivity|]. rewrite andb_true_r.
    rewrite app_assoc. destruct (s_pretty cf) eqn:P; [eapply ind_ok; [apply u16_min|exact O]|].
    unfold d_ind. rewrite P. rewrite app_nil_r. reflexivity. }
  change (s_last (stt (u ++ (if b then d_nl cf else [])) false t0 D n)) with t0. rewrite E2. cbn [sthen].
  destruct t; try discriminate; try congruence; cbn [scalar_text]; rewrite ?outw, ?app_assoc, ?app_nil_r; reflexivity.
Qed.

Lemma next_open : forall t c u b t0 D n, okn D n -> (t = Tbegin_arr /\ c = 91) \/ (t = Tbegin_obj /\ c = 123) ->
  exists n', next cf t (stt u b t0 D n) = (stt (u ++ lead b t0 D ++ [c]) true t (D + 1) n', Ret tt) /\ okn (D + 1) n'.
Proof.
  intros t c u b t0 D n O T.
  assert (X : next cf t (stt u b t0 D n) = (set_last (ind_inc cf (stt (u ++ lead b t0 D ++ [c]) true t0 D n)) t, Ret tt)).
  { unfold next, lead. replace (starts_value t) with true by (destruct T as [[-> _]|[-> _]]; reflexivity).
    assert (E : (if s_began (stt u b t0 D n) then output_newline cf (set_began (stt u b t0 D n) false) else stt u b t0 D n) =
      stt (u ++ (if b then d_nl cf else [])) false t0 D n).
    { cbn [stt s_began]. destruct b; [|rewrite app_nil_r; reflexivity]. change (set_began _ false) with (stt u false t0 D n). apply out_nl. }
    cbv zeta. cbn [s_began stt] in E |- *. rewrite E. cbn [s_last]. rewrite andb_true_r.
    assert (E2 : (if s_pretty cf && negb (token_eqb t0 Tname_sep) then output_indent cf (stt (u ++ (if b then d_nl cf else [])) false t0 D n)
       else sret (stt (u ++ (if b then d_nl cf else [])) false t0 D n)) =
       (stt (u ++ (if b then d_nl cf else []) ++ (if token_eqb t0 Tname_sep then [] else d_ind cf D)) false t0 D n, Ret tt)).
    { destruct (token_eqb t0 Tname_sep); cbn [negb]; [rewrite andb_false_r, app_nil_r; reflexivity|]. rewrite andb_true_r.
      rewrite app_assoc. destruct (s_pretty cf) eqn:P; [eapply ind_ok; [apply u16_min|exact O]|].
      unfold d_ind. rewrite P. rewrite app_nil_r. reflexivity. }
    change (s_last (stt (u ++ (if b then d_nl cf else [])) false t0 D n)) with t0. rewrite E2. cbn [sthen].
    destruct T as [[-> ->]|[-> ->]]; rewrite out1 by lia; rewrite ?app_assoc; reflexivity. }
  rewrite X. unfold ind_inc, ind_reserve.
  cbn [stt s_depth s_os s_began s_last s_ilen]. destruct O as [O1 O2].
  assert (Ed : u16 (u16 D + 1) = u16 (D + 1)) by (unfold u16; lia). rewrite Ed.
  destruct (N.eqb_spec (s_ichar cf) 0) as [E|E].
  - exists n. split; [reflexivity|]. split; [assumption|]. intro; contradiction.
  - specialize (O2 E).
    assert (L : u16 (D + 1) * s_step cf <= N.min (D + 1) 65535 * s_step cf) by (apply N.mul_le_mono_r, u16_min).
    destruct (N.ltb_spec n (u16 (D + 1) * s_step cf)) as [L2|L2].
    + exists (u16 (D + 1) * s_step cf + s_step cf * 2). split; [reflexivity|]. split; [intro; contradiction|]. intros _.
      unfold u16 in *. destruct (N.le_gt_cases (D + 1) 65535) as [Le|Gt].
      * rewrite N.mod_small by lia. nia.
      * replace (N.min (D + 1) 65535) with 65535 by lia. replace (N.min D 65535) with 65535 in O2 by lia. nia.
    + exists n. split; [reflexivity|]. split; [intro; contradiction|]. intros _.
      unfold u16 in *. destruct (N.le_gt_cases (D + 1) 65535) as [Le|Gt].
      * rewrite N.mod_small in L2 by lia. nia.
      * nia.
Qed.

Lemma next_close : forall t c u b t0 D n, okn (D + 1) n -> (t = Tend_arr /\ c = 93) \/ (t = Tend_obj /\ c = 125) ->
  runs (next cf t (stt u b t0 (D + 1) n)) u D (txt (d_nl cf ++ d_ind cf D ++ [c])).
Proof.
  intros t c u b t0 D n O T. unfold next.
  replace (starts_value t) with false by (destruct T as [[-> _]|[-> _]]; reflexivity).
  assert (E : (if s_began (stt u b t0 (D + 1) n) then set_began (stt u b t0 (D + 1) n) false else stt u b t0 (D + 1) n) = stt u false t0 (D + 1) n)
    by (destruct b; reflexivity).
  cbv zeta. cbn [stt s_began] in E |- *. rewrite E. rewrite andb_false_r. cbn [sret sthen].
  assert (Ed : ind_dec (stt u false t0 (D + 1) n) = stt u false t0 D n).
  { unfold ind_dec, stt. cbn [s_os s_began s_last s_depth s_ilen]. f_equal. unfold u16. lia. }
  assert (L : u16 D <= N.min (D + 1) 65535) by (pose proof (u16_min D); lia).
  destruct T as [[-> ->]|[-> ->]]; rewrite Ed, out_nl, (ind_ok _ _ _ D (D + 1) n L O); cbn [sthen]; rewrite out1 by lia;
    unfold runs; cbn [txt fst snd sret sthen]; eexists _, _; rewrite ?app_assoc; (split; [reflexivity|apply okn_dec; exact O]).
Qed.

Lemma next_colon : forall u t0 D n, okn D n ->
  exists n', next cf Tname_sep (stt u false t0 D n) = (stt (u ++ 58 :: d_sp cf) false Tname_sep D n', Ret tt) /\ okn D n'.
Proof.
  intros u t0 D n [O1 O2]. unfold next. cbn [starts_value stt s_began]. rewrite andb_false_r. cbn [sret sthen].
  change (mkS (mkOs u false) false t0 (u16 D) n) with (stt u false t0 D n). rewrite out1 by lia.
  unfold output_indent_n, d_sp. destruct (s_pretty cf).
  2:{ exists n. cbn [sret sthen]. split; [reflexivity|split; assumption]. }
  unfold ind_reserve. cbn [stt s_ilen s_os s_began s_last s_depth].
  destruct (N.eqb_spec (s_ichar cf) 0) as [E|E].
  - rewrite (O1 E). unfold ind_write, stt. cbn [s_ilen]. change (1 <=? 0) with false. change (1 =? 0 + 1) with true. cbv iota.
    exists 0. cbn [sret sthen set_os os_write s_os os_fail os_units N.to_nat repeat app]. rewrite E.
    unfold stt. rewrite <- ?app_assoc. cbn [app]. split; [reflexivity|]. split; [reflexivity|]. intro; contradiction.
  - specialize (O2 E). destruct (N.ltb_spec n 1) as [L|L].
    + exists (1 + s_step cf * 2). unfold ind_write, stt. cbn [s_ilen]. replace (1 <=? 1 + s_step cf * 2) with true by lia.
      change (N.to_nat 1) with 1%nat. cbn [repeat sret sthen set_os os_write s_os os_fail os_units].
      unfold stt. rewrite <- ?app_assoc. cbn [app]. split; [reflexivity|]. split; [intro; contradiction|]. intros _. lia.
    + exists n. unfold ind_write, stt. cbn [s_ilen]. replace (1 <=? n) with true by lia.
      change (N.to_nat 1) with 1%nat. cbn [repeat sret sthen set_os os_write s_os os_fail os_units].
      unfold stt. rewrite <- ?app_assoc. cbn [app]. split; [reflexivity|]. split; [intro; contradiction|]. intros _. assumption.
Qed.

Lemma next_comma : forall u t0 D n,
  next cf Tval_sep (stt u false t0 D n) = (stt (u ++ 44 :: d_nl cf) false Tval_sep D n, Ret tt).
Proof.
  intros u t0 D n. unfold next. cbn [starts_value stt s_began]. rewrite andb_false_r. cbn [sret sthen].
  change (mkS (mkOs u false) false t0 (u16 D) n) with (stt u false t0 D n). rewrite out1 by lia. rewrite out_nl.
  cbn [sret sthen]. rewrite <- app_assoc. reflexivity.
Qed.

(** ** Strings *)
Lemma put_chars_ok : forall i l t, feeds (val_enc cf) (val_ck cf) i l t -> forall fuel, (length l < fuel)%nat ->
  forall cur u b tk D n,
  match snd (d_chars cf l t) with
  | Ret _ => put_chars cf fuel i cur (stt u b tk D n) = (stt (u ++ fst (d_chars cf l t)) b tk D n, Ret tt)
  | o => exists s', put_chars cf fuel i cur (stt u b tk D n) = (s', o) /\ os_units (s_os s') = u ++ fst (d_chars cf l t)
  end.
Proof.
  intros i l t F. induction F as [i i' H|i c i' H G|i c i' l t H G F IH]; intros fuel L cur u b tk D n;
    (destruct fuel as [|fuel]; [cbn in L; lia|]); cbn [put_chars].
  - destruct (H cur) as [x ->]. cbn. rewrite app_nil_r. reflexivity.
  - rewrite (H cur). cbn [negb]. rewrite G. cbn. eexists. rewrite app_nil_r. split; reflexivity.
  - rewrite (H cur). cbn [negb]. rewrite G. cbn [negb d_chars].
    assert (Go : forall w, d_char cf c = txt w -> forall r, 
       r = put_chars cf fuel i' c (stt (u ++ w) b tk D n) ->
       match snd (dthen (d_char cf c) (d_chars cf l t)) with
       | Ret _ => r = (stt (u ++ fst (dthen (d_char cf c) (d_chars cf l t))) b tk D n, Ret tt)
       | o => exists s', r = (s', o) /\ os_units (s_os s') = u ++ fst (dthen (d_char cf c) (d_chars cf l t))
       end).
    { intros w E r ->. rewrite E. specialize (IH fuel ltac:(cbn in L; lia) c (u ++ w) b tk D n).
      destruct (d_chars cf l t) as [w' o]. cbn [dthen txt fst snd] in *. rewrite app_assoc. exact IH. }
    unfold d_char in *. destruct (short_escape c) as [e|] eqn:Se; [apply (Go [92; e]); reflexivity|].
    unfold put_default. cbn [stt s_os]. destruct ((c <=? 31) || (s_esc cf && (127 <=? c))) eqn:X.
    + destruct (c <=? 65535).
      * unfold os_write. cbn [os_fail os_units set_os s_os]. apply (Go (json_hex 2 (u16 c))); reflexivity.
      * destruct (encode_surrogates c) as [hi lo]. unfold os_write. cbn [os_fail os_units set_os s_os fst snd].
        apply (Go (json_hex 4 hi ++ json_hex 4 lo)); [reflexivity|]. rewrite <- app_assoc. reflexivity.
    + rewrite encode_units by exact Hok. rewrite <- out_units_eq. destruct (out_units (out_enc cf) (out_ck cf) c) as [us|].
      * cbn [set_os s_os os_fail]. apply (Go us); reflexivity.
      * cbn. eexists. rewrite app_nil_r. split; reflexivity.
Qed.

Lemma put_string_ok : forall s u t D n, okn D n -> runs (put_string cf s (stt u false t D n)) u D (d_string cf s).
Proof.
  intros s u t D n O. unfold put_string, d_string. rewrite out1 by lia.
  destruct (feeds_string (val_enc cf) (val_ck cf) s) as (l & tm & F & L).
  rewrite (decs_feeds _ _ _ _ _ F) by lia.
  pose proof (put_chars_ok _ _ _ F (fuel_for s) ltac:(unfold fuel_for; lia) 0 (u ++ [34]) false t D n) as P.
  change (is_open (IStr s)) with (sis s). apply runs_pre.
  eapply runs_then with (D := D).
  - unfold runs. destruct (d_chars cf l tm) as [w [[]| | | |]]; cbn [fst snd] in *; [|exact P..].
    eexists _, _. split; [exact P|assumption].
  - intros t1 n1 O1. rewrite out1 by lia. apply runs_txt. assumption.
Qed.

Lemma put_float_ok : forall f u t D n, okn D n -> runs (put_float cf f (stt u false t D n)) u D (d_float cf f).
Proof.
  intros f u t D n O. unfold put_float, d_float. destruct (f64_integral f).
  - unfold f64_to_int64, chk64. destruct (f64_trunc f) as [z|].
    + destruct (in_int64 z).
      * rewrite !outw. rewrite <- app_assoc. apply runs_txt. assumption.
      * cbn. eexists. rewrite app_nil_r. split; reflexivity.
    + cbn. eexists. rewrite app_nil_r. split; reflexivity.
  - rewrite outw. apply runs_txt. assumption.
Qed.

(** ** Values *)
Definition dumps (v : value) : Prop := forall u b t D n, okn D n ->
  runs (do_dump cf v (stt u b t D n)) u D (dthen (txt (lead b t D)) (d_val cf D v)).

Definition arr_loop : list value -> sst -> sres :=
  fix elems (l : list value) (s : sst) : sres :=
    match l with
    | [] => sret s
    | v :: l' =>
        do* s := do_dump cf v s in
        match l' with
        | [] => sret s
        | _ => do* s := next cf Tval_sep s in elems l' s
        end
    end.
Definition obj_loop : list (str * value) -> sst -> sres :=
  fix members (m : list (str * value)) (s : sst) : sres :=
    match m with
    | [] => sret s
    | (k, v) :: m' =>
        do* s := next cf Tstring s in
        do* s := put_string cf k s in
        do* s := next cf Tname_sep s in
        do* s := do_dump cf v s in
        match m' with
        | [] => sret s
        | _ => do* s := next cf Tval_sep s in members m' s
        end
    end.

(** first item after p, the others after pre *)
Definition d_seq1 (p pre : list N) (l : list dres) : dres :=
  match l with
  | [] => txt []
  | r :: l' => dthen (txt p) (dthen r match l' with [] => txt [] | _ => dthen (txt [44]) (d_seq pre l') end)
  end.
Lemma d_seq1_pre : forall pre l, d_seq1 pre pre l = d_seq pre l.
Proof. intros pre [|r l]; reflexivity. Qed.
Lemma d_seq1_nl : forall a i pre l, l <> [] -> dthen (txt a) (d_seq1 i pre l) = d_seq1 (a ++ i) pre l.
Proof. intros a i pre [|r l] N; [congruence|]. cbn [d_seq1]. rewrite dthen_txt. reflexivity. Qed.

Lemma arr_ok : forall l, Forall dumps l -> l <> [] -> forall u b t D n, okn D n -> token_eqb t Tname_sep = false ->
  runs (arr_loop l (stt u b t D n)) u D
    (d_seq1 (lead b t D) (d_nl cf ++ d_ind cf D) (map (d_val cf D) l)).
Proof.
  intros l F. induction F as [|v l Hv F IH]; intros N u b t D n O T; [congruence|].
  cbn [arr_loop map d_seq1]. fold arr_loop. rewrite <- dthen_assoc.
  eapply runs_then; [apply Hv; exact O|]. intros t1 n1 O1. destruct l as [|v' l].
  - cbn [map]. apply (runs_txt _ D [] t1 n1 O1 : runs (stt _ _ _ _ _, _) _ _ _) || (rewrite <- (app_nil_r (u ++ _)) at 1; apply runs_txt; exact O1).
  - rewrite next_comma. cbn [sthen]. cbn [map]. rewrite <- d_seq1_pre. rewrite <- (d_seq1_nl (d_nl cf)) by discriminate.
    rewrite dthen_txt. apply runs_pre. cbn [app].
    pose proof (IH ltac:(discriminate) ((u ++ fst (dthen (txt (lead b t D)) (d_val cf D v))) ++ 44 :: d_nl cf) false Tval_sep D n1 O1 eq_refl) as X.
    exact X.
Qed.

Lemma obj_ok : forall m, Forall (fun p => dumps (snd p)) m -> m <> [] -> forall u b t D n, okn D n -> token_eqb t Tname_sep = false ->
  runs (obj_loop m (stt u b t D n)) u D
    (d_seq1 (lead b t D) (d_nl cf ++ d_ind cf D) (map (d_member cf D) m)).
Proof.
  intros m F. induction F as [|[k v] m Hv F IH]; intros N u b t D n O T; [congruence|].
  cbn [snd] in Hv. cbn [obj_loop map d_seq1]. fold obj_loop.
  rewrite next_scalar by (try reflexivity; try discriminate; assumption). cbn [sthen scalar_text]. rewrite app_nil_r.
  apply runs_pre. unfold d_member at 1. cbn [fst snd]. rewrite !dthen_assoc.
  eapply runs_then; [apply put_string_ok; exact O|]. intros t1 n1 O1.
  set (u1 := (u ++ lead b t D) ++ fst (d_string cf k)).
  destruct (next_colon u1 t1 D n1 O1) as (n2 & -> & O2). cbn [sthen]. apply runs_pre.
  eapply runs_then.
  - pose proof (Hv (u1 ++ 58 :: d_sp cf) false Tname_sep D n2 O2) as X.
    change (lead false Tname_sep D) with (@nil BinNums.N) in X. rewrite txt_nil in X. exact X.
  - intros t3 n3 O3. destruct m as [|p m].
    + cbn [map]. rewrite <- (app_nil_r (_ ++ fst (d_val cf D v))) at 1. apply runs_txt; exact O3.
    + rewrite next_comma. cbn [sthen]. cbn [map]. rewrite <- d_seq1_pre. rewrite <- (d_seq1_nl (d_nl cf)) by discriminate.
      rewrite dthen_txt. apply runs_pre. cbn [app]. apply (IH ltac:(discriminate)); [exact O3|reflexivity].
Qed.

Lemma close_after : forall (r : sres) u D x t c, runs r u (D + 1) x ->
  (t = Tend_arr /\ c = 93) \/ (t = Tend_obj /\ c = 125) ->
  runs (do* s := r in next cf t s) u D (dthen x (txt (d_nl cf ++ d_ind cf D ++ [c]))).
Proof.
  intros r u D x t c H T. eapply runs_then; [exact H|]. intros t1 n1 O1. apply next_close; assumption.
Qed.

Lemma dump_val : forall v, dumps v.
Proof.
  assert (Sc : forall t w, starts_value t = true -> t <> Tbegin_arr -> t <> Tbegin_obj -> scalar_text t = w ->
    forall u b t0 D n, okn D n -> runs (next cf t (stt u b t0 D n)) u D (dthen (txt (lead b t0 D)) (txt w))).
  { intros t w S N1 N2 E u b t0 D n O. rewrite next_scalar by assumption. rewrite E. apply runs_txt. assumption. }
  assert (Sk : forall t k x, starts_value t = true -> t <> Tbegin_arr -> t <> Tbegin_obj -> scalar_text t = [] ->
    (forall u t0 D n, okn D n -> runs (k (stt u false t0 D n)) u D x) ->
    forall u b t0 D n, okn D n -> runs (do* s := next cf t (stt u b t0 D n) in k s) u D (dthen (txt (lead b t0 D)) x)).
  { intros t k x S N1 N2 E K u b t0 D n O. rewrite next_scalar by assumption. rewrite E, app_nil_r. cbn [sthen].
    apply runs_pre. apply K. assumption. }
  apply value_rect2.
  - intros u b t D n O. apply Sc; try reflexivity; try discriminate; assumption.
  - intros z u b t D n O. cbn [do_dump d_val].
    apply (Sk Tint (fun s => sret (put_integer z s)) (txt (dec_of_Z z))); try reflexivity; try discriminate; [|assumption].
    intros. apply runs_txt. assumption.
  - intros f u b t D n O. cbn [do_dump d_val].
    apply (Sk Tfloat (put_float cf f)); try reflexivity; try discriminate; [|assumption].
    intros. apply put_float_ok. assumption.
  - intros s u b t D n O. cbn [do_dump d_val].
    apply (Sk Tstring (put_string cf s)); try reflexivity; try discriminate; [|assumption].
    intros. apply put_string_ok. assumption.
  - intros [|] u b t D n O; cbn [do_dump d_val]; apply Sc; try reflexivity; try discriminate; assumption.
  - intros l F u b t D n O. cbn [do_dump d_val]. fold arr_loop.
    destruct (next_open Tbegin_arr 91 u b t D n O ltac:(auto)) as (n1 & -> & O1). cbn [sthen].
    rewrite dthen_txt. apply runs_pre. destruct l as [|v l].
    + cbn [map d_seq]. rewrite txt_nil. apply next_close; auto.
    + apply close_after; [|auto]. rewrite <- d_seq1_pre. apply arr_ok; try assumption; [discriminate|reflexivity].
  - intros m F u b t D n O. cbn [do_dump d_val]. fold obj_loop.
    destruct (next_open Tbegin_obj 123 u b t D n O ltac:(auto)) as (n1 & -> & O1). cbn [sthen].
    rewrite dthen_txt. apply runs_pre. destruct m as [|p m].
    + cbn [map d_seq]. rewrite txt_nil. apply next_close; auto.
    + apply close_after; [|auto]. rewrite <- d_seq1_pre. change (map _ (p :: m)) with (map (d_member cf (D + 1)) (p :: m)).
      apply obj_ok; try assumption; [discriminate|reflexivity].
Qed.

Lemma next_end : forall u b t D n, exists s', next cf Teoi (stt u b t D n) = (s', Ret tt) /\ s_os s' = mkOs u false.
Proof. intros u b t D n. unfold next. cbn [starts_value stt s_began]. rewrite andb_false_r. destruct b; eexists; split; reflexivity. Qed.

Lemma dump_to_eq : forall h u v, dump_to cf h (mkOs u false) v = (u ++ fst (d_val cf 0 v), handle h (snd (d_val cf 0 v))).
Proof.
  intros h u v. unfold dump_to.
  assert (O : okn 0 (s_ilen (init_sst cf (mkOs u false)))).
  { unfold okn, init_sst. cbn [s_ilen]. destruct (N.eqb_spec (s_ichar cf) 0); split; intros; lia || contradiction. }
  pose proof (dump_val v u false Tuninit 0 (s_ilen (init_sst cf (mkOs u false))) O) as H.
  change (stt u false Tuninit 0 (s_ilen (init_sst cf (mkOs u false)))) with (init_sst cf (mkOs u false)) in H.
  replace (lead false Tuninit 0) with (@nil N) in H.
  2:{ unfold lead. cbn [token_eqb app]. unfold d_ind. destruct (s_pretty cf), (s_ichar cf =? 0); reflexivity. }
  rewrite txt_nil in H. unfold runs in H. destruct (d_val cf 0 v) as [w o]. cbn [fst snd] in *.
  destruct o as [[]| | | |]; try (destruct H as (s' & -> & E); cbn [sthen]; rewrite E; reflexivity).
  destruct H as (t & n & -> & _). cbn [sthen].
  destruct (next_end (u ++ w) false t 0 n) as (s' & -> & E). rewrite E. reflexivity.
Qed.
End Dump.
