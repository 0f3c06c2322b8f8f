(** What the target gets and how the call ends when memory is refused. *)
From Coq Require Import Lia ZifyBool ZifyNat ZifyN.
From Verif Require Import Base Stream Encoding Value Token FloatFmt Message Parser DumpText Feeds SpecGrammar SpecDump Serializer Target SpecTarget TargetProofs TargetMain DumpMem DumpMemProofs SpecDumpMem.
Open Scope N_scope.

Section Ends.
Context {T : Type}.
Variables (take : T -> call -> T * bool) (deny : nat -> bool) (cf : scfg) (t0 : T).
Let ck := out_ck cf.
Notation dst := (dst (T := T)).
Notation dres := (dres (T := T)).
Notation osim := (osim take cf t0).
Notation over := (over take cf t0).
Notation I := (I osim).

Definition ahead (b : bool) (rest : list N) (o : tstream (T := T)) (p : ostream) : Prop :=
  exists cs, gets take t0 cs (ts_buf o) b /\ os_units p = calls_text ck cs ++ rest.
Definition dsim (X : dres) (Y : sres) : Prop :=
  (I (fst (fst X)) (fst Y) /\ snd X = snd Y) \/
  (exists b rest e, ahead b rest (t_os (fst (fst X))) (s_os (fst Y)) /\ snd X = Throw e /\ may_end b rest (snd Y) (snd X)).

Lemma osim_ahead : forall o p, osim o p -> exists b rest, ahead b rest o p /\ (b = true -> rest = []).
Proof.
  intros o p [(cs & G & _ & E)|[_ (cs & rest & G & E)]]; [exists true, []; split; [exists cs; rewrite app_nil_r; auto|reflexivity]|].
  exists false, rest. split; [exists cs; auto|discriminate].
Qed.
Lemma over_ahead : forall o p, over o p -> exists rest, ahead false rest o p.
Proof. intros o p (cs & rest & G & E). exists rest, cs. auto. Qed.
Lemma ahead_grows : forall b rest o p p', ahead b rest o p -> grows p p' -> exists w, ahead b (rest ++ w) o p'.
Proof. intros b rest o p p' (cs & G & E) [w E']. exists w, cs. split; [exact G|]. rewrite E', E, app_assoc. reflexivity. Qed.
Lemma clip_all : forall msg c, clip (with_code msg c) msg c.
Proof. intros. exists 6%nat. symmetry. apply pieces_code. Qed.

Lemma dsim_then : forall X Y k k', dsim X Y -> (forall g n s, I g s -> dsim (k (g, n)) (k' s)) -> (forall s, grow (k' s) s) ->
  dsim (dthen X k) (sthen Y k').
Proof.
  intros X [s r'] k k' H K G. destruct H as [[H R]|(b & rest & e & A & E & M)]; cbn [fst snd] in *.
  - subst r'. destruct X as [[g n] [[]| | | |]]; cbn [dthen sthen fst snd] in *; try (left; split; [exact H|reflexivity]). apply K. exact H.
  - assert (Q : dthen X k = X) by (destruct X as [[g n] r]; cbn [snd] in E; subst r; reflexivity). rewrite Q. right. rewrite E in *.
    destruct r' as [[]| | | |]; cbn [sthen fst snd]; try (exists b, rest, e; split; [exact A|]; split; [reflexivity|exact M]; fail).
    destruct (ahead_grows _ _ _ _ _ A (G s)) as [w A']. exists b, (rest ++ w), e. split; [exact A'|]. split; [reflexivity|]. inversion M; subst; econstructor; eassumption.
Qed.
Lemma dsim_ret : forall g n s, I g s -> dsim (dret (g, n)) (sret s).
Proof. intros g n s H. left. split; [exact H|reflexivity]. Qed.
Lemma dsim_quietly : forall f g n Y, rsim osim over (f g) Y -> dsim (quietly f (g, n)) Y.
Proof.
  intros f g n Y H. unfold quietly. cbn [fst snd]. destruct (f g) as [g' r]. destruct H as [[H R]|[[c R] H]]; cbn [fst snd] in *.
  - left. auto.
  - right. cbn [fst snd]. destruct (over_ahead _ _ H) as [rest A]. exists false, rest. eexists. split; [exact A|]. rewrite R. split; [reflexivity|]. eapply me_refused. apply clip_all.
Qed.
Lemma dsim_request : forall g n s, I g s -> dsim (request deny (g, n)) (sret s).
Proof.
  intros g n s H. unfold request. cbn [fst snd]. destruct (deny n); [right|left; split; [exact H|reflexivity]].
  destruct H as [_ H]. destruct (osim_ahead _ _ H) as (b & rest & A & _). exists b, rest, EAlloc. split; [exact A|]. split; [reflexivity|constructor].
Qed.
Lemma dsim_reserve : forall len g n s, I g s -> dsim (d_ind_reserve deny cf len (g, n)) (sret (ind_reserve cf len s)).
Proof.
  intros len g n s H. pose proof H as [(_ & _ & _ & N) _]. unfold d_ind_reserve. cbn [fst].
  destruct (s_ichar cf =? 0) eqn:E1; [replace (ind_reserve cf len s) with s by (unfold ind_reserve; rewrite E1; reflexivity); apply dsim_ret; exact H|].
  rewrite N. destruct (s_ilen s <? len) eqn:E2; [|replace (ind_reserve cf len s) with s by (unfold ind_reserve; rewrite E1, E2; reflexivity); apply dsim_ret; exact H].
  change (sret (ind_reserve cf len s)) with (sthen (sret s) (fun s => sret (ind_reserve cf len s))).
  apply dsim_then; [apply dsim_request; exact H| |].
  - intros g1 m s1 H1. apply dsim_ret. apply I_reserve. exact H1.
  - intros s1. unfold grow. cbn. rewrite grow_reserve. apply grows_refl.
Qed.
Lemma dsim_inc : forall g n s, I g s -> dsim (d_ind_inc deny cf (g, n)) (sret (ind_inc cf s)).
Proof.
  intros g n s [(B & L & D & N) H2]. unfold d_ind_inc, ind_inc. cbn [fst plainly snd]. rewrite D. apply dsim_reserve. split; [repeat split|]; assumption || reflexivity.
Qed.
Lemma dsim_indent_n : forall k g n s, I g s -> dsim (d_output_indent_n take deny cf k (g, n)) (output_indent_n cf k s).
Proof.
  intros k g n s H. unfold d_output_indent_n, output_indent_n. destruct (s_pretty cf); [|apply dsim_ret; exact H].
  change (ind_write cf k (ind_reserve cf k s)) with (sthen (sret (ind_reserve cf k s)) (ind_write cf k)).
  apply dsim_then; [apply dsim_reserve; exact H| |apply grow_ind_write].
  intros g1 m s1 H1. apply dsim_quietly. apply R_ind_write; [exact (osim_write take cf t0)|exact H1].
Qed.

Lemma dsim_next : forall t g n s, I g s -> dsim (d_next take deny cf t (g, n)) (next cf t s).
Proof.
  intros t g n s H. unfold d_next, next. cbn [fst]. set (s1 := if s_began s then _ else _).
  set (g1 := if t_began g then (if starts_value t then t_output_newline take cf (t_set_began g false) else t_set_began g false) else g).
  match goal with |- context [t_last (fst ?x)] => assert (E : x = (g1, n)) by (subst g1; destruct (t_began g); [destruct (starts_value t)|]; reflexivity); rewrite E end.
  cbn [fst]. clear E.
  assert (H1 : I g1 s1).
  { subst g1 s1. pose proof H as [(B & _) _]. rewrite B. destruct (s_began s); [|exact H]. destruct (starts_value t); [apply I_nl; [exact (osim_put take cf t0)|]|]; apply I_began; exact H. }
  clearbody g1 s1. clear g s H. pose proof H1 as [(_ & L & _) _]. rewrite L. apply dsim_then.
  - destruct (_ && _); [apply dsim_quietly, R_indent; [exact (osim_write take cf t0)|exact H1]|apply dsim_ret; exact H1].
  - clear g1 n s1 H1 L. intros g n s H. apply dsim_then.
    + destruct t; try (apply dsim_ret; exact H); try (apply dsim_ret, (I_write take osim (osim_write take cf t0)); exact H).
      * apply dsim_inc. apply I_began, I_put; [exact (osim_put take cf t0)|exact H].
      * apply dsim_then; [apply dsim_quietly, R_indent; [exact (osim_write take cf t0)|]; apply I_nl; [exact (osim_put take cf t0)|]; apply I_dec; exact H| |intros; apply grow_ret; cbn; gr].
        intros. apply dsim_ret, I_put; [exact (osim_put take cf t0)|assumption].
      * apply dsim_inc. apply I_began, I_put; [exact (osim_put take cf t0)|exact H].
      * apply dsim_then; [apply dsim_quietly, R_indent; [exact (osim_write take cf t0)|]; apply I_nl; [exact (osim_put take cf t0)|]; apply I_dec; exact H| |intros; apply grow_ret; cbn; gr].
        intros. apply dsim_ret, I_put; [exact (osim_put take cf t0)|assumption].
      * apply dsim_indent_n. apply I_put; [exact (osim_put take cf t0)|exact H].
      * apply dsim_ret. apply I_nl; [exact (osim_put take cf t0)|]. apply I_put; [exact (osim_put take cf t0)|exact H].
    + intros. apply dsim_ret, I_last. assumption.
    + intros. apply grows_refl.
  - intros s. apply grow_then.
    + destruct t; first
        [ apply grow_ret; rewrite grow_inc; cbn; gr; fail
        | apply grow_then; [eapply grows_trans; [|apply grow_indent]; apply (grow_nl cf (ind_dec s))|intros; apply grow_ret; cbn; gr]; fail
        | apply grow_ret; eapply grows_trans; [|apply grow_nl]; cbn; gr; fail
        | apply grow_ret; cbn; gr; fail
        | eapply grows_trans; [|apply grow_indent_n]; cbn; gr ].
    + intros. apply grows_refl.
Qed.

(** the message *)
Lemma piled_clip : forall l n, exists k, fst (piled deny l n) = String.concat "" (firstn k l).
Proof.
  induction l as [|x l IH]; intros n; cbn [piled]; [exists 0%nat; reflexivity|]. destruct (deny n); [exists 0%nat; reflexivity|].
  destruct (IH (S n)) as [k E]. destruct (piled deny l (S n)) as [m n']. cbn [fst] in *. exists (S k). rewrite E. cbn [firstn String.concat].
  destruct (firstn k l); cbn; [|reflexivity]. clear. induction x as [|a x IH]; cbn; [reflexivity|rewrite IH; reflexivity].
Qed.
Lemma fail_ends : forall msg c (g : tst (T := T)) n, exists n' r, d_fail deny msg c (g, n) = ((g, n'), r) /\ (r = Throw EAlloc \/ exists m, clip m msg c /\ r = Throw (ESer m)).
Proof.
  intros msg c g n. unfold d_fail, request. cbn [fst snd]. destruct (deny n); cbn [dthen snd fst]; [eexists _, _; split; [reflexivity|left; reflexivity]|].
  destruct (piled_clip (code_pieces msg c) (S n)) as [k E]. destruct (piled deny (code_pieces msg c) (S n)) as [m n']. cbn [fst] in E.
  destruct (deny n'); cbn [dthen snd fst]; [eexists _, _; split; [reflexivity|left; reflexivity]|].
  destruct (deny (S n')); cbn [dthen snd fst]; [eexists _, _; split; [reflexivity|left; reflexivity]|].
  eexists _, _. split; [reflexivity|]. right. exists m. split; [exists k; exact E|reflexivity].
Qed.

Lemma dsim_chars : forall fuel i cur g n s, I g s -> dsim (d_put_chars take deny cf fuel i cur (g, n)) (put_chars cf fuel i cur s).
Proof.
  induction fuel as [|fuel IH]; intros i cur g n s H; cbn [d_put_chars put_chars]; [left; split; [exact H|reflexivity]|].
  destruct (decode (val_enc cf) (val_ck cf) i cur) as [[ok cp] i']. destruct (negb ok); [apply dsim_ret; exact H|].
  destruct (negb (is_good i')).
  { destruct (fail_ends "unexpected character" cp g n) as (n' & r & -> & E). right. cbn [fst snd]. destruct H as [_ H].
    destruct (osim_ahead _ _ H) as (b & rest & A & W). exists b, rest. destruct E as [->|(m & C & ->)]; eexists; (split; [exact A|]); (split; [reflexivity|]); [constructor|].
    apply me_clip; [exact W|left; reflexivity|exact C]. }
  destruct (short_escape cp) as [e|].
  - apply IH. apply (I_write take osim (osim_write take cf t0)). exact H.
  - destruct H as [Sm Jo]. pose proof (J_default take cf osim (osim_put take cf t0) (osim_write take cf t0) (osim_setfail take cf t0) cp _ _ Jo) as J'.
    cbn [plainly fst snd]. set (o' := t_put_default take cf cp (t_os g)) in *. set (p' := put_default cf cp (s_os s)) in *.
    cbn [t_set_os t_os set_os s_os].
    assert (F : forall b rest Y, ahead b rest o' (s_os (fst Y)) -> (b = false \/ (rest = [] /\ snd Y = Throw (ESer (with_code "encoding failed with codepoint" cp)))) ->
              dsim (d_fail deny "encoding failed with codepoint" cp (t_set_os g o', n)) Y).
    { intros b rest Y A W. destruct (fail_ends "encoding failed with codepoint" cp (t_set_os g o') n) as (n' & r & -> & E). right. cbn [fst snd]. exists b, rest.
      destruct E as [->|(m & C & ->)]; eexists; (split; [exact A|]); (split; [reflexivity|]); [constructor|].
      destruct W as [->|[-> ->]]; [eapply me_refused; exact C|]. apply me_clip; [reflexivity|right; left; reflexivity|exact C]. }
    match goal with |- dsim _ ?Y => change (dsim (if ts_fail o' then d_fail deny "encoding failed with codepoint" cp (t_set_os g o', n)
      else d_put_chars take deny cf fuel i' cp (t_set_os g o', n)) Y) end.
    destruct J' as [(cs & G & Fl & E)|[Fl O]].
    + rewrite Fl. destruct (os_fail p') eqn:Fp.
      * apply (F true []). { exists cs. rewrite app_nil_r. auto. } right. split; reflexivity.
      * apply IH. split; [exact Sm|]. left. exists cs. cbn. rewrite Fl, Fp. auto.
    + rewrite Fl. apply over_ahead in O. destruct O as [rest O]. destruct (os_fail p'); [apply (F false rest); [exact O|left; reflexivity]|].
      destruct (ahead_grows _ _ _ _ _ O (grow_chars cf fuel i' cp (set_os s p'))) as [w A]. apply (F false (rest ++ w)); [exact A|left; reflexivity].
Qed.
Lemma dsim_string : forall x g n s, I g s -> dsim (d_put_string take deny cf x (g, n)) (put_string cf x s).
Proof.
  intros x g n s H. unfold d_put_string, put_string. apply dsim_then.
  - apply dsim_chars. apply I_put; [exact (osim_put take cf t0)|exact H].
  - intros. apply dsim_ret, I_put; [exact (osim_put take cf t0)|assumption].
  - intros. apply grow_ret. cbn. gr.
Qed.

Definition d_ok (v : value) : Prop := forall g n s, I g s -> dsim (d_do_dump take deny cf v (g, n)) (do_dump cf v s).
Lemma dsim_arr : forall l, Forall d_ok l -> forall g n s, I g s -> dsim (d_arr_loop take deny cf l (g, n)) (arr_loop cf l s).
Proof.
  intros l F. induction F as [|v l Hv F IH]; intros g n s H; cbn [d_arr_loop arr_loop]; [apply dsim_ret; exact H|]. fold (d_arr_loop take deny cf) (arr_loop cf).
  apply dsim_then; [apply Hv; exact H| |intros; apply grow_rest].
  intros g1 n1 s1 H1. destruct l; [apply dsim_ret; exact H1|]. apply dsim_then; [apply dsim_next; exact H1|exact IH|].
  intros. apply grow_arr. apply Forall_forall. intros. apply grow_dump.
Qed.
Lemma dsim_obj : forall m, Forall (fun p => d_ok (snd p)) m -> forall g n s, I g s -> dsim (d_obj_loop take deny cf m (g, n)) (obj_loop cf m s).
Proof.
  intros m F. induction F as [|[k v] m Hv F IH]; intros g n s H; cbn [d_obj_loop obj_loop]; [apply dsim_ret; exact H|]. fold (d_obj_loop take deny cf) (obj_loop cf).
  assert (Gr : forall s, grow (sthen (do_dump cf v s) (fun s => match m with [] => sret s | _ => sthen (next cf Tval_sep s) (fun s => obj_loop cf m s) end)) s).
  { intros. apply grow_then; [apply grow_dump|]. intros. apply grow_mrest. }
  apply dsim_then; [apply dsim_next; exact H| |intros; apply grow_then; [apply grow_string|intros; apply grow_then; [apply grow_next|exact Gr]]].
  intros g1 n1 s1 H1. apply dsim_then; [apply dsim_string; assumption| |intros; apply grow_then; [apply grow_next|exact Gr]].
  intros g2 n2 s2 H2. apply dsim_then; [apply dsim_next; exact H2| |exact Gr].
  intros g3 n3 s3 H3. apply dsim_then; [apply Hv; assumption| |intros; apply grow_mrest].
  intros g4 n4 s4 H4. destruct m; [apply dsim_ret; exact H4|]. apply dsim_then; [apply dsim_next; exact H4|exact IH|].
  intros. apply grow_obj. apply Forall_forall. intros. apply grow_dump.
Qed.
Lemma dsim_dump : forall v, d_ok v.
Proof.
  apply value_rect2.
  - intros g n s H. apply dsim_next. exact H.
  - intros z g n s H. cbn [d_do_dump do_dump]. apply dsim_then; [apply dsim_next; exact H| |intros; apply grow_ret; cbn; gr].
    intros. apply dsim_ret. apply (I_write take osim (osim_write take cf t0)). assumption.
  - intros f g n s H. cbn [d_do_dump do_dump]. apply dsim_then; [apply dsim_next; exact H| |apply grow_float].
    intros. apply dsim_quietly. apply R_float; [exact (osim_write take cf t0)|assumption].
  - intros x g n s H. cbn [d_do_dump do_dump]. apply dsim_then; [apply dsim_next; exact H|intros; apply dsim_string; assumption|apply grow_string].
  - intros [|] g n s H; apply dsim_next; exact H.
  - intros l F g n s H. cbn [d_do_dump do_dump]. fold (d_arr_loop take deny cf) (arr_loop cf).
    apply dsim_then; [apply dsim_next; exact H| |].
    + intros g1 n1 s1 H1. destruct l as [|v l]; [apply dsim_next; exact H1|]. apply dsim_then; [apply dsim_arr; assumption|intros; apply dsim_next; assumption|apply grow_next].
    + intros. destruct l as [|v l]; [apply grow_next|]. apply grow_then; [apply grow_arr; apply Forall_forall; intros; apply grow_dump|intros; apply grow_next].
  - intros m F g n s H. cbn [d_do_dump do_dump]. fold (d_obj_loop take deny cf) (obj_loop cf).
    apply dsim_then; [apply dsim_next; exact H| |].
    + intros g1 n1 s1 H1. destruct m as [|p m]; [apply dsim_next; exact H1|]. apply dsim_then; [apply dsim_obj; assumption|intros; apply dsim_next; assumption|apply grow_next].
    + intros. destruct m as [|p m]; [apply grow_next|]. apply grow_then; [apply grow_obj; apply Forall_forall; intros; apply grow_dump|intros; apply grow_next].
Qed.
Lemma dsim_run : forall n v, dsim (d_run take deny cf t0 n v) (run cf v).
Proof.
  intros n v. apply dsim_then; [apply dsim_dump; split; [repeat split|apply osim_start]|intros; apply dsim_next; assumption|apply grow_next].
Qed.

Lemma dump_ends : forall h n v, exists t n' cs b rest rm,
  d_dump_to take deny cf h t0 n v = ((t, n'), rm) /\ gets take t0 cs t b /\
  let '(out, (r0, _)) := dump_to cf HNone (mkOs [] false) v in
  out = calls_text (out_ck cf) cs ++ rest /\ may_say h b rest r0 rm.
Proof.
  intros h n v. pose proof (dsim_run n v) as R. unfold d_dump_to, dump_to. change (dthen _ _) with (d_run take deny cf t0 n v). change (sthen _ _) with (run cf v).
  destruct (d_run take deny cf t0 n v) as [[g n'] r]. destruct (run cf v) as [s r']. unfold dsim in R. cbn [fst snd] in R.
  assert (H : exists b rest, ahead b rest (t_os g) (s_os s) /\ may_end b rest r' r).
  { destruct R as [[[_ H] ->]|(b & rest & e & A & _ & M)]; [|exists b, rest; auto]. destruct (osim_ahead _ _ H) as (b & rest & A & W). exists b, rest. split; [exact A|constructor; exact W]. }
  destruct H as (b & rest & (cs & G & E) & M). exists (ts_buf (t_os g)), n', cs, b, rest, (d_handle deny h n' r). split; [reflexivity|]. split; [exact G|].
  replace (handle HNone r') with (r', ""%string) by (destruct r'; reflexivity). split; [exact E|].
  exists r. split; [exact M|]. unfold d_handle. destruct h; try (left; reflexivity). destruct r; try (left; reflexivity).
  destruct (is_configor_exn e && deny n'); [right|left; reflexivity]. split; [reflexivity|]. split; [reflexivity|]. exists e. reflexivity.
Qed.
End Ends.
