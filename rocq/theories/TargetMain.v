(** What an arbitrary target is given, and what the caller is told. *)
From Coq Require Import Lia ZifyBool ZifyNat ZifyN.
From Verif Require Import Base Stream Encoding Value Token FloatFmt Parser DumpText Feeds SpecGrammar SpecDump Serializer Target SpecTarget TargetProofs.
Open Scope N_scope.

Lemma text_app : forall ck a b, calls_text ck (a ++ b) = calls_text ck a ++ calls_text ck b.
Proof. intros ck a b. unfold calls_text. rewrite map_app, concat_app. reflexivity. Qed.
Lemma text_one : forall ck c, calls_text ck [c] = call_text ck c.
Proof. intros ck c. unfold calls_text. cbn. apply app_nil_r. Qed.

Section Any.
Context {T : Type}.
Variables (take : T -> call -> T * bool) (cf : scfg) (t0 : T).
Let ck := out_ck cf.

Lemma gets_snoc : forall t cs t1 c t2 b, gets take t cs t1 true -> take t1 c = (t2, b) -> gets take t (cs ++ [c]) t2 b.
Proof.
  intros t cs t1 c t2 b G. remember true as b0 eqn:E0. induction G as [t|t c0 t' H|t c0 t3 cs t' b0 H G IH]; intros Tc; cbn [app].
  - destruct b; [eapply gets_yes; [exact Tc|apply gets_nil]|apply gets_no; exact Tc].
  - discriminate.
  - eapply gets_yes; [exact H|]. apply IH; assumption.
Qed.

(** nothing refused so far; or something was, and the string is ahead *)
Definition over (o : tstream) (p : ostream) : Prop :=
  exists cs rest, gets take t0 cs (ts_buf o) false /\ os_units p = calls_text ck cs ++ rest.
Definition osim (o : tstream) (p : ostream) : Prop :=
  (exists cs, gets take t0 cs (ts_buf o) true /\ ts_fail o = os_fail p /\ os_units p = calls_text ck cs) \/ (ts_fail o = true /\ over o p).

Lemma over_grows : forall o p p', over o p -> grows p p' -> over o p'.
Proof. intros o p p' (cs & rest & G & E) [w E']. exists cs, (rest ++ w). split; [exact G|]. rewrite E', E, app_assoc. reflexivity. Qed.

Lemma osim_put : forall o p u, osim o p -> osim (ts_put take ck o u) (os_put ck p u).
Proof.
  intros o p u [(cs & G & F & E)|[F O]].
  - unfold ts_put, os_put. rewrite F. destruct (os_fail p) eqn:Fp; [left; exists cs; rewrite F, Fp; auto|].
    destruct (take (ts_buf o) (Put u)) as [t ok] eqn:Tk. pose proof (gets_snoc _ _ _ _ _ _ G Tk) as G'.
    assert (E' : os_units (if (Z.of_N u =? eof_int ck)%Z then mkOs (os_units p) true else mkOs (os_units p ++ [u]) false) = calls_text ck (cs ++ [Put u])).
    { rewrite text_app, text_one, <- E. cbn [call_text]. destruct (_ =? _)%Z; cbn [os_units]; [rewrite app_nil_r|]; reflexivity. }
    destruct ok.
    + left. exists (cs ++ [Put u]). split; [exact G'|]. split; [|exact E']. cbn [ts_fail negb orb]. destruct (_ =? _)%Z; reflexivity.
    + right. split; [reflexivity|]. exists (cs ++ [Put u]), []. split; [exact G'|]. rewrite app_nil_r. exact E'.
  - unfold ts_put. rewrite F. right. split; [exact F|]. eapply over_grows; [exact O|apply grows_put].
Qed.
Lemma osim_write : forall o p l, osim o p -> osim (ts_write take o l) (os_write p l).
Proof.
  intros o p l [(cs & G & F & E)|[F O]].
  - unfold ts_write, os_write. rewrite F. destruct (os_fail p) eqn:Fp; [left; exists cs; rewrite F, Fp; auto|].
    destruct (take (ts_buf o) (Write l)) as [t ok] eqn:Tk. pose proof (gets_snoc _ _ _ _ _ _ G Tk) as G'.
    assert (E' : os_units p ++ l = calls_text ck (cs ++ [Write l])) by (rewrite text_app, text_one, <- E; reflexivity).
    destruct ok.
    + left. exists (cs ++ [Write l]). split; [exact G'|]. split; [reflexivity|exact E'].
    + right. split; [reflexivity|]. exists (cs ++ [Write l]), []. split; [exact G'|]. rewrite app_nil_r. exact E'.
  - unfold ts_write. rewrite F. right. split; [exact F|]. eapply over_grows; [exact O|apply grows_write].
Qed.
Lemma osim_setfail : forall o p, osim o p -> osim (ts_setfail o) (os_setfail p).
Proof.
  intros o p [(cs & G & F & E)|[F O]].
  - left. exists cs. split; [exact G|]. split; [reflexivity|exact E].
  - right. split; [reflexivity|]. destruct O as (cs & rest & G & E). exists cs, rest. auto.
Qed.
Lemma osim_start : osim (mkTs t0 false) (mkOs [] false).
Proof. left. exists []. split; [apply gets_nil|]. split; reflexivity. Qed.

Lemma chars_any : forall fuel i cur g s, I osim g s -> rsim osim over (t_put_chars take cf fuel i cur g) (put_chars cf fuel i cur s).
Proof.
  induction fuel as [|fuel IH]; intros i cur g s H; cbn [t_put_chars put_chars]; [apply rsim_stop; exact H|].
  destruct (decode (val_enc cf) (val_ck cf) i cur) as [[ok cp] i']. destruct (negb ok); [apply rsim_ret; exact H|].
  destruct (negb (is_good i')); [apply rsim_stop; exact H|]. destruct (short_escape cp) as [e|].
  - apply IH. apply I_write; [exact osim_write|exact H].
  - destruct H as [Sm Jo]. pose proof (J_default take cf osim osim_put osim_write osim_setfail cp _ _ Jo) as J'.
    set (o' := t_put_default take cf cp (t_os g)) in *. set (p' := put_default cf cp (s_os s)) in *.
    cbn [t_set_os t_os set_os s_os]. destruct J' as [(cs & G & F & E)|[F O]].
    + rewrite F. destruct (os_fail p') eqn:Fp.
      * apply rsim_stop. split; [exact Sm|]. left. exists cs. cbn. rewrite F, Fp. auto.
      * apply IH. split; [exact Sm|]. left. exists cs. cbn. rewrite F, Fp. auto.
    + rewrite F. right. cbn [fst snd]. split; [eexists; reflexivity|]. cbn [t_os t_set_os].
      destruct (os_fail p'); [exact O|]. eapply over_grows; [exact O|]. apply (grow_chars cf fuel i' cp (set_os s p')).
Qed.

Lemma run_any : forall v, rsim osim over (t_run take cf t0 v) (run cf v).
Proof.
  intros v. apply R_run.
  - exact osim_put.
  - exact osim_write.
  - exact over_grows.
  - apply Forall_forall. intros [x|f] _; [|exact Logic.I]. intros fuel cur g s H. apply chars_any. exact H.
  - exact osim_start.
Qed.

Lemma dump_any : forall h v, exists t cs b r m,
  t_dump_to take cf h t0 v = (t, (r, m)) /\ gets take t0 cs t b /\
  let '(out, rm) := dump_to cf h (mkOs [] false) v in
  if b then calls_text ck cs = out /\ (r, m) = rm
  else (exists rest, out = calls_text ck cs ++ rest) /\ ((r, m) = rm \/ exists x, cannot_encode x /\ (r, m) = handle h x).
Proof.
  intros h v. pose proof (run_any v) as R. unfold t_dump_to, dump_to.
  change (tthen _ _) with (t_run take cf t0 v). change (sthen _ _) with (run cf v).
  destruct (t_run take cf t0 v) as [g r]. destruct (run cf v) as [s r']. unfold rsim in R. cbn [fst snd] in R. destruct R as [[[_ [(cs & G & _ & E)|[_ (cs & rest & G & E)]]] ->]|[Ce (cs & rest & G & E)]].
  - destruct (handle h r') as [r1 m] eqn:Hh. exists (ts_buf (t_os g)), cs, true, r1, m. rewrite E. auto.
  - destruct (handle h r') as [r1 m] eqn:Hh. exists (ts_buf (t_os g)), cs, false, r1, m. split; [reflexivity|]. split; [exact G|]. split; [exists rest; exact E|auto].
  - destruct (handle h r) as [r1 m] eqn:Hh. exists (ts_buf (t_os g)), cs, false, r1, m. split; [reflexivity|]. split; [exact G|].
    destruct (handle h r') as [r2 m2]. split; [exists rest; exact E|]. right. exists r. auto.
Qed.

(** ** Strings without a character that is checked *)
Lemma short_esc : forall c, c <> 47 -> (exists e, short e c) -> exists e, short_escape c = Some e.
Proof. intros c N [e S]. destruct S; try congruence; eexists; reflexivity. Qed.
Lemma no_short_esc : forall c, (c = 47 \/ forall e, ~ short e c) -> short_escape c = None.
Proof.
  intros c H. unfold short_escape. repeat match goal with |- context [c =? ?k] => destruct (N.eqb_spec c k) as [->|] end; try reflexivity;
    exfalso; (destruct H as [H|H]; [discriminate H|]); eapply H; constructor.
Qed.

Lemma chars_quiet : forall (J E : tstream -> ostream -> Prop), (forall o p l, J o p -> J (ts_write take o l) (os_write p l)) ->
  forall i cps t, feeds (val_enc cf) (val_ck cf) i cps t -> Forall (fun c => c <> 47 /\ exists e, short e c) cps ->
  forall fuel cur g s, I J g s -> rsim J E (t_put_chars take cf fuel i cur g) (put_chars cf fuel i cur s).
Proof.
  intros J E HW i cps t F. induction F as [i i' H|i c i' H G|i c i' l t H G F IH]; intros Q fuel cur g s HI;
    (destruct fuel as [|fuel]; cbn [t_put_chars put_chars]; [apply rsim_stop; exact HI|]).
  - destruct (H cur) as [x ->]. apply rsim_ret. exact HI.
  - rewrite (H cur). cbn [negb]. rewrite G. cbn [negb]. apply rsim_stop. exact HI.
  - rewrite (H cur). cbn [negb]. rewrite G. cbn [negb]. inversion Q as [|x y [Q1 Q2] Q3]; subst.
    destruct (short_esc c Q1 Q2) as [e ->]. apply IH; [exact Q3|]. apply I_write; assumption.
Qed.

Definition quiet_leaf (l : leaf) : Prop := match l with LStr x => quiet cf x | LFloat _ => True end.
Lemma dump_quiet : forall h v, (forall x, In (LStr x) (leaves v) -> quiet cf x) -> snd (t_dump_to take cf h t0 v) = snd (dump_to cf h (mkOs [] false) v).
Proof.
  intros h v Q.
  assert (R : rsim osim (fun _ _ => False) (t_run take cf t0 v) (run cf v)).
  { apply R_run; try exact osim_put; try exact osim_write; try exact osim_setfail; try exact osim_start; [intros; assumption|].
    apply Forall_forall. intros [x|f] X; [|exact Logic.I]. intros fuel cur g s H. destruct (Q x X) as (cps & t & F & Fa).
    apply (chars_quiet osim _ osim_write _ _ _ F Fa). exact H. }
  unfold t_dump_to, dump_to. change (tthen _ _) with (t_run take cf t0 v). change (sthen _ _) with (run cf v).
  destruct (t_run take cf t0 v) as [g r]. destruct (run cf v) as [s r']. cbn. unfold rsim in R. cbn [fst snd] in R. destruct R as [[_ ->]|[_ []]]. reflexivity.
Qed.
End Any.

(** ** After a refusal *)
Section Failed.
Context {T : Type}.
Variables (take : T -> call -> T * bool) (cf : scfg).
Definition broken : tstream (T := T) -> ostream -> Prop := fun o _ => ts_fail o = true.
Definition whatever : tstream (T := T) -> ostream -> Prop := fun _ _ => True.

Lemma broken_put : forall o p u, broken o p -> broken (ts_put take (out_ck cf) o u) (os_put (out_ck cf) p u).
Proof. unfold broken. intros o p u H. unfold ts_put. rewrite H. exact H. Qed.
Lemma broken_write : forall o p l, broken o p -> broken (ts_write take o l) (os_write p l).
Proof. unfold broken. intros o p l H. unfold ts_write. rewrite H. exact H. Qed.
Lemma broken_setfail : forall o p, broken o p -> broken (ts_setfail o) (os_setfail p).
Proof. reflexivity. Qed.

Lemma chars_broken : forall fuel i cur g s, I broken g s -> rsim broken whatever (t_put_chars take cf fuel i cur g) (put_chars cf fuel i cur s).
Proof.
  induction fuel as [|fuel IH]; intros i cur g s H; cbn [t_put_chars put_chars]; [apply rsim_stop; exact H|].
  destruct (decode (val_enc cf) (val_ck cf) i cur) as [[ok cp] i']. destruct (negb ok); [apply rsim_ret; exact H|].
  destruct (negb (is_good i')); [apply rsim_stop; exact H|]. destruct (short_escape cp) as [e|].
  - apply IH. apply I_write; [exact broken_write|exact H].
  - destruct H as [Sm Jo]. pose proof (J_default take cf broken broken_put broken_write broken_setfail cp _ (s_os s) Jo) as J'.
    cbn [t_set_os t_os]. rewrite J'. right. split; [eexists; reflexivity|exact Logic.I].
Qed.
Lemma dump_broken : forall v g s, I broken g s -> rsim broken whatever (t_do_dump take cf v g) (do_dump cf v s).
Proof.
  intros v g s H. apply R_dump; try exact broken_put; try exact broken_write; try exact broken_setfail; [exact (fun _ _ _ _ _ => Logic.I)| |exact H].
  apply Forall_forall. intros [x|f] _; [|exact Logic.I]. intros fuel cur g1 s1 H1. apply chars_broken. exact H1.
Qed.

(** a string with a character that is checked *)
Lemma chars_loud : forall i cps t, feeds (val_enc cf) (val_ck cf) i cps t -> forall c, In c cps -> (c = 47 \/ forall e, ~ short e c) ->
  forall fuel cur g s, (length cps < fuel)%nat -> I broken g s -> cannot_encode (snd (t_put_chars take cf fuel i cur g)).
Proof.
  intros i cps t F. induction F as [i i' H|i c i' H G|i c i' l t H G F IH]; intros c0 In0 L0 fuel cur g s Lf HI.
  - destruct In0.
  - destruct In0.
  - destruct fuel as [|fuel]; [cbn in Lf; lia|]. cbn [t_put_chars]. rewrite (H cur). cbn [negb]. rewrite G. cbn [negb].
    destruct (short_escape c) as [e|] eqn:Se.
    + destruct In0 as [->|In0]; [rewrite (no_short_esc _ L0) in Se; discriminate|].
      eapply (IH c0 In0 L0 fuel c _ (output [c_bslash; e] s)); [cbn in Lf; lia|]. apply I_write; [exact broken_write|exact HI].
    + destruct HI as [Sm Jo]. pose proof (J_default take cf broken broken_put broken_write broken_setfail c _ (s_os s) Jo) as J'.
      cbn [t_set_os t_os]. rewrite J'. eexists. reflexivity.
Qed.
Lemma string_loud : forall x g s, loud cf x -> I broken g s -> cannot_encode (snd (t_put_string take cf x g)).
Proof.
  intros x g s (cps & t & c & F & Ic & L) H. unfold t_put_string.
  assert (Ln : (length cps < fuel_for x)%nat).
  { destruct (feeds_string (val_enc cf) (val_ck cf) x) as (l & t1 & F1 & Le). change (sis x) with (is_open (IStr x)) in F1.
    destruct (feeds_det _ _ _ _ _ F _ _ F1) as [-> _]. unfold fuel_for. lia. }
  pose proof (chars_loud _ _ _ F c Ic L (fuel_for x) 0 _ _ Ln (I_put take cf broken broken_put _ _ c_quote H)) as E.
  destruct (t_put_chars take cf (fuel_for x) (is_open (IStr x)) 0 (t_output1 take cf c_quote g)) as [g1 r1]. cbn [snd] in E. destruct E as [c0 ->]. eexists. reflexivity.
Qed.

Definition has_loud (l : list leaf) : Prop := exists x, In (LStr x) l /\ loud cf x.
Lemma loud_app : forall a b, has_loud (a ++ b) -> has_loud a \/ has_loud b.
Proof. intros a b (x & Ix & L). apply in_app_or in Ix. destruct Ix as [Ix|Ix]; [left|right]; exists x; auto. Qed.

(** the run fails in the second part, or already in the first *)
Lemma then_loud : forall X Y k k', rsim broken whatever X Y -> snd (sthen Y k') = Ret tt ->
  (forall g s, I broken g s -> snd (k' s) = Ret tt -> cannot_encode (snd (k g))) -> cannot_encode (snd (tthen X k)).
Proof.
  intros [g r] [s r'] k k' [[H R]|[R H]] Y K; cbn [fst snd] in *.
  - subst r'. destruct r as [[]| | | |]; try discriminate Y. cbn [tthen sthen] in *. eapply K; eassumption.
  - destruct R as [c0 ->]. eexists. reflexivity.
Qed.
Lemma fst_loud : forall (X : tres (T := T)) k, cannot_encode (snd X) -> cannot_encode (snd (tthen X k)).
Proof. intros [g r] k [c0 E]. cbn [snd] in E. subst r. eexists. reflexivity. Qed.
Lemma then_ret : forall Y k, snd (sthen Y k) = Ret tt -> snd Y = Ret tt.
Proof. intros [s r] k H. destruct r as [[]| | | |]; try discriminate H. reflexivity. Qed.
Lemma next_broken : forall t g s, I broken g s -> rsim broken whatever (t_next take cf t g) (next cf t s).
Proof. intros. apply R_next; try exact broken_put; try exact broken_write; [exact (fun _ _ _ _ _ => Logic.I)|assumption]. Qed.
Lemma string_broken : forall x g s, I broken g s -> rsim broken whatever (t_put_string take cf x g) (put_string cf x s).
Proof. intros x g s H. apply R_string; try exact broken_put; [exact (fun _ _ _ _ _ => Logic.I)| |exact H]. intros fuel cur g1 s1 H1. apply chars_broken. exact H1. Qed.

Definition tells (v : value) : Prop := forall g s, has_loud (leaves v) -> I broken g s -> snd (do_dump cf v s) = Ret tt -> cannot_encode (snd (t_do_dump take cf v g)).

Lemma arr_loud : forall l, Forall tells l -> has_loud (concat (map leaves l)) -> forall g s, I broken g s ->
  snd (arr_loop cf l s) = Ret tt -> cannot_encode (snd (t_arr_loop take cf l g)).
Proof.
  intros l F. induction F as [|v l Hv F IH]; intros L g s H; cbn [t_arr_loop arr_loop]; [destruct L as (x & [] & _)|]. fold (t_arr_loop take cf) (arr_loop cf).
  intros Y. cbn [map concat] in L. apply loud_app in L. destruct L as [L|L].
  - apply fst_loud. eapply Hv; [exact L|exact H|]. eapply then_ret. exact Y.
  - eapply then_loud; [apply dump_broken; exact H|exact Y|]. clear Y. intros g1 s1 H1 Y. cbv beta in Y |- *. destruct l; [destruct L as (x & [] & _)|].
    eapply then_loud; [apply next_broken; exact H1|exact Y|]. intros g2 s2 H2 Y2. eapply IH; [exact L|exact H2|exact Y2].
Qed.
Lemma obj_loud : forall m, Forall (fun p => tells (snd p)) m -> has_loud (concat (map (fun p => LStr (fst p) :: leaves (snd p)) m)) -> forall g s, I broken g s ->
  snd (obj_loop cf m s) = Ret tt -> cannot_encode (snd (t_obj_loop take cf m g)).
Proof.
  intros l F. induction F as [|[k v] l Hv F IH]; intros L g s H; cbn [t_obj_loop obj_loop]; [destruct L as (x & [] & _)|]. fold (t_obj_loop take cf) (obj_loop cf).
  intros Y. cbn [map concat fst snd] in L, Hv. eapply then_loud; [apply next_broken; exact H|exact Y|]. clear Y. intros g1 s1 H1 Y. cbv beta in Y |- *.
  destruct L as (x & [Ex|Ix] & L).
  - injection Ex as ->. apply fst_loud. eapply string_loud; [exact L|exact H1].
  - assert (L' : has_loud (leaves v ++ concat (map (fun p => LStr (fst p) :: leaves (snd p)) l))) by (exists x; auto). clear x Ix L.
    eapply then_loud; [apply string_broken; exact H1|exact Y|]. clear Y. intros g2 s2 H2 Y. cbv beta in Y |- *.
    eapply then_loud; [apply next_broken; exact H2|exact Y|]. clear Y. intros g3 s3 H3 Y. cbv beta in Y |- *.
    apply loud_app in L'. destruct L' as [L|L].
    + apply fst_loud. eapply Hv; [exact L|exact H3|]. eapply then_ret. exact Y.
    + eapply then_loud; [apply dump_broken; exact H3|exact Y|]. clear Y. intros g4 s4 H4 Y. cbv beta in Y |- *. destruct l; [destruct L as (x & [] & _)|].
      eapply then_loud; [apply next_broken; exact H4|exact Y|]. intros g5 s5 H5 Y5. eapply IH; [exact L|exact H5|exact Y5].
Qed.
Lemma dump_loud : forall v, tells v.
Proof.
  assert (No : forall g s (r r' : tres (T := T)), has_loud [] -> I broken g s -> r = r').
  { intros g s r r' (x & [] & _). }
  apply value_rect2.
  - intros g s (x & [] & _).
  - intros z g s (x & [] & _).
  - intros f g s (x & [X|[]] & _). discriminate.
  - intros x g s (y & [X|[]] & L) H Y. injection X as ->. cbn [t_do_dump do_dump] in *. eapply then_loud; [apply next_broken; exact H|exact Y|].
    intros g1 s1 H1 _. eapply string_loud; eassumption.
  - intros b g s (x & [] & _).
  - intros l F g s L H Y. cbn [t_do_dump do_dump leaves] in *. fold (t_arr_loop take cf). change (fix elems (l : list value) (s : sst) : sres := _) with (arr_loop cf) in Y.
    eapply then_loud; [apply next_broken; exact H|exact Y|]. clear Y. intros g1 s1 H1 Y. cbv beta in Y |- *. destruct l as [|v l]; [destruct L as (x & [] & _)|].
    apply fst_loud. eapply arr_loud; [exact F|exact L|exact H1|]. eapply then_ret. exact Y.
  - intros l F g s L H Y. cbn [t_do_dump do_dump leaves] in *. fold (t_obj_loop take cf).
    eapply then_loud; [apply next_broken; exact H|exact Y|]. clear Y. intros g1 s1 H1 Y. cbv beta in Y |- *. destruct l as [|v l]; [destruct L as (x & [] & _)|].
    apply fst_loud. eapply obj_loud; [exact F|exact L|exact H1|]. eapply then_ret. exact Y.
Qed.

(** *** A target that refuses the first call *)
Variable t0 : T.
Hypothesis No : forall u, snd (take t0 (Put u)) = false.
Definition fresh : tstream (T := T) -> ostream -> Prop := fun o _ => o = mkTs t0 false.

Lemma fresh_put : forall ck u, ts_fail (ts_put take ck (mkTs t0 false) u) = true.
Proof. intros ck u. unfold ts_put. cbn [ts_fail ts_buf]. pose proof (No u) as N. destruct (take t0 (Put u)) as [t ok]. cbn in *. subst ok. reflexivity. Qed.

Definition at_start (t : token) : tres (T := T) := t_next take cf t (t_init cf t0).
Lemma start_string : fst (at_start Tstring) = t_set_last (t_init cf t0) Tstring /\ snd (at_start Tstring) = Ret tt.
Proof.
  unfold at_start, t_next, t_output_indent. cbn [t_init t_began t_last t_depth starts_value]. change (0 <? 0) with false. rewrite !andb_false_r.
  destruct (s_pretty cf); cbn [andb tthen tret token_eqb negb]; split; reflexivity.
Qed.
Lemma start_open : forall t, t = Tbegin_arr \/ t = Tbegin_obj -> ts_fail (t_os (fst (at_start t))) = true.
Proof.
  intros t Ht. unfold at_start, t_next, t_output_indent. cbn [t_init t_began t_last t_depth]. change (0 <? 0) with false. rewrite !andb_false_r.
  destruct Ht as [-> | ->]; destruct (s_pretty cf); cbn [andb tthen tret token_eqb negb starts_value]; cbn [fst t_set_last t_os];
    unfold t_ind_inc, t_ind_reserve; (destruct (s_ichar cf =? 0); [|destruct (_ <? _)]);
    first [exact (fresh_put (out_ck cf) c_lbrack)|exact (fresh_put (out_ck cf) c_lbrace)].
Qed.

Lemma start_broken : forall t, t = Tbegin_arr \/ t = Tbegin_obj ->
  rsim broken whatever (t_next take cf t (t_init cf t0)) (next cf t (init_sst cf (mkOs [] false))).
Proof.
  intros t Ht. assert (R : rsim whatever whatever (t_next take cf t (t_init cf t0)) (next cf t (init_sst cf (mkOs [] false)))).
  { apply R_next; try exact (fun _ _ _ _ => Logic.I); try exact (fun _ _ _ _ _ => Logic.I). split; [repeat split|exact Logic.I]. }
  pose proof (start_open t Ht) as F. unfold at_start in F. destruct R as [[[Sm _] E]|[E _]]; [left|right]; (split; [|assumption || exact Logic.I || idtac]).
  - split; [exact Sm|exact F].
  - exact E.
Qed.

Lemma first_refused : forall v, has_loud (leaves v) -> snd (run cf v) = Ret tt -> cannot_encode (snd (t_run take cf t0 v)).
Proof.
  intros v L Y. unfold run, t_run in *. apply fst_loud. apply then_ret in Y. destruct v as [|z|f|x|l|m|b].
  - destruct L as (y & [] & _).
  - destruct L as (y & [] & _).
  - destruct L as (y & [X|[]] & _). discriminate.
  - destruct L as (y & [X|[]] & (cps & t & c & F & Ic & L)). injection X as ->. cbn [t_do_dump].
    destruct start_string as [E1 E2]. unfold at_start in E1, E2. destruct (t_next take cf Tstring (t_init cf t0)) as [g r]. cbn [fst snd] in *. subst g r. cbn [tthen].
    unfold t_put_string. apply fst_loud.
    assert (Ln : (length cps < fuel_for y)%nat).
    { destruct (feeds_string (val_enc cf) (val_ck cf) y) as (l & t1 & F1 & Le). change (sis y) with (is_open (IStr y)) in F1.
      destruct (feeds_det _ _ _ _ _ F _ _ F1) as [-> _]. unfold fuel_for. lia. }
    set (g0 := t_output1 take cf c_quote (t_set_last (t_init cf t0) Tstring)).
    eapply (chars_loud _ _ _ F c Ic L _ _ g0 (mkS (mkOs [] false) (t_began g0) (t_last g0) (t_depth g0) (t_ilen g0)) Ln).
    split; [repeat split|]. exact (fresh_put (out_ck cf) c_quote).
  - cbn [t_do_dump do_dump leaves] in *. fold (t_arr_loop take cf). change (fix elems (l : list value) (s : sst) : sres := _) with (arr_loop cf) in Y.
    eapply then_loud; [apply start_broken; auto|exact Y|]. clear Y. intros g1 s1 H1 Y. cbv beta in Y |- *. destruct l as [|v l]; [destruct L as (x & [] & _)|].
    apply fst_loud. eapply arr_loud; [|exact L|exact H1|eapply then_ret; exact Y]. apply Forall_forall. intros. apply dump_loud.
  - cbn [t_do_dump do_dump leaves] in *. fold (t_obj_loop take cf).
    eapply then_loud; [apply start_broken; auto|exact Y|]. clear Y. intros g1 s1 H1 Y. cbv beta in Y |- *. destruct m as [|v l]; [destruct L as (x & [] & _)|].
    apply fst_loud. eapply obj_loud; [|exact L|exact H1|eapply then_ret; exact Y]. apply Forall_forall. intros. apply dump_loud.
  - destruct L as (y & [] & _).
Qed.
End Failed.

(** ** In terms of dump_string *)
Section Told.
Context {T : Type}.
Variables (take : T -> call -> T * bool) (cf : scfg).

Lemma dump_run : forall v w, dump_string cf v = Ret w -> snd (run cf v) = Ret tt.
Proof.
  intros v w H. unfold dump_string, dump_to in H. change (sthen _ _) with (run cf v) in H. destruct (run cf v) as [s [[]| | | |]]; try discriminate H. reflexivity.
Qed.
Lemma refused_loud : forall t0 v w, (forall u, snd (take t0 (Put u)) = false) -> dump_string cf v = Ret w ->
  (exists x, In (LStr x) (leaves v) /\ loud cf x) -> cannot_encode (fst (snd (t_dump_to take cf HNone t0 v))).
Proof.
  intros t0 v w No D L. apply dump_run in D. pose proof (first_refused take cf t0 No v L D) as R. unfold t_dump_to.
  change (tthen _ _) with (t_run take cf t0 v). destruct (t_run take cf t0 v) as [g r]. cbn [snd] in *. destruct R as [c0 ->]. exists c0. reflexivity.
Qed.
Lemma told_quiet : forall t0 v w, dump_string cf v = Ret w -> (forall x, In (LStr x) (leaves v) -> quiet cf x) -> fst (snd (t_dump_to take cf HNone t0 v)) = Ret tt.
Proof.
  intros t0 v w D Q. rewrite (dump_quiet take cf t0 HNone v Q). apply dump_run in D. unfold dump_to. change (sthen _ _) with (run cf v).
  destruct (run cf v) as [s r]. cbn [snd] in *. subst r. reflexivity.
Qed.

(** a target that never refuses *)
Lemma gets_all : forall t cs t' b, (forall t c, snd (take t c) = true) -> gets take t cs t' b -> b = true.
Proof. intros t cs t' b A G. induction G as [t|t c t' H|t c t1 cs t' b H G IH]; [reflexivity| |exact IH]. specialize (A t c). rewrite H in A. discriminate. Qed.
End Told.

Lemma adapter_all : forall ck t c, snd (adapter_take ck t c) = true.
Proof. intros ck t c. destruct c as [x|l]; [|reflexivity]. cbn [adapter_take]. match goal with |- snd (if ?b then _ else _) = _ => destruct b end; reflexivity. Qed.
Lemma adapter_gets : forall ck t cs t' b, ck <> C16 -> gets (adapter_take ck) t cs t' b -> t' = t ++ calls_text ck cs.
Proof.
  intros ck t cs t' b N G.
  assert (A : forall t c, fst (adapter_take ck t c) = t ++ call_text ck c).
  { intros u c. destruct c as [x|l]; [|reflexivity]. cbn [adapter_take call_text]. destruct ck; try congruence; destruct (_ =? _)%Z; cbn; rewrite ?app_nil_r; reflexivity. }
  assert (B : forall t c, snd (adapter_take ck t c) = true).
  { intros u c. apply adapter_all. }
  induction G as [t|t c t' H|t c t1 cs t' b H G IH].
  - rewrite app_nil_r. reflexivity.
  - specialize (B t c). rewrite H in B. discriminate.
  - rewrite IH. specialize (A t c). rewrite H in A. cbn in A. rewrite A. unfold calls_text. cbn [map concat]. rewrite app_assoc. reflexivity.
Qed.
Lemma dump_adapter : forall cf h t0 v, out_ck cf <> C16 ->
  t_dump_to (adapter_take (out_ck cf)) cf h t0 v = let '(w, r) := dump_to cf h (mkOs [] false) v in (t0 ++ w, r).
Proof.
  intros cf h t0 v N. destruct (dump_any (adapter_take (out_ck cf)) cf t0 h v) as (t & cs & b & r & m & E & G & D). rewrite E.
  assert (b = true) as ->.
  { eapply gets_all; [|exact G]. apply adapter_all. }
  rewrite (adapter_gets _ _ _ _ _ N G). destruct (dump_to cf h (mkOs [] false) v) as [out rm]. destruct D as [<- <-]. reflexivity.
Qed.

(** limited room *)
Lemma limited_gets : forall ck w n cs t' b, (forall u, ~ In (Put u) cs \/ Z.of_N u <> eof_int ck) -> gets limited_take (w, n) cs t' b ->
  fst t' = w ++ firstn n (calls_text ck cs) /\ (b = true -> (length (calls_text ck cs) <= n)%nat) /\ (b = false -> (n < length (calls_text ck cs))%nat).
Proof.
  intros ck w n cs t' b. remember (w, n) as t eqn:Et. intros Ne G. revert w n Et Ne. induction G as [t|t c t' H|t c t1 cs t' b H G IH]; intros w n -> Ne.
  - cbn. rewrite firstn_nil, app_nil_r. split; [reflexivity|]. split; [lia|discriminate].
  - assert (Ec : call_text ck c = match c with Put u => [u] | Write l => l end).
    { destruct c as [u|l]; [|reflexivity]. cbn. destruct (Z.eqb_spec (Z.of_N u) (eof_int ck)); [|reflexivity]. destruct (Ne u) as [X|X]; [exfalso; apply X; left; reflexivity|contradiction]. }
    rewrite text_one, Ec. cbn [limited_take] in H. injection H as <- Hb. split; [reflexivity|]. split; [discriminate|]. intros _. apply Nat.leb_gt in Hb. exact Hb.
  - assert (Ec : call_text ck c = match c with Put u => [u] | Write l => l end).
    { destruct c as [u|l]; [|reflexivity]. cbn. destruct (Z.eqb_spec (Z.of_N u) (eof_int ck)); [|reflexivity]. destruct (Ne u) as [X|X]; [exfalso; apply X; left; reflexivity|contradiction]. }
    change (calls_text ck (c :: cs)) with (call_text ck c ++ calls_text ck cs). rewrite Ec. cbn [limited_take] in H. injection H as <- Hb. apply Nat.leb_le in Hb.
    set (l := match c with Put u => [u] | Write l => l end) in *.
    destruct (IH (w ++ firstn n l) (n - length l)%nat eq_refl) as (E1 & E2 & E3).
    { intros u. destruct (Ne u) as [X|X]; [left; intro Y; apply X; right; exact Y|right; exact X]. }
    rewrite E1, firstn_app, app_length. split; [rewrite app_assoc; reflexivity|]. split; intros B; [specialize (E2 B)|specialize (E3 B)]; lia.
Qed.

Lemma dump_limited : forall cf v n, out_ck cf = C8 ->
  let '(t, r) := t_dump_to limited_take cf HNone ([], n) v in
  let '(out, rm) := dump_to cf HNone (mkOs [] false) v in
  fst t = firstn n out /\ (if (length out <=? n)%nat then r = rm else r = rm \/ exists x, cannot_encode x /\ r = handle HNone x).
Proof.
  intros cf v n C. destruct (dump_any limited_take cf ([], n) HNone v) as (t & cs & b & r & m & E & G & D). rewrite E.
  destruct (dump_to cf HNone (mkOs [] false) v) as [out rm]. rewrite C in D.
  destruct (limited_gets C8 [] n cs t b) as (E1 & E2 & E3); [intros u; right; cbn; lia|exact G|]. cbn [app] in E1. destruct b.
  - destruct D as [<- <-]. split; [exact E1|]. rewrite (proj2 (Nat.leb_le _ _) (E2 eq_refl)). reflexivity.
  - destruct D as [[rest ->] D]. specialize (E3 eq_refl). rewrite E1, firstn_app. replace (n - length (calls_text C8 cs))%nat with 0%nat by lia. cbn [firstn]. rewrite app_nil_r.
    split; [reflexivity|]. rewrite (proj2 (Nat.leb_gt _ _)); [exact D|]. rewrite app_length. lia.
Qed.

(** the stream given to dump *)
Lemma dump_user : forall (T : Type) (take : T -> call -> T * bool) vck ock opts o v,
  t_dump take vck ock opts o v =
  let '(t, (r, _)) := t_dump_to take (ser_cfg vck ock (u_fmt o) opts) HNone (u_buf o) v in
  (mkU t (u_good o) (mkFmt 0 (f_fill (u_fmt o)) (f_prec (u_fmt o)) (f_ff (u_fmt o))), r).
Proof. reflexivity. Qed.

Lemma cfg_out : forall vck ock f opts, out_ck (ser_cfg vck ock f opts) = ock.
Proof.
  intros vck ock f opts. unfold ser_cfg, prepare. set (c0 := mkSc _ _ _ _ _ _ _ _ _ _).
  assert (E : out_ck (fold_left apply_opt opts c0) = ock).
  { change ock with (out_ck c0). generalize c0. induction opts as [|x l IH]; intros c; [reflexivity|]. cbn [fold_left]. rewrite IH. destruct x; reflexivity. }
  destruct (s_ff (fold_left apply_opt opts c0)); exact E.
Qed.
Lemma dump_stream : forall (T : Type) (take : T -> call -> T * bool) vck ock opts o v o' r, t_dump take vck ock opts o v = (o', r) ->
  u_good o' = u_good o /\ f_width (u_fmt o') = 0%Z /\ f_fill (u_fmt o') = f_fill (u_fmt o) /\ f_prec (u_fmt o') = f_prec (u_fmt o) /\ f_ff (u_fmt o') = f_ff (u_fmt o) /\
  exists cs b w rw m, dump_to (ser_cfg vck ock (u_fmt o) opts) HNone (mkOs [] false) v = (w, (rw, m)) /\
    gets take (u_buf o) cs (u_buf o') b /\
    (b = true -> calls_text ock cs = w /\ r = rw) /\
    (b = false -> (exists rest, w = calls_text ock cs ++ rest) /\ (r = rw \/ cannot_encode r)).
Proof.
  intros T take vck ock opts o v o' r H. rewrite dump_user in H.
  destruct (dump_any take (ser_cfg vck ock (u_fmt o) opts) (u_buf o) HNone v) as (t & cs & b & r1 & m & E & G & D). rewrite E in H. injection H as <- <-. cbn.
  repeat (split; [reflexivity|]). destruct (dump_to (ser_cfg vck ock (u_fmt o) opts) HNone (mkOs [] false) v) as [w [rw mw]] eqn:Ed.
  rewrite cfg_out in D. exists cs, b, w, rw, mw. split; [reflexivity|]. split; [exact G|]. destruct b.
  - destruct D as [Dw Dr]. injection Dr as -> ->. split; [auto|discriminate].
  - destruct D as [Dp Dr]. split; [discriminate|]. intros _. split; [exact Dp|]. destruct Dr as [Dr|(x & X & Dr)]; [injection Dr as -> ->; auto|]. unfold handle in Dr. assert (r1 = x) as -> by (destruct x; congruence). auto.
Qed.
