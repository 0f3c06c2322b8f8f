(** Main results about serializers that are used more than once. *)
From Coq Require Import Lia ZifyBool ZifyNat ZifyN Floats.SpecFloat.
From Verif Require Import Base Stream Encoding Value Token FloatFmt Message Parser EncodingProofs EncodingFacts Feeds SpecUnicode SpecGrammar
  SpecText SpecRfc TextFacts ObjFacts GrammarLex GrammarTok GrammarFacts NumberFacts Serializer DumpText DumpProofs SpecDump DumpFacts RoundTrip DumpFail
  RfcFacts DumpMore Wrapper Reuse SpecReuse ReuseParse ReuseDump.
Ltac Zify.zify_post_hook ::= Z.div_mod_to_equations.
Open Scope N_scope.

(** ** Leaves with their depths *)
Lemma deep_shift : forall v D e, deep (D + e) v = map (fun p => (D + fst p, snd p)) (deep e v).
Proof.
  apply (value_rect2 (fun v => forall D e, deep (D + e) v = map (fun p => (D + fst p, snd p)) (deep e v))); cbn [deep]; try reflexivity.
  - intros l F D e. rewrite concat_map, map_map. f_equal. rewrite <- N.add_assoc. induction F as [|v l Hv F IH]; [reflexivity|]. cbn [map]. rewrite Hv, IH. reflexivity.
  - intros m F D e. rewrite concat_map, map_map. f_equal. rewrite <- N.add_assoc. induction F as [|p m Hv F IH]; [reflexivity|]. cbn [map fst snd]. rewrite Hv, IH. reflexivity.
Qed.
Lemma deep_leaves : forall v d, map snd (deep d v) = leaves v.
Proof.
  apply (value_rect2 (fun v => forall d, map snd (deep d v) = leaves v)); cbn [deep leaves]; try reflexivity.
  - intros l F d. rewrite concat_map, map_map. f_equal. induction F as [|v l Hv F IH]; [reflexivity|]. cbn [map]. rewrite Hv, IH. reflexivity.
  - intros m F d. rewrite concat_map, map_map. f_equal. induction F as [|p m Hv F IH]; [reflexivity|].
    cbn [map fst snd]. rewrite Hv. f_equal. exact IH.
Qed.

Section Main.
Variable cf : scfg.
Hypothesis Hok : enc_ok (out_enc cf) (out_ck cf) = true.

(** ** A failed stream stays as it is *)
Definition dk (r : sres) (s : sst) : Prop := s_os (fst r) = s_os s.
Lemma dk_then : forall r k s, dk r s -> (forall s', s_os s' = s_os s -> dk (k s') s) -> dk (sthen r k) s.
Proof. intros [s1 [[]| | | |]] k s H K; unfold dk in *; cbn [sthen fst] in *; auto. Qed.
Lemma dk_ret : forall s' s, s_os s' = s_os s -> dk (sret s') s.
Proof. auto. Qed.

Section Dead.
Variable s0 : sst.
Hypothesis Dd : os_fail (s_os s0) = true.
Notation still s := (s_os s = s_os s0).

Lemma still_output : forall w s, still s -> still (output w s).
Proof. intros w s E. cbn [output set_os s_os]. rewrite E. unfold os_write. rewrite Dd. reflexivity. Qed.
Lemma still_output1 : forall c s, still s -> still (output1 cf c s).
Proof. intros c s E. cbn [output1 set_os s_os]. rewrite E. unfold os_put. rewrite Dd. reflexivity. Qed.
Lemma still_newline : forall s, still s -> still (output_newline cf s).
Proof. intros s E. unfold output_newline. destruct (s_pretty cf); [apply still_output1|]; assumption. Qed.
Lemma still_write : forall n s, still s -> dk (ind_write cf n s) s0.
Proof.
  intros n s E. unfold ind_write, dk. destruct (n <=? s_ilen s); [|destruct (n =? s_ilen s + 1)]; cbn [sret fst set_os s_os]; try assumption;
    rewrite E; unfold os_write; rewrite Dd; reflexivity.
Qed.
Lemma still_indent : forall s, still s -> dk (output_indent cf s) s0.
Proof.
  intros s E. unfold output_indent. destruct (s_pretty cf); [|exact E]. destruct (negb _ && _ && _); [apply still_write|]; assumption.
Qed.
Lemma still_reserve : forall n s, still s -> still (ind_reserve cf n s).
Proof. intros n s E. unfold ind_reserve. destruct (s_ichar cf =? 0); [assumption|]. destruct (s_ilen s <? n); assumption. Qed.
Lemma still_inc : forall s, still s -> still (ind_inc cf s).
Proof. intros s E. unfold ind_inc. apply still_reserve. assumption. Qed.

Lemma still_next : forall t s, still s -> dk (next cf t s) s0.
Proof.
  intros t s E. unfold next. cbv zeta. set (s1 := if s_began s then _ else s).
  assert (E1 : still s1).
  { unfold s1. destruct (s_began s); [|assumption]. destruct (starts_value t); [apply still_newline|]; assumption. }
  apply dk_then; [destruct (_ && _ && _); [apply still_indent|]; assumption|]. intros s2 E2.
  apply dk_then; [|intros; assumption].
  destruct t; try exact E2; try (apply still_output; assumption).
  - apply still_inc. apply still_output1. assumption.
  - apply dk_then; [apply still_indent, still_newline; assumption|]. intros. apply still_output1. assumption.
  - apply still_inc. apply still_output1. assumption.
  - apply dk_then; [apply still_indent, still_newline; assumption|]. intros. apply still_output1. assumption.
  - unfold output_indent_n. destruct (s_pretty cf); [apply still_write, still_reserve|]; apply still_output1; assumption.
  - apply still_newline, still_output1. assumption.
Qed.

Lemma still_string : forall x s, still s -> dk (put_string cf x s) s0.
Proof. intros x s E. destruct (dead_string cf Hok x s) as (s' & -> & O); [rewrite E; assumption|]. unfold dk. cbn [fst]. congruence. Qed.
Lemma still_float : forall f s, still s -> dk (put_float cf f s) s0.
Proof.
  intros f s E. unfold put_float, dk. destruct (f64_integral f).
  - destruct (f64_to_int64 f); cbn [sret fst]; try exact E. apply still_output, still_output. assumption.
  - apply still_output. assumption.
Qed.
Lemma still_dump : forall v s, still s -> dk (do_dump cf v s) s0.
Proof.
  apply (value_rect2 (fun v => forall s, still s -> dk (do_dump cf v s) s0)).
  - intros s E. apply still_next. assumption.
  - intros z s E. cbn [do_dump]. apply dk_then; [apply still_next; assumption|]. intros. apply still_output. assumption.
  - intros f s E. cbn [do_dump]. apply dk_then; [apply still_next; assumption|]. intros. apply still_float. assumption.
  - intros x s E. cbn [do_dump]. apply dk_then; [apply still_next; assumption|]. intros. apply still_string. assumption.
  - intros [] s E; apply still_next; assumption.
  - intros l F s E. cbn [do_dump]. fold (arr_loop cf). apply dk_then; [apply still_next; assumption|]. intros s1 E1.
    destruct l as [|v0 l0]; [apply still_next; assumption|]. set (l := v0 :: l0) in *. clearbody l.
    apply dk_then; [|intros; apply still_next; assumption]. clear s E. revert s1 E1.
    induction F as [|v l Hv F IH]; intros s E; [exact E|]. cbn [arr_loop]. apply dk_then; [apply Hv; assumption|]. intros s1 E1.
    destruct l as [|v1 l1]; [exact E1|]. apply dk_then; [apply still_next; assumption|]. intros. apply IH. assumption.
  - intros m F s E. cbn [do_dump]. fold (obj_loop cf). apply dk_then; [apply still_next; assumption|]. intros s1 E1.
    destruct m as [|v0 l0]; [apply still_next; assumption|]. set (m := v0 :: l0) in *. clearbody m.
    apply dk_then; [|intros; apply still_next; assumption]. clear s E. revert s1 E1.
    induction F as [|[k v] l Hv F IH]; intros s E; [exact E|]. cbn [obj_loop].
    apply dk_then; [apply still_next; assumption|]. intros s1 E1.
    apply dk_then; [apply still_string; assumption|]. intros s2 E2.
    apply dk_then; [apply still_next; assumption|]. intros s3 E3.
    apply dk_then; [apply Hv; assumption|]. intros s4 E4.
    destruct l as [|v1 l1]; [exact E4|]. apply dk_then; [apply still_next; assumption|]. intros. apply IH. assumption.
Qed.
End Dead.

Lemma again_still : forall h v s, os_fail (s_os s) = true -> s_os (fst (dump_again cf h v s)) = s_os s.
Proof.
  intros h v s D. unfold dump_again.
  assert (K : dk (do* s := do_dump cf v s in next cf Teoi s) s).
  { apply dk_then; [apply still_dump; auto|]. intros. apply still_next; auto. }
  destruct (do* s := do_dump cf v s in next cf Teoi s) as [s' o]. exact K.
Qed.

(** ** One call *)
Notation calm := (calm cf).
Lemma deep_outs : forall b v D, map (fun p => leaf_o cf b (snd p)) (deep D v) = map (leaf_o cf b) (leaves v).
Proof. intros. rewrite <- (deep_leaves v D), map_map. reflexivity. Qed.

Lemma again_track : forall b h v D s, calm D s -> os_fail (s_os s) = b ->
  snd (dump_again cf h v s) = handle h (first_out (map (leaf_o cf b) (leaves v))) /\
  match fdep cf b (deep D v) with
  | None => calm D (fst (dump_again cf h v s)) /\ os_fail (s_os (fst (dump_again cf h v s))) = b
  | Some d => calm d (fst (dump_again cf h v s))
  end.
Proof.
  intros b h v D s (S & _) F. destruct (track_all cf Hok b v D s S F) as [T1 T2]. rewrite deep_outs in T1. unfold dump_again.
  destruct (fdep cf b (deep D v)) as [d|] eqn:E.
  - destruct (do_dump cf v s) as [s1 o]. cbn [fst snd] in *.
    assert (o <> Ret tt) by (intro Q; rewrite Q, <- (deep_outs b v D) in T1; symmetry in T1; apply fdep_none in T1; congruence).
    rewrite <- T1. destruct o as [[]| | | |]; try congruence; cbn [sthen fst snd]; auto.
  - apply fdep_none in E. rewrite deep_outs in E. rewrite E in *. destruct (do_dump cf v s) as [s1 o]. cbn [fst snd] in *. subst o.
    destruct T2 as [(S1 & _) F1]. cbn [sthen]. destruct (went_end cf D s1 S1) as (s2 & -> & (S2 & B2 & L2 & F2) & _). cbn [fst snd].
    split; [reflexivity|]. split; [|congruence]. split; [assumption|]. split; [assumption|]. rewrite L2. discriminate.
Qed.

Lemma again_text : forall h v D s, calm D s -> os_fail (s_os s) = false ->
  os_units (s_os (fst (dump_again cf h v s))) = os_units (s_os s) ++ d_ind cf D ++ fst (d_val cf D v).
Proof.
  intros h v D s ((Sd & So) & B & L) F. destruct s as [[u f] bg t d n]. cbn [s_began s_os os_fail s_depth s_ilen s_last os_units] in *. subst bg f d.
  pose proof (dump_val cf Hok v u false t D n So) as R. unfold stt in R. unfold runs, dump_again in *.
  assert (Ld : lead cf false t D = d_ind cf D) by (unfold lead; destruct t; try reflexivity; congruence). rewrite Ld in R.
  destruct (d_val cf D v) as [w [[]| | | |]]; cbn [fst snd dthen txt] in *; [|destruct R as (s' & -> & E); exact E..].
  destruct R as (t1 & n1 & -> & O). cbn [sthen].
  match goal with |- context [next cf Teoi ?x] => destruct (went_end cf D x (conj eq_refl O)) as (s2 & -> & _ & E) end.
  cbn [fst]. exact E.
Qed.

Lemma calm_init : forall o, calm 0 (init_sst cf o).
Proof.
  intro o. split; [|split; [reflexivity|discriminate]]. split; [reflexivity|]. unfold okn, init_sst. cbn [s_ilen].
  destruct (N.eqb_spec (s_ichar cf) 0); split; intros; lia || contradiction.
Qed.

Lemma ind_zero : d_ind cf 0 = [].
Proof. unfold d_ind. destruct (s_pretty cf), (s_ichar cf =? 0); reflexivity. Qed.

(** ** Leaves that cannot be written *)
Lemma good_ret : forall x, leaf_out cf x = Ret tt <-> ~ bad_leaf cf x.
Proof.
  intro x. destruct (leaf_cases cf x) as [[A B]|[A B]]; [tauto|]. split; [|contradiction]. intro E. destruct x; [destruct B; congruence|congruence].
Qed.
Lemma first_good : forall (f : leaf -> outcome unit) (P : leaf -> Prop) l, (forall x, f x = Ret tt <-> P x) -> first_out (map f l) = Ret tt <-> Forall P l.
Proof.
  intros f P l H. induction l as [|x l IH]; [split; constructor|]. cbn [map]. rewrite first_cons. pose proof (H x) as Hx.
  destruct (f x) as [[]| | | |]; cbn [oseq]; [rewrite IH; split; [constructor; tauto|intro Q; inversion Q; assumption]|..];
    (split; [discriminate|]; intro Q; inversion Q; subst; apply Hx; assumption).
Qed.

Lemma fdep_bad : forall L d, fdep cf false L = Some d ->
  exists pre x post, L = pre ++ (d, x) :: post /\ Forall (fun p => ~ bad_leaf cf (snd p)) pre /\ bad_leaf cf x.
Proof.
  induction L as [|[e x] L IH]; intros d E; [discriminate|]. cbn [fdep leaf_o] in E. destruct (leaf_cases cf x) as [[A B]|[A B]].
  - rewrite A in E. destruct (IH d E) as (pre & y & post & -> & F & Y). exists ((e, x) :: pre), y, post. split; [reflexivity|]. split; [constructor; assumption|assumption].
  - exists [], x, L. assert (e = d) as ->; [|repeat split; auto]. destruct (leaf_out cf x) as [[]| | | |] eqn:Q; try congruence.
    apply good_ret in Q. contradiction.
Qed.

(** after any calls the serializer is calm at the depth they left open *)
Lemma calls_calm : forall h vs D s s' rs, calm D s -> dump_calls cf h vs s = (s', rs) -> ~ In UB rs -> os_fail (s_os s') = false ->
  exists e, left_open cf vs e /\ calm (D + e) s'.
Proof.
  intros h vs. induction vs as [|v vs IH]; intros D s s' rs C E U F; cbn [dump_calls] in E.
  - injection E as <- <-. exists 0. rewrite N.add_0_r. split; [constructor|assumption].
  - assert (F0 : os_fail (s_os s) = false).
    { destruct (os_fail (s_os s)) eqn:Q; [exfalso|reflexivity].
      assert (X : forall vs s s' rs, os_fail (s_os s) = true -> dump_calls cf h vs s = (s', rs) -> os_fail (s_os s') = true).
      { clear -Hok. induction vs as [|v vs IH]; intros s s' rs Q E; cbn [dump_calls] in E; [injection E as <- <-; assumption|].
        pose proof (again_still h v s Q) as Z. destruct (dump_again cf h v s) as [s1 [r m]]. cbn [fst] in Z. rewrite <- Z in Q.
        destruct r; try (injection E as <- <-; assumption);
          (destruct (dump_calls cf h vs s1) as [s2 rs2] eqn:E2; injection E as <- <-; exact (IH _ _ _ Q E2)). }
      rewrite (X (v :: vs) s s' rs Q E) in F. discriminate. }
    destruct (again_track false h v D s C F0) as [T1 T2]. destruct (dump_again cf h v s) as [s1 [r m]] eqn:Ea. cbn [fst snd] in *.
    assert (Go : exists rs', dump_calls cf h vs s1 = (s', rs') /\ rs = r :: rs').
    { destruct r; try solve [destruct (dump_calls cf h vs s1) as [s2 rs2]; injection E as <- <-; eauto]; injection E as <- <-.
      - assert (X : forall o, fst (handle h o) = Abort -> o = Abort) by (intros []; destruct h; cbn; try destruct (is_configor_exn _); cbn; congruence).
        pose proof (X _ (f_equal fst (eq_sym T1))) as Y. clear -Y. exfalso. induction (leaves v) as [|x l IH]; [discriminate|]. cbn [map] in Y.
        rewrite first_cons in Y. cbn [leaf_o] in Y. destruct (leaf_cases cf x) as [[A B]|[A B]]; [rewrite A in Y; auto|].
        destruct x; [destruct B as [? B]|]; rewrite B in Y; discriminate.
      - exfalso. apply U. left. reflexivity.
      - assert (X : forall o, fst (handle h o) = OutOfFuel -> o = OutOfFuel) by (intros []; destruct h; cbn; try destruct (is_configor_exn _); cbn; congruence).
        pose proof (X _ (f_equal fst (eq_sym T1))) as Y. clear -Y. exfalso. induction (leaves v) as [|x l IH]; [discriminate|]. cbn [map] in Y.
        rewrite first_cons in Y. cbn [leaf_o] in Y. destruct (leaf_cases cf x) as [[A B]|[A B]]; [rewrite A in Y; auto|].
        destruct x; [destruct B as [? B]|]; rewrite B in Y; discriminate. }
    destruct Go as (rs' & E' & ->). assert (U' : ~ In UB rs') by (intro; apply U; right; assumption).
    destruct (fdep cf false (deep D v)) as [d|] eqn:Fd.
    + destruct (IH d s1 s' rs' T2 E' U' F) as (e & Lo & C'). destruct (fdep_bad _ _ Fd) as (pre & x & post & Ed & Fp & Bx).
      rewrite <- (N.add_0_r D) in Ed. rewrite deep_shift in Ed.
      apply map_eq_app in Ed. destruct Ed as (l1 & l2 & Ed & P1 & P2). destruct l2 as [|[d0 x0] l2]; [discriminate|].
      cbn [map fst snd] in P2. injection P2 as P2 P3 P4. subst.
      exists (d0 + e). rewrite N.add_assoc. split; [|assumption]. eapply lo_bad; eauto.
      rewrite Forall_map in Fp. exact Fp.
    + destruct T2 as [T2 T3]. destruct (IH D s1 s' rs' T2 E' U' F) as (e & Lo & C'). exists e. split; [|assumption]. constructor; [|assumption].
      apply fdep_none in Fd. rewrite deep_outs in Fd. apply (first_good (leaf_out cf) (fun x => ~ bad_leaf cf x)); [apply good_ret|exact Fd].
Qed.

(** ** Any number of calls *)
Lemma d_flat : s_pretty cf = false -> forall v d e, d_val cf d v = d_val cf e v.
Proof.
  intros P. apply (value_rect2 (fun v => forall d e, d_val cf d v = d_val cf e v)); try reflexivity.
  - intros l F d e. cbn [d_val]. unfold d_ind. rewrite P. do 3 f_equal.
    induction F as [|v l Hv F IH]; [reflexivity|]. cbn [map]. rewrite (Hv (d + 1) (e + 1)), IH. reflexivity.
  - intros m F d e. cbn [d_val]. unfold d_ind. rewrite P. do 3 f_equal.
    induction F as [|v l Hv F IH]; [reflexivity|]. cbn [map]. rewrite (Hv (d + 1) (e + 1)), IH. reflexivity.
Qed.

Lemma live_out : forall h v, snd (dump_to cf h (mkOs [] false) v) = handle h (first_out (map (leaf_o cf false) (leaves v))).
Proof. intros. rewrite dump_to_eq by exact Hok. cbn [snd]. rewrite val_out. reflexivity. Qed.

Lemma later : forall h vs o s rs, dump_calls cf h vs (init_sst cf o) = (s, rs) -> ~ In UB rs -> os_fail (s_os s) = false ->
  exists D, left_open cf vs D /\ forall h' v,
    snd (dump_again cf h' v s) = snd (dump_to cf h' (mkOs [] false) v) /\
    exists t, os_units (s_os (fst (dump_again cf h' v s))) = os_units (s_os s) ++ ind (layout_of cf) D ++ t /\
      forall w, (Forall (fun x => ~ bad_leaf cf x) (leaves v) /\ t = w) <->
                rend (unit_string cf) (float_text (s_ff cf) (s_prec cf)) (layout_of cf) D v w.
Proof.
  intros h vs o s rs E U F. destruct (calls_calm h vs 0 (init_sst cf o) s rs (calm_init o) E U F) as (D & Lo & C). rewrite N.add_0_l in C.
  exists D. split; [assumption|]. intros h' v. destruct (again_track false h' v D s C F) as [T _]. split; [rewrite T, live_out; reflexivity|].
  exists (fst (d_val cf D v)). split; [exact (again_text h' v D s C F)|]. intro w.
  change (layout_of cf) with (lay cf). rewrite <- d_val_iff. pose proof (val_out cf v D) as V.
  rewrite <- (first_good (leaf_out cf) (fun x => ~ bad_leaf cf x)) by apply good_ret. rewrite <- V.
  destruct (d_val cf D v) as [w' r]. cbn [fst snd]. unfold txt. split; [intros [-> ->]; reflexivity|intro H; injection H; auto].
Qed.

Lemma later_compact : forall h vs o s rs, s_pretty cf = false -> dump_calls cf h vs (init_sst cf o) = (s, rs) -> ~ In UB rs -> os_fail (s_os s) = false ->
  forall h' v, (os_units (s_os (fst (dump_again cf h' v s))), snd (dump_again cf h' v s)) =
    (os_units (s_os s) ++ fst (dump_to cf h' (mkOs [] false) v), snd (dump_to cf h' (mkOs [] false) v)).
Proof.
  intros h vs o s rs P E U F h' v. destruct (calls_calm h vs 0 (init_sst cf o) s rs (calm_init o) E U F) as (D & Lo & C). rewrite N.add_0_l in C.
  destruct (again_track false h' v D s C F) as [T _]. rewrite T, live_out. f_equal. rewrite (again_text h' v D s C F).
  rewrite dump_to_eq by exact Hok. cbn [fst app]. rewrite (d_flat P v D 0). unfold d_ind. rewrite P. reflexivity.
Qed.

Lemma all_written : forall h vs ws o, os_fail o = false -> Forall2 (fun v w => dump_string cf v = Ret w) vs ws ->
  exists s, dump_calls cf h vs (init_sst cf o) = (s, map (fun _ => Ret tt) vs) /\ s_os s = mkOs (os_units o ++ concat ws) false.
Proof.
  intros h vs ws o F H.
  assert (X : forall vs ws, Forall2 (fun v w => dump_string cf v = Ret w) vs ws -> forall s, calm 0 s -> os_fail (s_os s) = false ->
    exists s', dump_calls cf h vs s = (s', map (fun _ => Ret tt) vs) /\ s_os s' = mkOs (os_units (s_os s) ++ concat ws) false).
  { clear -Hok. intros vs ws H. induction H as [|v w vs ws E H IH]; intros s C F.
    - exists s. split; [reflexivity|]. cbn [concat]. rewrite app_nil_r. destruct (s_os s) as [u f]. cbn in *. subst. reflexivity.
    - apply dump_string_ret in E; [|assumption]. destruct (again_track false h v 0 s C F) as [T1 T2].
      assert (G : first_out (map (leaf_o cf false) (leaves v)) = Ret tt).
      { pose proof (val_out cf v 0) as V. rewrite E in V. symmetry. exact V. }
      rewrite G in T1. pose proof G as G'. rewrite <- (deep_outs false v 0) in G'. apply fdep_none in G'. rewrite G' in T2.
      pose proof (again_text h v 0 s C F) as Tx. rewrite E, ind_zero in Tx. cbn [fst txt app] in Tx.
      cbn [dump_calls map concat]. destruct (dump_again cf h v s) as [s1 [r m]]. cbn [fst snd handle] in *. injection T1 as -> ->.
      destruct T2 as [C1 F1]. destruct (IH s1 C1 F1) as (s' & E' & O'). rewrite E'. exists s'. split; [reflexivity|].
      rewrite O', Tx, app_assoc. reflexivity. }
  exact (X vs ws H (init_sst cf o) (calm_init o) F).
Qed.

(** ** Undefined behaviour *)
Lemma short_quiet : forall c, short c <-> short_escape c <> None.
Proof.
  intro c. unfold short, short_escape. split.
  - intros [->|[->|[->|[->|[->|[->| ->]]]]]]; discriminate.
  - intro H. repeat match type of H with context [?a =? ?b] => destruct (N.eqb_spec a b); [auto 10|] end. congruence.
Qed.

Lemma dead_leaf : forall x, dead_out cf x = Ret tt <-> quiet cf x.
Proof.
  intros [s|f]; cbn [dead_out quiet].
  - destruct (feeds_string (val_enc cf) (val_ck cf) s) as (l & tm & F & L). rewrite (decs_feeds _ _ _ _ _ F) by lia.
    assert (X : d_dead l tm = Ret tt <-> tm = TEof /\ Forall short l).
    { clear. induction l as [|c l IH]; cbn [d_dead]; [destruct tm; split; try discriminate; try (intros [? _]; discriminate); auto|].
      pose proof (short_quiet c) as S. destruct (short_escape c); [rewrite IH|split; [discriminate|]]; [split; intros [A B]; split; auto|].
      - constructor; [apply S; discriminate|assumption].
      - inversion B; assumption.
      - intros [_ B]. inversion B as [|? ? B1 B2]. apply S in B1. congruence. }
    rewrite X. split.
    + intros [-> Q]. exists l. split; assumption.
    + intros (cps & F' & Q). destruct (feeds_det _ _ _ _ _ F _ _ F') as [-> ->]. auto.
  - apply (good_ret (LFloat f)).
Qed.

(** the outcomes of leaves *)
Lemma o_cases : forall b x, leaf_o cf b x = Ret tt \/ (exists m, leaf_o cf b x = Throw (ESer m)) \/ (leaf_o cf b x = UB /\ exists f, x = LFloat f /\ bad_leaf cf x).
Proof.
  intros b [s|f].
  - destruct b; cbn [leaf_o].
    + cbn [dead_out]. destruct (decs _ _ _ _) as [l tm]. induction l as [|c l IH]; cbn [d_dead]; [destruct tm; eauto|]. destruct (short_escape c); eauto.
    + destruct (leaf_cases cf (LStr s)) as [[A B]|[A B]]; eauto.
  - assert (E : leaf_o cf b (LFloat f) = leaf_out cf (LFloat f)) by (destruct b; reflexivity). rewrite E.
    destruct (leaf_cases cf (LFloat f)) as [[A B]|[A B]]; eauto 6.
Qed.
Lemma first_cases : forall b l, let r := first_out (map (leaf_o cf b) l) in
  r = Ret tt \/ (exists m, r = Throw (ESer m)) \/ (r = UB /\ exists f, In (LFloat f) l /\ bad_leaf cf (LFloat f)).
Proof.
  intros b l. cbv zeta. induction l as [|x l IH]; [auto|]. cbn [map]. rewrite first_cons.
  destruct (o_cases b x) as [->|[(m & ->)|(-> & f & -> & B)]]; cbn [oseq].
  - destruct IH as [H|[H|(H & f & I & B)]]; eauto. right; right. split; [assumption|]. exists f. split; [right; assumption|assumption].
  - eauto.
  - right; right. split; [reflexivity|]. exists f. split; [left; reflexivity|assumption].
Qed.

Lemma some_calm : forall h v D s, calm D s -> exists d, calm d (fst (dump_again cf h v s)).
Proof.
  intros h v D s C. destruct (again_track (os_fail (s_os s)) h v D s C eq_refl) as [_ T].
  destruct (fdep cf _ _); [|destruct T]; eauto.
Qed.

Lemma calls_safe : forall h vs o, Forall (fun r => r = Ret tt \/ (exists m, r = Throw (ESer m)) \/
    (r = UB /\ exists v f, In v vs /\ In (LFloat f) (leaves v) /\ bad_leaf cf (LFloat f))) (snd (dump_calls cf h vs (init_sst cf o))).
Proof.
  intros h vs o.
  assert (X : forall vs D s, calm D s -> Forall (fun r => r = Ret tt \/ (exists m, r = Throw (ESer m)) \/
    (r = UB /\ exists v f, In v vs /\ In (LFloat f) (leaves v) /\ bad_leaf cf (LFloat f))) (snd (dump_calls cf h vs s))).
  { clear -Hok. induction vs as [|v vs IH]; intros D s C; [constructor|]. cbn [dump_calls].
    destruct (some_calm h v D s C) as (d & C').
    destruct (again_track (os_fail (s_os s)) h v D s C eq_refl) as [T _].
    assert (R : fst (snd (dump_again cf h v s)) = Ret tt \/ (exists m, fst (snd (dump_again cf h v s)) = Throw (ESer m)) \/
      (fst (snd (dump_again cf h v s)) = UB /\ exists w f, In w (v :: vs) /\ In (LFloat f) (leaves w) /\ bad_leaf cf (LFloat f))).
    { rewrite T. destruct (first_cases (os_fail (s_os s)) (leaves v)) as [->|[(m & ->)|(-> & f & I & B)]].
      - left. reflexivity.
      - destruct h; cbn; eauto.
      - right; right. split; [reflexivity|]. exists v, f. split; [left; reflexivity|]. auto. }
    destruct (dump_again cf h v s) as [s1 [r m]]. cbn [fst snd] in *. specialize (IH d s1 C').
    assert (IH' : Forall (fun r => r = Ret tt \/ (exists m, r = Throw (ESer m)) \/
      (r = UB /\ exists w f, In w (v :: vs) /\ In (LFloat f) (leaves w) /\ bad_leaf cf (LFloat f))) (snd (dump_calls cf h vs s1))).
    { eapply Forall_impl; [|exact IH]. intros a [A|[A|(A & w & f & I & B)]]; auto. right; right. split; [assumption|]. exists w, f. split; [right; assumption|assumption]. }
    destruct (dump_calls cf h vs s1) as [s2 rs]. cbn [snd] in IH'.
    destruct r as [u| | | |]; cbn [snd]; constructor; try assumption; constructor. }
  exact (X vs 0 (init_sst cf o) (calm_init o)).
Qed.

(** ** Failed streams *)
Lemma calls_some : forall h vs D s, calm D s -> exists d, calm d (fst (dump_calls cf h vs s)).
Proof.
  intros h vs. induction vs as [|v vs IH]; intros D s C; [exists D; exact C|]. cbn [dump_calls]. destruct (some_calm h v D s C) as (d & C').
  destruct (dump_again cf h v s) as [s1 [r m]]. cbn [fst] in C'. destruct (IH d s1 C') as (e & C2).
  destruct r; try (exists d; exact C'); destruct (dump_calls cf h vs s1); exists e; exact C2.
Qed.

Lemma failed_for_good : forall h vs o s rs, dump_calls cf h vs (init_sst cf o) = (s, rs) -> os_fail (s_os s) = true ->
  forall v, s_os (fst (dump_again cf HNone v s)) = s_os s /\
    (fst (snd (dump_again cf HNone v s)) = Ret tt <-> Forall (quiet cf) (leaves v)).
Proof.
  intros h vs o s rs E F v. split; [apply again_still; assumption|].
  destruct (calls_some h vs 0 _ (calm_init o)) as (d & C). rewrite E in C. cbn [fst] in C.
  destruct (again_track true HNone v d s C F) as [T _]. rewrite T.
  rewrite <- (first_good (leaf_o cf true) (quiet cf)) by (intro; apply dead_leaf).
  destruct (first_out _) as [[]| | | |]; cbn [handle fst]; split; congruence.
Qed.
End Main.

(** ** Reading back what was written, with NULs between the values *)
Lemma out_text_snoc : forall e ck L w, out_text e ck L = Some w -> out_text e ck (L ++ [0]) = Some (w ++ [0]).
Proof.
  intros e ck L. induction L as [|c L IH]; intros w E; cbn [app out_text] in *.
  - injection E as <-. rewrite small_units by lia. reflexivity.
  - destruct (out_units e ck c) as [us|]; [|discriminate]. destruct (out_text e ck L) as [x|]; [|discriminate]. injection E as <-.
    rewrite (IH x eq_refl), app_assoc. reflexivity.
Qed.
Lemma out_text_app2 : forall e ck L M w x, out_text e ck L = Some w -> out_text e ck M = Some x -> out_text e ck (L ++ M) = Some (w ++ x).
Proof.
  intros e ck L. induction L as [|c L IH]; intros M w x E E'; cbn [app out_text] in *; [injection E as <-; assumption|].
  destruct (out_units e ck c) as [us|]; [|discriminate]. destruct (out_text e ck L) as [y|]; [|discriminate]. injection E as <-.
  rewrite (IH M y x eq_refl E'), app_assoc. reflexivity.
Qed.

Lemma rfc_document : forall pc L v l, rfc_text plain (tgt_enc pc) (tgt_ck pc) L v -> document pc (L ++ 0 :: l) v (0 :: l).
Proof.
  intros pc L v l [a w b u Wa V Wb]. apply doc_nul with (l1 := b ++ 0 :: l); [|apply ws_blank; [assumption|unfold space; lia|lia]].
  rewrite <- !app_assoc. eapply blank_val; [apply clean_blank; [assumption|eapply val_clean; eassumption]|].
  apply rfc_val_val; [assumption|]. apply stops_ws; [assumption|]. apply stops_cons; lia.
Qed.

Lemma written_docs : forall pc cf vs ws, reads pc cf -> enc_ok (out_enc cf) (out_ck cf) = true -> enc_ok (val_enc cf) (val_ck cf) = true ->
  (out_enc cf = Ignore -> s_esc cf = true) -> blank_indent cf ->
  Forall (ok_value plain cf) vs -> Forall2 (fun v w => dump_string cf v = Ret w) vs ws -> vs <> [] ->
  exists l, feeds (src_enc pc) (src_ck pc) (is_open (IStr (with_nuls ws))) l TEof /\ docs pc l vs [0].
Proof.
  intros pc cf vs ws (R1 & R2 & R3 & R4) Ho Hv Ig B O H N.
  assert (X : exists l, out_text (out_enc cf) (out_ck cf) l = Some (with_nuls ws) /\ Forall (plain_cp plain cf) l /\ (vs = [] -> l = []) /\ (vs <> [] -> docs pc l vs [0])).
  { clear N. induction H as [|v w vs ws E H IH].
    - exists []. split; [reflexivity|]. split; [constructor|]. split; congruence.
    - inversion O as [|? ? O1 O2]; subst. destruct (IH O2) as (l & E1 & P1 & Z1 & D1).
      destruct (dump_rfc plain cf v w Ho Hv B O1 E) as (L & T & Eo & P). rewrite <- R3, <- R4 in T.
      exists ((L ++ [0]) ++ l). split; [|split; [|split; [discriminate|]]].
      + unfold with_nuls. cbn [map concat]. apply out_text_app2; [apply out_text_snoc; assumption|assumption].
      + apply Forall_app. split; [|assumption]. apply Forall_app. split; [assumption|]. constructor; [left; lia|constructor].
      + intros _. rewrite <- app_assoc. cbn [app]. destruct vs as [|v' vs].
        * rewrite (Z1 eq_refl). apply ds_one. apply rfc_document. assumption.
        * eapply ds_more; [apply rfc_document; assumption|]. apply D1. discriminate. }
  destruct X as (l & E & P & _ & D). exists l. split; [|auto]. change (is_open (IStr (with_nuls ws))) with (sis (with_nuls ws)). rewrite R1, R2.
  apply feeds_enc_text; [assumption|rewrite <- out_text_enc; assumption|].
  eapply Forall_impl; [|exact P]. intros x [X|[Es X]].
  - apply faithful_rt. unfold faithful, SpecGrammar.lead. destruct (out_enc cf); try exact Logic.I; lia.
  - apply faithful_rt. unfold faithful. destruct X as (_ & Lx & _). destruct (out_enc cf); try exact Logic.I.
    + rewrite (Ig eq_refl) in Es. discriminate.
    + intro Y. exact (Lx Y).
Qed.

Lemma feeds_short : forall e ck x l t, feeds e ck (is_open (IStr x)) l t -> (length l <= length x)%nat.
Proof. intros e ck x l t F. destruct (feeds_string e ck x) as (l' & t' & F' & L). destruct (feeds_det _ _ _ _ _ F' _ _ F) as [-> _]. exact L. Qed.

Lemma round_nuls : forall pc cf vs ws n, reads pc cf -> enc_ok (out_enc cf) (out_ck cf) = true -> enc_ok (val_enc cf) (val_ck cf) = true ->
  (out_enc cf = Ignore -> s_esc cf = true) -> blank_indent cf ->
  Forall (ok_value plain cf) vs -> Forall2 (fun v w => dump_string cf v = Ret w) vs ws -> vs <> [] -> (2 * length (with_nuls ws) + 1 <= n)%nat ->
  (exists b, parse_each pc n (length vs) (IStr (with_nuls ws)) = (vs, Ret b) /\
     forall m k, (1 <= m)%nat -> parse_each pc m (Datatypes.S k) b = ([], Throw (EDeser "unexpected token 'end_of_input'"))) /\
  (exists st, parse_calls pc n (length vs) (init_pst (IStr (with_nuls ws))) = (vs, Ret st) /\
     forall m c, (1 <= m)%nat -> parse_again pc m c st = (c, Throw (EDeser "unexpected token 'end_of_input'"))).
Proof.
  intros pc cf vs ws n R Ho Hv Ig B O H N L. destruct (written_docs pc cf vs ws R Ho Hv Ig B O H N) as (l & F & D).
  pose proof (feeds_short _ _ _ _ _ F) as Le. destruct R as (R1 & R2 & R3 & R4).
  assert (Hok : enc_ok (tgt_enc pc) (tgt_ck pc) = true) by (rewrite R3, R4; assumption).
  assert (Bn : blank [] []) by (apply bl_none; exact Logic.I). split.
  - destruct (each_docs pc TEof l vs [0] Hok D (or_introl eq_refl) n _ F ltac:(lia)) as (b & E & K). exists b. split; [assumption|].
    intros m k M. apply (each_empty pc TEof m b [] [] k); auto.
  - destruct (calls_docs pc TEof l vs [0] Hok D (or_introl eq_refl) n (init_pst (IStr (with_nuls ws))) eq_refl F ltac:(lia)) as (st & E & A).
    apply at_zero in A. destruct A as [G F']. exists st. split; [assumption|]. intros m c M. apply (no_document pc TEof m c st [] []); auto.
Qed.
