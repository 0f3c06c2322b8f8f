(** Serializer options. *)
From Coq Require Import Lia ZifyBool ZifyNat ZifyN.
From Verif Require Import Base Stream Encoding Value FloatFmt Serializer SpecDump.
Open Scope N_scope.

Lemma fold_chosen : forall {A} (says : sopt -> option A) (get : scfg -> A),
  (forall cf o, get (apply_opt cf o) = match says o with Some x => x | None => get cf end) ->
  forall opts cf, chosen says (get cf) opts (get (fold_left apply_opt opts cf)).
Proof.
  intros A says get H opts cf. revert opts.
  apply (rev_ind (fun opts => chosen says (get cf) opts (get (fold_left apply_opt opts cf)))).
  - apply ch_none. intros o [].
  - intros o opts IH. rewrite fold_left_app. cbn [fold_left]. rewrite H. destruct (says o) as [x|] eqn:E.
    + apply (ch_last says (get cf) opts o []); [assumption|]. intros o' [].
    + revert IH. generalize (get (fold_left apply_opt opts cf)). intros y IH. destruct IH as [opts N|before o0 after x S N].
      * apply ch_none. intros o' I. apply in_app_iff in I. destruct I as [I|[<-|[]]]; auto.
      * rewrite <- app_assoc. cbn [app]. apply ch_last; [assumption|]. intros o' I. apply in_app_iff in I. destruct I as [I|[<-|[]]]; auto.
Qed.

Lemma options : forall vck ock f opts, let cf := ser_cfg vck ock f opts in
  chosen says_indent (0 <? f_width f, Z.to_N (f_width f mod 256), f_fill f)%Z opts (s_pretty cf, s_step cf, s_ichar cf) /\
  chosen says_escape false opts (s_esc cf) /\
  (exists ff, chosen says_precision (f_prec f, f_ff f) opts (s_prec cf, ff) /\ s_ff cf = match ff with FHex => FGeneral | _ => ff end) /\
  chosen says_source (auto_enc vck) opts (val_enc cf) /\
  chosen says_target (auto_enc ock) opts (out_enc cf) /\ val_ck cf = vck /\ out_ck cf = ock.
Proof.
  intros vck ock f opts cf. unfold ser_cfg in cf. set (c0 := mkSc _ _ _ _ _ _ _ _ _ _) in cf.
  assert (I : chosen says_indent (s_pretty c0, s_step c0, s_ichar c0) opts (let c := fold_left apply_opt opts c0 in (s_pretty c, s_step c, s_ichar c))).
  { apply (fold_chosen says_indent (fun c => (s_pretty c, s_step c, s_ichar c))). intros c o. destruct o; try reflexivity. cbn. destruct step; reflexivity. }
  assert (E : chosen says_escape (s_esc c0) opts (s_esc (fold_left apply_opt opts c0))).
  { apply (fold_chosen says_escape s_esc). intros c o. destruct o; reflexivity. }
  assert (P : chosen says_precision (s_prec c0, s_ff c0) opts (let c := fold_left apply_opt opts c0 in (s_prec c, s_ff c))).
  { apply (fold_chosen says_precision (fun c => (s_prec c, s_ff c))). intros c o. destruct o; reflexivity. }
  assert (S1 : chosen says_source (val_enc c0) opts (val_enc (fold_left apply_opt opts c0))).
  { apply (fold_chosen says_source val_enc). intros c o. destruct o; reflexivity. }
  assert (S2 : chosen says_target (out_enc c0) opts (out_enc (fold_left apply_opt opts c0))).
  { apply (fold_chosen says_target out_enc). intros c o. destruct o; reflexivity. }
  assert (K : forall c, val_ck (fold_left apply_opt opts c) = val_ck c /\ out_ck (fold_left apply_opt opts c) = out_ck c).
  { clear. induction opts as [|o opts IH]; intro c; [split; reflexivity|]. cbn [fold_left]. destruct (IH (apply_opt c o)) as [A B]. rewrite A, B. destruct o; split; reflexivity. }
  destruct (K c0) as [K1 K2]. subst cf. unfold prepare. set (c := fold_left apply_opt opts c0) in *. cbv zeta in I, P.
  repeat split.
  - destruct (s_ff c); exact I.
  - destruct (s_ff c); exact E.
  - exists (s_ff c). split; [destruct (s_ff c) eqn:F; cbn [s_prec]; exact P|]. destruct (s_ff c) eqn:F; cbn [s_ff]; congruence.
  - destruct (s_ff c); exact S1.
  - destruct (s_ff c); exact S2.
  - destruct (s_ff c); exact K1.
  - destruct (s_ff c); exact K2.
Qed.
