(** The text the serializer writes for other integer types is that of SpecNumDump.v. *)
From Coq Require Import Lia ZifyBool ZifyNat ZifyN Floats.SpecFloat.
From Verif Require Import Base Stream Encoding Value Token FloatFmt Message Parser Feeds SpecGrammar SpecText Serializer DumpText DumpProofs SpecDump DumpFacts
  NumType SpecNumType NumDump SpecNumRound NumRound SpecNumDump.
Ltac Zify.zify_post_hook ::= Z.div_mod_to_equations.
Open Scope N_scope.

Definition nd_int (ty : ity) (cf : scfg) (z : Z) : list N :=
  if match out_ck cf with C8 => t_bits ty <=? 8 | _ => false end then [Z.to_N (z mod 256)] else dec_of_Z z.

Fixpoint nd_val (ty : ity) (cf : scfg) (d : N) (v : gval Z f64) : dres :=
  match v with
  | GObj m =>
      dthen (txt [123]) (dthen
        (d_seq (d_nl cf ++ d_ind cf (d + 1))
           (map (fun p => dthen (d_string cf (fst p)) (dthen (txt (58 :: d_sp cf)) (nd_val ty cf (d + 1) (snd p)))) m))
        (txt (d_nl cf ++ d_ind cf d ++ [125])))
  | GArr l =>
      dthen (txt [91]) (dthen (d_seq (d_nl cf ++ d_ind cf (d + 1)) (map (nd_val ty cf (d + 1)) l))
        (txt (d_nl cf ++ d_ind cf d ++ [93])))
  | GStr x => d_string cf x
  | GBool true => txt lit_true
  | GBool false => txt lit_false
  | GInt z => txt (nd_int ty cf z)
  | GFloat f => d_float cf f
  | GNull => txt lit_null
  end.
Definition nd_member (ty : ity) (cf : scfg) (d : N) (p : str * gval Z f64) : dres :=
  dthen (d_string cf (fst p)) (dthen (txt (58 :: d_sp cf)) (nd_val ty cf d (snd p))).

Scheme n_rend_mind := Induction for n_rend Sort Prop
  with n_elems_mind := Induction for n_elems Sort Prop
  with n_members_mind := Induction for n_members Sort Prop.
Combined Scheme n_mutind from n_rend_mind, n_elems_mind, n_members_mind.

Section Dump.
Variable ty : ity.
Variable cf : scfg.
Hypothesis Hok : enc_ok (out_enc cf) (out_ck cf) = true.
Notation okn := (DumpProofs.okn cf).
Notation runs := (DumpProofs.runs cf).
Notation lead := (DumpProofs.lead cf).
Notation close_after := (DumpProofs.close_after cf Hok).
(** ** Values *)
Definition n_dumps (v : gval Z f64) : Prop := forall u b t D n, okn D n ->
  runs (n_dump ty cf v (stt u b t D n)) u D (dthen (txt (lead b t D)) (nd_val ty cf D v)).

Definition n_arr_loop : list (gval Z f64) -> sst -> sres :=
  fix elems (l : list (gval Z f64)) (s : sst) : sres :=
    match l with
    | [] => sret s
    | v :: l' =>
        do* s := n_dump ty cf v s in
        match l' with
        | [] => sret s
        | _ => do* s := next cf Tval_sep s in elems l' s
        end
    end.
Definition n_obj_loop : list (str * gval Z f64) -> sst -> sres :=
  fix members (m : list (str * gval Z f64)) (s : sst) : sres :=
    match m with
    | [] => sret s
    | (k, v) :: m' =>
        do* s := next cf Tstring s in
        do* s := put_string cf k s in
        do* s := next cf Tname_sep s in
        do* s := n_dump ty cf v s in
        match m' with
        | [] => sret s
        | _ => do* s := next cf Tval_sep s in members m' s
        end
    end.

Lemma n_arr_ok : forall l, Forall n_dumps l -> l <> [] -> forall u b t D n, okn D n -> token_eqb t Tname_sep = false ->
  runs (n_arr_loop l (stt u b t D n)) u D
    (d_seq1 (lead b t D) (d_nl cf ++ d_ind cf D) (map (nd_val ty cf D) l)).
Proof.
  intros l F. induction F as [|v l Hv F IH]; intros N u b t D n O T; [congruence|].
  cbn [n_arr_loop map d_seq1]. fold n_arr_loop. rewrite <- dthen_assoc.
  eapply runs_then; [apply Hv; exact O|]. intros t1 n1 O1. destruct l as [|v' l].
  - cbn [map]. apply (runs_txt _ D [] t1 n1 O1 : runs (stt _ _ _ _ _, _) _ _ _) || (rewrite <- (app_nil_r (u ++ _)) at 1; apply runs_txt; exact O1).
  - rewrite (next_comma cf Hok). cbn [sthen]. cbn [map]. rewrite <- d_seq1_pre. rewrite <- (d_seq1_nl (d_nl cf)) by discriminate.
    rewrite dthen_txt. apply runs_pre. cbn [app].
    pose proof (IH ltac:(discriminate) ((u ++ fst (dthen (txt (lead b t D)) (nd_val ty cf D v))) ++ 44 :: d_nl cf) false Tval_sep D n1 O1 eq_refl) as X.
    exact X.
Qed.

Lemma n_obj_ok : forall m, Forall (fun p => n_dumps (snd p)) m -> m <> [] -> forall u b t D n, okn D n -> token_eqb t Tname_sep = false ->
  runs (n_obj_loop m (stt u b t D n)) u D
    (d_seq1 (lead b t D) (d_nl cf ++ d_ind cf D) (map (nd_member ty cf D) m)).
Proof.
  intros m F. induction F as [|[k v] m Hv F IH]; intros N u b t D n O T; [congruence|].
  cbn [snd] in Hv. cbn [n_obj_loop map d_seq1]. fold n_obj_loop.
  rewrite (next_scalar cf Hok) by (try reflexivity; try discriminate; assumption). cbn [sthen scalar_text]. rewrite app_nil_r.
  apply runs_pre. unfold nd_member at 1. cbn [fst snd]. rewrite !dthen_assoc.
  eapply runs_then; [apply (put_string_ok cf Hok); exact O|]. intros t1 n1 O1.
  set (u1 := (u ++ lead b t D) ++ fst (d_string cf k)).
  destruct (next_colon cf Hok u1 t1 D n1 O1) as (n2 & -> & O2). cbn [sthen]. apply runs_pre.
  eapply runs_then.
  - pose proof (Hv (u1 ++ 58 :: d_sp cf) false Tname_sep D n2 O2) as X.
    change (lead false Tname_sep D) with (@nil BinNums.N) in X. rewrite txt_nil in X. exact X.
  - intros t3 n3 O3. destruct m as [|p m].
    + cbn [map]. rewrite <- (app_nil_r (_ ++ fst (nd_val ty cf D v))) at 1. apply runs_txt; exact O3.
    + rewrite (next_comma cf Hok). cbn [sthen]. cbn [map]. rewrite <- d_seq1_pre. rewrite <- (d_seq1_nl (d_nl cf)) by discriminate.
      rewrite dthen_txt. apply runs_pre. cbn [app]. apply (IH ltac:(discriminate)); [exact O3|reflexivity].
Qed.

Lemma n_dump_val : forall v, n_dumps v.
Proof.
  assert (Sc : forall t w, starts_value t = true -> t <> Tbegin_arr -> t <> Tbegin_obj -> scalar_text t = w ->
    forall u b t0 D n, okn D n -> runs (next cf t (stt u b t0 D n)) u D (dthen (txt (lead b t0 D)) (txt w))).
  { intros t w S N1 N2 E u b t0 D n O. rewrite (next_scalar cf Hok) by assumption. rewrite E. apply runs_txt. assumption. }
  assert (Sk : forall t k x, starts_value t = true -> t <> Tbegin_arr -> t <> Tbegin_obj -> scalar_text t = [] ->
    (forall u t0 D n, okn D n -> runs (k (stt u false t0 D n)) u D x) ->
    forall u b t0 D n, okn D n -> runs (do* s := next cf t (stt u b t0 D n) in k s) u D (dthen (txt (lead b t0 D)) x)).
  { intros t k x S N1 N2 E K u b t0 D n O. rewrite (next_scalar cf Hok) by assumption. rewrite E, app_nil_r. cbn [sthen].
    apply runs_pre. apply K. assumption. }
  apply gval_ind2.
  - intros u b t D n O. apply Sc; try reflexivity; try discriminate; assumption.
  - intros [|] u b t D n O; cbn [n_dump nd_val]; apply Sc; try reflexivity; try discriminate; assumption.
  - intros z u b t D n O. cbn [n_dump nd_val].
    apply (Sk Tint (fun s => sret (n_put_integer ty cf z s)) (txt (nd_int ty cf z))); try reflexivity; try discriminate; [|assumption].
    intros. unfold n_put_integer, nd_int, put_integer. destruct (match out_ck cf with C8 => _ | _ => _ end); apply runs_txt; assumption.
  - intros f u b t D n O. cbn [n_dump nd_val].
    apply (Sk Tfloat (put_float cf f)); try reflexivity; try discriminate; [|assumption].
    intros. apply put_float_ok. assumption.
  - intros s u b t D n O. cbn [n_dump nd_val].
    apply (Sk Tstring (put_string cf s)); try reflexivity; try discriminate; [|assumption].
    intros. apply (put_string_ok cf Hok). assumption.
  - intros l F u b t D n O. cbn [n_dump nd_val]. fold n_arr_loop.
    destruct (next_open cf Hok Tbegin_arr 91 u b t D n O ltac:(auto)) as (n1 & -> & O1). cbn [sthen].
    rewrite dthen_txt. apply runs_pre. destruct l as [|v l].
    + cbn [map d_seq]. rewrite txt_nil. apply (next_close cf Hok); auto.
    + apply close_after; [|auto]. rewrite <- d_seq1_pre. apply n_arr_ok; try assumption; [discriminate|reflexivity].
  - intros m F u b t D n O. cbn [n_dump nd_val]. fold n_obj_loop.
    destruct (next_open cf Hok Tbegin_obj 123 u b t D n O ltac:(auto)) as (n1 & -> & O1). cbn [sthen].
    rewrite dthen_txt. apply runs_pre. destruct m as [|p m].
    + cbn [map d_seq]. rewrite txt_nil. apply (next_close cf Hok); auto.
    + apply close_after; [|auto]. rewrite <- d_seq1_pre. change (map _ (p :: m)) with (map (nd_member ty cf (D + 1)) (p :: m)).
      apply n_obj_ok; try assumption; [discriminate|reflexivity].
Qed.


End Dump.

Section Vals.
Variable ty : ity.
Variable cf : scfg.
Definition IT (z : Z) (w : list N) : Prop := w = nd_int ty cf z.
Notation R := (n_rend IT (unit_string cf) (float_text (s_ff cf) (s_prec cf)) (lay cf)).
Notation RE := (n_elems IT (unit_string cf) (float_text (s_ff cf) (s_prec cf)) (lay cf)).
Notation RM := (n_members IT (unit_string cf) (float_text (s_ff cf) (s_prec cf)) (lay cf)).

Lemma nd_elems_rend : forall l, Forall (fun v => forall d w, nd_val ty cf d v = txt w -> R d v w) l -> l <> [] ->
  forall d w, d_seq (d_nl cf ++ d_ind cf d) (map (nd_val ty cf d) l) = txt w -> RE d l w.
Proof.
  intros l F. induction F as [|v l Hv F IH]; intros N d w H; [congruence|]. cbn [map d_seq] in H.
  apply dthen_ret in H. destruct H as (u & x & E1 & H & ->). apply txt_inj in E1. subst u.
  apply dthen_ret in H. destruct H as (u & y & E2 & H & ->). apply Hv in E2. rewrite <- app_assoc.
  destruct l as [|v' l].
  - cbn [map] in H. apply txt_inj in H. subst y. rewrite app_nil_r. apply (nde_one _ _ _ (lay cf)). exact E2.
  - cbn [map] in H. apply dthen_ret in H. destruct H as (a & z & E3 & H & ->). apply txt_inj in E3. subst a.
    apply (nde_more _ _ _ (lay cf)); [exact E2|]. apply IH; [discriminate|exact H].
Qed.

Lemma nd_members_rend : forall m, Forall (fun p => forall d w, nd_val ty cf d (snd p) = txt w -> R d (snd p) w) m -> m <> [] ->
  forall d w, d_seq (d_nl cf ++ d_ind cf d) (map (nd_member ty cf d) m) = txt w -> RM d m w.
Proof.
  intros m F. induction F as [|[k v] m Hv F IH]; intros N d w H; [congruence|]. cbn [map d_seq] in H. cbn [snd] in Hv.
  apply dthen_ret in H. destruct H as (u & x & E1 & H & ->). apply txt_inj in E1. subst u.
  apply dthen_ret in H. destruct H as (u & y & E2 & H & ->). unfold nd_member in E2. cbn [fst snd] in E2.
  apply dthen_ret in E2. destruct E2 as (wk & z & Ek & E2 & ->). apply d_string_text in Ek.
  apply dthen_ret in E2. destruct E2 as (c & wv & Ec & Ev & ->). apply txt_inj in Ec. subst c. apply Hv in Ev.
  replace ((d_nl cf ++ d_ind cf d) ++ (wk ++ (58 :: d_sp cf) ++ wv) ++ y) with
    (d_nl cf ++ d_ind cf d ++ wk ++ 58 :: d_sp cf ++ wv ++ y) by (repeat (rewrite <- ?app_assoc; cbn [app]); reflexivity).
  destruct m as [|p m].
  - cbn [map] in H. apply txt_inj in H. subst y. rewrite app_nil_r. apply (ndm_one _ _ _ (lay cf)); assumption.
  - cbn [map] in H. apply dthen_ret in H. destruct H as (a & z & E3 & H & ->). apply txt_inj in E3. subst a.
    apply (ndm_more _ _ _ (lay cf)); [assumption|assumption|]. apply IH; [discriminate|exact H].
Qed.

Lemma nd_val_rend : forall v d w, nd_val ty cf d v = txt w -> R d v w.
Proof.
  apply (gval_ind2 (fun v => forall d w, nd_val ty cf d v = txt w -> R d v w)); cbn [nd_val].
  - intros d w H. apply txt_inj in H. subst. constructor.
  - intros [|] d w H; apply txt_inj in H; subst; constructor.
  - intros z d w H. apply txt_inj in H. subst. constructor. reflexivity.
  - intros f d w H. constructor. apply d_float_text. exact H.
  - intros s d w H. constructor. apply d_string_text. exact H.
  - intros l F d w H. apply dthen_ret in H. destruct H as (u & x & E1 & H & ->). apply txt_inj in E1. subst u.
    apply dthen_ret in H. destruct H as (u & y & E2 & H & ->). apply txt_inj in H. subst y. destruct l as [|v l].
    + cbn [map d_seq] in E2. apply txt_inj in E2. subst u. apply (nd_arr_nil _ _ _ (lay cf)).
    + apply (nd_arr _ _ _ (lay cf)). apply nd_elems_rend; [exact F|discriminate|exact E2].
  - intros m F d w H. apply dthen_ret in H. destruct H as (u & x & E1 & H & ->). apply txt_inj in E1. subst u.
    apply dthen_ret in H. destruct H as (u & y & E2 & H & ->). apply txt_inj in H. subst y. destruct m as [|p m].
    + cbn [map d_seq] in E2. apply txt_inj in E2. subst u. apply (nd_obj_nil _ _ _ (lay cf)).
    + apply (nd_obj _ _ _ (lay cf)). apply nd_members_rend; [exact F|discriminate|exact E2].
Qed.

Lemma n_rend_val_all :
  (forall d v w, R d v w -> nd_val ty cf d v = txt w) /\
  (forall d l w, RE d l w -> d_seq (d_nl cf ++ d_ind cf d) (map (nd_val ty cf d) l) = txt w) /\
  (forall d m w, RM d m w -> d_seq (d_nl cf ++ d_ind cf d) (map (nd_member ty cf d) m) = txt w).
Proof.
  apply (n_mutind IT (unit_string cf) (float_text (s_ff cf) (s_prec cf)) (lay cf)
    (fun d v w _ => nd_val ty cf d v = txt w)
    (fun d l w _ => d_seq (d_nl cf ++ d_ind cf d) (map (nd_val ty cf d) l) = txt w)
    (fun d m w _ => d_seq (d_nl cf ++ d_ind cf d) (map (nd_member ty cf d) m) = txt w)); cbn [nd_val]; try reflexivity.
  - intros d z w H. unfold IT in H. subst. reflexivity.
  - intros d f w H. apply d_float_text. exact H.
  - intros d s w H. apply d_string_text. exact H.
  - intros d v vs w H IH. rewrite IH. reflexivity.
  - intros d p m w H IH. change (map _ (p :: m)) with (map (nd_member ty cf (d + 1)) (p :: m)). rewrite IH. reflexivity.
  - intros d v w H IH. cbn [map d_seq]. rewrite IH. cbn. rewrite app_nil_r, <- app_assoc. reflexivity.
  - intros d v w v' vs ws H IH H2 IH2. cbn [map] in *. rewrite d_seq_more, IH, IH2. cbn. rewrite <- app_assoc. reflexivity.
  - intros d k wk v w Hk H IH. cbn [map d_seq]. unfold nd_member. cbn [fst snd]. apply d_string_text in Hk. rewrite Hk, IH.
    cbn. rewrite app_nil_r, <- app_assoc. reflexivity.
  - intros d k wk v w p m ws Hk H IH H2 IH2. cbn [map] in *. rewrite d_seq_more, IH2. unfold nd_member at 1. cbn [fst snd]. apply d_string_text in Hk. rewrite Hk, IH.
    cbn. rewrite <- !app_assoc. cbn. rewrite <- !app_assoc. reflexivity.
Qed.


Lemma nd_val_iff : forall d v w, nd_val ty cf d v = txt w <-> R d v w.
Proof. intros. split; [apply nd_val_rend|apply n_rend_val_all]. Qed.
End Vals.

Lemma n_rend_lay : forall it str flt la la' b, nl la = nl la' -> sp la = sp la' -> (forall d, d <= b -> ind la d = ind la' d) ->
  (forall d v w, n_rend it str flt la d v w -> d + n_height v <= b -> n_rend it str flt la' d v w) /\
  (forall d l w, n_elems it str flt la d l w -> (forall v, In v l -> d + n_height v <= b) -> n_elems it str flt la' d l w) /\
  (forall d m w, n_members it str flt la d m w -> (forall p, In p m -> d + n_height (snd p) <= b) -> n_members it str flt la' d m w).
Proof.
  intros it str flt la la' b E1 E2 E3.
  apply (n_mutind it str flt la
    (fun d v w _ => d + n_height v <= b -> n_rend it str flt la' d v w)
    (fun d l w _ => (forall v, In v l -> d + n_height v <= b) -> n_elems it str flt la' d l w)
    (fun d m w _ => (forall p, In p m -> d + n_height (snd p) <= b) -> n_members it str flt la' d m w));
    rewrite ?E1, ?E2; try (intros; constructor; assumption).
  - intros d H. cbn [n_height map fold_right] in H. rewrite E3 by lia. constructor.
  - intros d v vs w H IH L. cbn [n_height] in L. rewrite E3 by lia. constructor. apply IH. intros x X.
    pose proof (max_le (map n_height (v :: vs)) (n_height x) (in_map n_height (v :: vs) x X)). lia.
  - intros d H. cbn [n_height map fold_right] in H. rewrite E3 by lia. constructor.
  - intros d p m w H IH L. cbn [n_height] in L. rewrite E3 by lia. constructor. apply IH. intros x X.
    pose proof (max_le (map (fun p => n_height (snd p)) (p :: m)) (n_height (snd x)) (in_map (fun p => n_height (snd p)) (p :: m) x X)). lia.
  - intros d v w H IH L. rewrite E3 by (specialize (L v (or_introl eq_refl)); lia). constructor. apply IH. apply L. left. reflexivity.
  - intros d v w v' vs ws H IH H2 IH2 L. rewrite E3 by (specialize (L v (or_introl eq_refl)); lia).
    constructor; [apply IH, L; left; reflexivity|]. apply IH2. intros x X. apply L. right. exact X.
  - intros d k wk v w Hk H IH L. rewrite E3 by (specialize (L (k, v) (or_introl eq_refl)); lia).
    constructor; [assumption|]. apply IH. apply (L (k, v)). left. reflexivity.
  - intros d k wk v w p m ws Hk H IH H2 IH2 L. rewrite E3 by (specialize (L (k, v) (or_introl eq_refl)); lia).
    constructor; [assumption|apply IH, (L (k, v)); left; reflexivity|]. apply IH2. intros x X. apply L. right. exact X.
Qed.

(** ** The text of integers *)
Lemma n_rend_it : forall ty (it it' : Z -> list N -> Prop) str flt la, (forall z w, (t_min ty <= z <= t_max ty)%Z -> it z w -> it' z w) ->
  (forall d v w, n_rend it str flt la d v w -> ints_in ty v -> n_rend it' str flt la d v w) /\
  (forall d l w, n_elems it str flt la d l w -> Forall (ints_in ty) l -> n_elems it' str flt la d l w) /\
  (forall d m w, n_members it str flt la d m w -> Forall (fun p => ints_in ty (snd p)) m -> n_members it' str flt la d m w).
Proof.
  intros ty it it' str flt la H.
  apply (n_mutind it str flt la
    (fun d v w _ => ints_in ty v -> n_rend it' str flt la d v w)
    (fun d l w _ => Forall (ints_in ty) l -> n_elems it' str flt la d l w)
    (fun d m w _ => Forall (fun p => ints_in ty (snd p)) m -> n_members it' str flt la d m w));
    try (intros; constructor; assumption).
  - intros d z w I X. inversion X; subst. constructor. apply H; assumption.
  - intros d v vs w _ IH X. inversion X; subst. constructor. auto.
  - intros d p m w _ IH X. inversion X; subst. constructor. auto.
  - intros d v w _ IH X. inversion X; subst. constructor. auto.
  - intros d v w v' vs ws _ IH _ IH2 X. inversion X; subst. constructor; auto.
  - intros d k wk v w K _ IH X. inversion X; subst. constructor; auto.
  - intros d k wk v w p m ws K _ IH _ IH2 X. inversion X; subst. constructor; auto.
Qed.

Lemma by_number_cases : forall ty cf, (by_number ty cf /\ forall z, nd_int ty cf z = dec_of_Z z) \/
  (~ by_number ty cf /\ t_bits ty <= 8 /\ forall z, nd_int ty cf z = [Z.to_N (z mod 256)]).
Proof.
  intros ty cf. unfold by_number, nd_int. destruct (out_ck cf) eqn:K.
  - destruct (N.leb_spec (t_bits ty) 8).
    + right. split; [intros [X|X]; [lia|congruence]|split; [assumption|reflexivity]].
    + left. split; [left; assumption|reflexivity].
  - left. split; [right; discriminate|reflexivity].
  - left. split; [right; discriminate|reflexivity].
Qed.

Lemma n_int_iff : forall ty cf z w, cpp_ity ty -> (t_min ty <= z <= t_max ty)%Z -> (n_int ty cf z w <-> IT ty cf z w).
Proof.
  intros ty cf z w C B. unfold IT. destruct (by_number_cases ty cf) as [[Y E]|[Y [L E]]]; rewrite E.
  - split.
    + intros [_ H|X _]; [|contradiction]. apply int_text_iff in H. congruence.
    + intros ->. apply ni_dec; [assumption|]. apply int_text_iff. reflexivity.
  - split.
    + intros [X _|_ H]; [contradiction|]. inversion H; subst; f_equal; lia.
    + intros ->. apply ni_byte; [assumption|]. assert (t_bits ty = 8) as E8 by (destruct C as [|[|[]]]; lia).
      assert (-128 <= z <= 255)%Z as R.
      { unfold t_min, t_max, t_mod in B. rewrite E8 in B. change (2 ^ Z.of_N 8)%Z with 256%Z in B. destruct (t_signed ty); lia. }
      destruct (Z.ltb_spec z 0).
      * replace z with (Z.of_N (Z.to_N (z mod 256)) - 256)%Z at 1 by lia. apply by_neg. lia.
      * replace z with (Z.of_N (Z.to_N (z mod 256)))%Z at 1 by lia. apply by_pos. lia.
Qed.

(** ** Results *)
Section Results.
Variable ty : ity.
Variable cf : scfg.
Hypothesis C : cpp_ity ty.
Hypothesis Hok : enc_ok (out_enc cf) (out_ck cf) = true.

Lemma n_dump_string_ret : forall v w, n_dump_string ty cf v = Ret w <-> nd_val ty cf 0 v = txt w.
Proof.
  intros v w. unfold n_dump_string.
  assert (O : okn cf 0 (s_ilen (init_sst cf (mkOs [] false)))).
  { unfold okn, init_sst. cbn [s_ilen]. destruct (N.eqb_spec (s_ichar cf) 0); split; intros; lia || contradiction. }
  pose proof (n_dump_val ty cf Hok v [] false Tuninit 0 (s_ilen (init_sst cf (mkOs [] false))) O) as H.
  change (stt [] false Tuninit 0 (s_ilen (init_sst cf (mkOs [] false)))) with (init_sst cf (mkOs [] false)) in H.
  replace (lead cf false Tuninit 0) with (@nil N) in H.
  2:{ unfold lead. cbn [token_eqb app]. unfold d_ind. destruct (s_pretty cf), (s_ichar cf =? 0); reflexivity. }
  rewrite txt_nil in H. unfold runs in H. unfold txt. destruct (nd_val ty cf 0 v) as [u o]. cbn [fst snd] in *.
  destruct o as [[]| | | |]; try (destruct H as (s' & -> & E); cbn; split; intro; discriminate).
  destruct H as (t & n & -> & _). cbn [sthen].
  destruct (next_end cf ([] ++ u) false t 0 n) as (s' & -> & E). rewrite E. cbn. split; intro; congruence.
Qed.

Notation R := (n_rend (n_int ty cf) (unit_string cf) (float_text (s_ff cf) (s_prec cf))).
Lemma n_text : forall v w, ints_in ty v -> (n_dump_string ty cf v = Ret w <-> R (lay cf) 0 v w).
Proof.
  intros v w Hi. rewrite n_dump_string_ret, nd_val_iff. split; intro H.
  - eapply (proj1 (n_rend_it ty _ _ _ _ _ _) 0 v w H Hi). Unshelve. intros. apply n_int_iff; assumption.
  - eapply (proj1 (n_rend_it ty _ _ _ _ _ _) 0 v w H Hi). Unshelve. intros. apply n_int_iff; assumption.
Qed.

Lemma n_compact : forall v w, ints_in ty v -> s_pretty cf = false -> (n_dump_string ty cf v = Ret w <-> R compact 0 v w).
Proof.
  intros v w Hi P. rewrite n_text by assumption. unfold lay, compact.
  assert (E : forall d, d <= n_height v -> d_ind cf d = []) by (intros; unfold d_ind; rewrite P; reflexivity).
  assert (E1 : d_nl cf = []) by (unfold d_nl; rewrite P; reflexivity).
  assert (E2 : d_sp cf = []) by (unfold d_sp; rewrite P; reflexivity).
  split; intro H.
  - apply (proj1 (n_rend_lay _ _ _ (mkLay (d_nl cf) (d_ind cf) (d_sp cf)) (mkLay [] (fun _ => []) []) (n_height v) E1 E2 E) 0 v w H). lia.
  - apply (proj1 (n_rend_lay _ _ _ (mkLay [] (fun _ => []) []) (mkLay (d_nl cf) (d_ind cf) (d_sp cf)) (n_height v)
      (eq_sym E1) (eq_sym E2) (fun d L => eq_sym (E d L))) 0 v w H). lia.
Qed.

Lemma n_pretty : forall v w, ints_in ty v -> s_pretty cf = true -> s_ichar cf <> 0 -> n_height v < 65536 ->
  (n_dump_string ty cf v = Ret w <-> R (indented (s_step cf) (s_ichar cf)) 0 v w).
Proof.
  intros v w Hi P K Hh. rewrite n_text by assumption. unfold lay.
  assert (E : forall d, d <= n_height v -> d_ind cf d = repeat (s_ichar cf) (N.to_nat (d * s_step cf))).
  { intros d L. unfold d_ind. rewrite P. replace (s_ichar cf =? 0) with false by lia. replace (u16 d) with d by (unfold u16; lia). reflexivity. }
  assert (E1 : d_nl cf = [10]) by (unfold d_nl; rewrite P; reflexivity).
  assert (E2 : d_sp cf = [s_ichar cf]) by (unfold d_sp; rewrite P; reflexivity).
  split; intro H.
  - apply (proj1 (n_rend_lay _ _ _ (mkLay (d_nl cf) (d_ind cf) (d_sp cf)) (indented (s_step cf) (s_ichar cf)) (n_height v) E1 E2 E) 0 v w H). lia.
  - apply (proj1 (n_rend_lay _ _ _ (indented (s_step cf) (s_ichar cf)) (mkLay (d_nl cf) (d_ind cf) (d_sp cf)) (n_height v)
      (eq_sym E1) (eq_sym E2) (fun d L => eq_sym (E d L))) 0 v w H). lia.
Qed.
End Results.
