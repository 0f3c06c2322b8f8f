(** Insertion-ordered containers: what they keep, and the round trip. *)
From Coq Require Import Lia ZifyBool ZifyNat ZifyN Floats.SpecFloat.
From Verif Require Import Base Stream Encoding Value ValueOps Token FloatFmt Parser EncodingProofs EncodingFacts Feeds SpecUnicode SpecGrammar
  SpecText SpecRfc ObjFacts GrammarLex GrammarTok GrammarFacts NumberFacts FloatFacts RfcFacts Serializer DumpText DumpProofs SpecDump DumpFacts
  RoundTrip SpecParseHeap SpecContainer Container ContainerProofs.
Open Scope N_scope.

(** ** put_last *)
Lemma known_iff : forall k (m : mlist), existsb (fun p => str_eqb k (fst p)) m = true <-> In k (map fst m).
Proof.
  intros k m. rewrite existsb_exists, in_map_iff. split.
  - intros ([k' v] & I & E). apply str_eqb_iff in E. cbn [fst] in E. subst k'. exists (k, v). auto.
  - intros ([k' v] & E & I). cbn [fst] in E. subst k'. exists (k, v). split; [assumption|]. apply str_eqb_refl.
Qed.
Lemma put_last_all : forall vs m seen r, (forall k, In k seen <-> In k (map fst m)) -> firsts seen vs r ->
  fold_left (fun m p => put_last (fst p) (snd p) m) vs m = m ++ r.
Proof.
  intros vs m seen r X H. revert m X. induction H as [s|s k v ms r N H IH|s k v ms r N H IH]; intros m X.
  - rewrite app_nil_r. reflexivity.
  - cbn [fold_left fst snd]. unfold put_last at 2. destruct (existsb _ m) eqn:E; [apply known_iff in E; apply X in E; contradiction|].
    rewrite IH; [rewrite <- app_assoc; reflexivity|]. intro k'. rewrite map_app, in_app_iff. cbn [map In fst]. rewrite X. tauto.
  - cbn [fold_left fst snd]. unfold put_last at 2. destruct (existsb _ m) eqn:E; [apply IH; assumption|].
    exfalso. apply X, known_iff in N. congruence.
Qed.
Lemma firsts_ex : forall vs seen, exists r : list (str * value), firsts seen vs r.
Proof.
  induction vs as [|[k v] vs IH]; intro seen; [exists []; constructor|].
  destruct (in_dec (list_eq_dec N.eq_dec) k seen) as [I|I].
  - destruct (IH seen) as [r H]. exists r. apply fi_old; assumption.
  - destruct (IH (k :: seen)) as [r H]. exists ((k, v) :: r). apply fi_new; assumption.
Qed.
Lemma put_last_firsts : forall vs, firsts [] vs (fold_left (fun m p => put_last (fst p) (snd p) m) vs []).
Proof.
  intro vs. destruct (firsts_ex vs []) as [r H]. rewrite (put_last_all vs [] [] r) by (cbn; tauto || assumption). exact H.
Qed.

Lemma build_last : forall d, in_order d (build put_last d).
Proof.
  intro d. induction d as [v|s|ds IH|ms IH] using doc_rect2; cbn [build]; try constructor.
  - induction IH; constructor; auto.
  - econstructor; [|apply put_last_firsts]. induction IH as [|[k d] ms H IH IHl]; cbn [map]; constructor; auto.
Qed.
Lemma in_order_build : forall d v, in_order d v -> v = build put_last d.
Proof.
  intro d. induction d as [v|s|ds IH|ms IH] using doc_rect2; intros w H; inversion H as [| |? vs Fa|? vs m Fm O]; subst; try reflexivity; cbn [build]; f_equal.
  - clear H. revert vs Fa. induction IH as [|d ds H IH IHl]; intros vs Fa; inversion Fa; subst; [reflexivity|]. cbn [map]. f_equal; auto.
  - assert (E : vs = map (fun p => (fst p, build put_last (snd p))) ms).
    { clear H O m. revert vs Fm. induction IH as [|[k d] ms H IH IHl]; intros vs Fm; inversion Fm as [|? [k' v'] ? ? [X Y]]; subst; [reflexivity|].
      cbn [map fst snd] in *. subst. f_equal; [f_equal; auto|auto]. }
    rewrite <- E. symmetry. apply (put_last_all vs [] [] m); [cbn; tauto|assumption].
Qed.

(** ** put_all, and values as documents *)
Lemma put_all_all : forall (vs m : mlist), fold_left (fun m p => put_all (fst p) (snd p) m) vs m = m ++ vs.
Proof.
  induction vs as [|[k v] vs IH]; intro m; [rewrite app_nil_r; reflexivity|]. cbn [fold_left fst snd]. rewrite IH. unfold put_all.
  rewrite <- app_assoc. reflexivity.
Qed.
Lemma build_all_doc : forall v, build put_all (doc_of v) = v.
Proof.
  intro v. induction v as [|z|f|s|b|l IH|m IH] using value_rect2; try reflexivity; cbn [doc_of build]; f_equal.
  - induction IH as [|v l H IH IHl]; [reflexivity|]. cbn [map]. congruence.
  - rewrite put_all_all. cbn [app]. induction IH as [|[k v] l H IH IHl]; [reflexivity|]. cbn [map fst snd] in *. congruence.
Qed.
Lemma firsts_nodup : forall (m : mlist) seen, NoDup (map fst m) -> (forall k, In k (map fst m) -> ~ In k seen) -> firsts seen m m.
Proof.
  induction m as [|[k v] m IH]; intros seen N X; [constructor|]. cbn [map fst] in *. inversion N; subst.
  apply fi_new; [apply X; left; reflexivity|]. apply IH; [assumption|]. intros k' I [->|J]; [contradiction|]. exact (X k' (or_intror I) J).
Qed.
Lemma in_order_doc : forall v, distinct v -> in_order (doc_of v) v.
Proof.
  intro v. induction v as [|z|f|s|b|l IH|m IH] using value_rect2; intro D; cbn [doc_of]; try constructor.
  - assert (X : forall x, In x l -> distinct x) by (intros x I m S; apply D; eapply sub_arr; eassumption). clear D.
    induction IH as [|v l H IH IHl]; constructor; [apply H, X; left; reflexivity|]. apply IHl. intros. apply X. right. assumption.
  - apply io_obj with (vs := m).
    + assert (X : forall k x, In (k, x) m -> distinct x) by (intros k x I m' S; apply D; eapply sub_obj; eassumption). clear D.
      induction IH as [|[k v] l H IH IHl]; cbn [map]; constructor.
      * split; [reflexivity|]. apply H. apply (X k). left. reflexivity.
      * apply IHl. intros k' x I. apply (X k'). right. assumption.
    + apply firsts_nodup; [|intros k _ []]. apply D. apply sub_refl.
Qed.

(** ** The text of a value is the text of its document *)
Section Text.
Variables (pc : pcfg) (cf : scfg).
Hypothesis Hval : enc_ok (val_enc cf) (val_ck cf) = true.
Hypothesis Tc : tgt_ck pc = val_ck cf.
Hypothesis Te : tgt_enc pc = val_enc cf.
Variable la : layout.
Hypothesis Wnl : ws (nl la).
Hypothesis Wind : forall d, ws (ind la d).
Hypothesis Wsp : ws (sp la).
Notation A := SpecRfc.plain.
Notation mk := (made SpecRfc.plain cf).

Lemma string_writes : forall s w, ok_string A cf s -> unit_string cf s w ->
  exists L, mk L w /\ clean L /\ forall l, strlit (tgt_enc pc) (tgt_ck pc) (L ++ l) s l.
Proof.
  intros s w O U. destruct (string_rfc A cf Hval s w O U) as (L & R & M). exists L. split; [assumption|].
  split; [eapply string_clean; eassumption|]. intro l. rewrite Tc, Te. apply rfc_string_strlit. assumption.
Qed.
Lemma num_writes : forall v w, rfc_number A w v -> mk w w ->
  exists L, mk L w /\ forall g l, ws g -> stops (src_ck pc) l -> writes pc (g ++ L ++ l) (DVal v) l.
Proof.
  intros v w R M. exists w. split; [assumption|]. intros g l Wg S. eapply w_num; [apply clean_blank; [assumption|eapply number_clean; eassumption]|].
  apply rfc_number_number; assumption.
Qed.

Lemma rend_writes :
  (forall d v w, rend (unit_string cf) (float_text (s_ff cf) (s_prec cf)) la d v w -> ok_any cf v ->
     exists L, mk L w /\ forall g l, ws g -> stops (src_ck pc) l -> writes pc (g ++ L ++ l) (doc_of v) l) /\
  (forall d vs w, rend_elems (unit_string cf) (float_text (s_ff cf) (s_prec cf)) la d vs w -> (forall v, In v vs -> ok_any cf v) ->
     exists L, mk L w /\ forall t l, ws t -> writes_elems pc (L ++ t ++ 93 :: l) (map doc_of vs) l) /\
  (forall d m w, rend_members (unit_string cf) (float_text (s_ff cf) (s_prec cf)) la d m w ->
     (forall k v, In (k, v) m -> ok_string A cf k /\ ok_any cf v) ->
     exists L, mk L w /\ forall t l, ws t -> writes_members pc (L ++ t ++ 125 :: l) (map (fun p => (fst p, doc_of (snd p))) m) l).
Proof.
  assert (Cl : forall g c w l, ws g -> c <> 32 -> c <> 9 -> c <> 10 -> c <> 13 -> c <> 47 -> blank (g ++ (c :: w) ++ l) ((c :: w) ++ l)).
  { intros. apply clean_blank; [assumption|]. eexists _, _. split; [reflexivity|]. unfold space. lia. }
  assert (St : forall t c l, ws t -> c < 48 \/ (57 < c < 256) -> c <> 46 -> c <> 101 -> c <> 69 -> stops (src_ck pc) (t ++ c :: l)).
  { intros. apply stops_ws; [assumption|]. apply stops_cons; assumption. }
  assert (Bl : forall t c l, ws t -> c <> 32 -> c <> 9 -> c <> 10 -> c <> 13 -> c <> 47 -> blank (t ++ c :: l) (c :: l)).
  { intros. apply ws_blank; [assumption|unfold space; lia|assumption]. }
  assert (Asc : forall c, c < 128 -> mk [c] [c]) by (intros; apply made_ascii; repeat constructor; assumption).
  assert (Mws : forall g, ws g -> mk g g) by (intros g W; apply made_ascii; eapply Forall_impl; [|exact W]; cbv beta; intros; lia).
  assert (Wap : forall a b, ws a -> ws b -> ws (a ++ b)) by (intros; apply Forall_app; split; assumption).
  apply (rend_mutind (unit_string cf) (float_text (s_ff cf) (s_prec cf)) la
    (fun d v w _ => ok_any cf v -> exists L, mk L w /\ forall g l, ws g -> stops (src_ck pc) l -> writes pc (g ++ L ++ l) (doc_of v) l)
    (fun d vs w _ => (forall v, In v vs -> ok_any cf v) -> exists L, mk L w /\ forall t l, ws t -> writes_elems pc (L ++ t ++ 93 :: l) (map doc_of vs) l)
    (fun d m w _ => (forall k v, In (k, v) m -> ok_string A cf k /\ ok_any cf v) ->
       exists L, mk L w /\ forall t l, ws t -> writes_members pc (L ++ t ++ 125 :: l) (map (fun p => (fst p, doc_of (snd p))) m) l)).
  - intros d _. eexists. split; [apply made_ascii; repeat constructor|]. intros g l Wg S. eapply w_lit; [apply Cl; [assumption|lia..]|].
    apply li_null with (w := [117; 108; 108]). destruct (src_ck pc); reflexivity.
  - intros d _. eexists. split; [apply made_ascii; repeat constructor|]. intros g l Wg S. eapply w_lit; [apply Cl; [assumption|lia..]|].
    apply li_true with (w := [114; 117; 101]). destruct (src_ck pc); reflexivity.
  - intros d _. eexists. split; [apply made_ascii; repeat constructor|]. intros g l Wg S. eapply w_lit; [apply Cl; [assumption|lia..]|].
    apply li_false with (w := [97; 108; 115; 101]). destruct (src_ck pc); reflexivity.
  - intros d z w H O. destruct (O (VInt z) (sub_refl _)) as [R B]. destruct (int_rfc A cf z w R B H). apply num_writes; assumption.
  - intros d f w H O. destruct (float_rfc A cf f w (O (VFloat f) (sub_refl _)) H). apply num_writes; assumption.
  - intros d s w H O. destruct (string_writes s w (O (VStr s) (sub_refl _)) H) as (L & M & C & X). exists L. split; [assumption|].
    intros g l Wg S. eapply w_str; [apply clean_blank; eassumption|apply X].
  - intros d O. exists (91 :: (nl la ++ ind la d) ++ [93]). split.
    + rewrite <- app_assoc. apply made_cons; [lia|]. apply made_app; [apply Mws; auto|]. apply made_app; [apply Mws; auto|]. apply Asc. lia.
    + intros g l Wg S. cbn [doc_of map]. eapply w_arr with (l1 := (nl la ++ ind la d) ++ 93 :: l).
      * replace (((nl la ++ ind la d) ++ 93 :: l)) with ((((nl la ++ ind la d) ++ [93]) ++ l)) by (rewrite <- app_assoc; reflexivity).
        apply Cl; [assumption|lia..].
      * apply we_end. apply Bl; [apply Wap; auto|lia..].
  - intros d v vs w H IH O. destruct (IH (fun x X y Y => O y (sub_arr _ _ _ X Y))) as (L & M & X).
    exists (91 :: (L ++ nl la ++ ind la d) ++ [93]). split.
    + rewrite <- !app_assoc. apply made_cons; [lia|]. apply made_app; [exact M|]. apply made_app; [apply Mws; auto|].
      apply made_app; [apply Mws; auto|]. apply Asc. lia.
    + intros g l Wg S. change (doc_of (VArr (v :: vs))) with (DArr (map doc_of (v :: vs))). eapply w_arr; [|apply (X (nl la ++ ind la d) l); apply Wap; auto].
      replace (L ++ (nl la ++ ind la d) ++ 93 :: l) with (((L ++ nl la ++ ind la d) ++ [93]) ++ l) by (rewrite <- !app_assoc; reflexivity).
      apply Cl; [assumption|lia..].
  - intros d O. exists (123 :: (nl la ++ ind la d) ++ [125]). split.
    + rewrite <- app_assoc. apply made_cons; [lia|]. apply made_app; [apply Mws; auto|]. apply made_app; [apply Mws; auto|]. apply Asc. lia.
    + intros g l Wg S. cbn [doc_of map]. eapply w_obj with (l1 := (nl la ++ ind la d) ++ 125 :: l).
      * replace (((nl la ++ ind la d) ++ 125 :: l)) with ((((nl la ++ ind la d) ++ [125]) ++ l)) by (rewrite <- app_assoc; reflexivity).
        apply Cl; [assumption|lia..].
      * apply wm_end. apply Bl; [apply Wap; auto|lia..].
  - intros d p m w H IH O. pose proof (O _ (sub_refl _)) as Ks. cbv beta iota in Ks.
    destruct (IH (fun k v X => conj (proj1 (Forall_forall _ _) Ks (k, v) X) (fun y Y => O y (sub_obj _ _ _ _ X Y)))) as (L & M & X).
    exists (123 :: (L ++ nl la ++ ind la d) ++ [125]). split.
    + rewrite <- !app_assoc. apply made_cons; [lia|]. apply made_app; [exact M|]. apply made_app; [apply Mws; auto|].
      apply made_app; [apply Mws; auto|]. apply Asc. lia.
    + intros g l Wg S. change (doc_of (VObj (p :: m))) with (DObj (map (fun p => (fst p, doc_of (snd p))) (p :: m))).
      eapply w_obj; [|apply (X (nl la ++ ind la d) l); apply Wap; auto].
      replace (L ++ (nl la ++ ind la d) ++ 125 :: l) with (((L ++ nl la ++ ind la d) ++ [125]) ++ l) by (rewrite <- !app_assoc; reflexivity).
      apply Cl; [assumption|lia..].
  - intros d v w H IH O. destruct (IH (O v (or_introl eq_refl))) as (L & M & X). exists ((nl la ++ ind la d) ++ L). split.
    + rewrite <- app_assoc. apply made_app; [apply Mws; auto|]. apply made_app; [apply Mws; auto|]. exact M.
    + intros t l Wt. rewrite <- (app_assoc (nl la ++ ind la d)). cbn [map]. eapply we_last; [apply X; [apply Wap; auto|]|apply Bl; [assumption|lia..]].
      apply St; [assumption|lia..].
  - intros d v w v' vs ws0 H IH H2 IH2 O. destruct (IH (O v (or_introl eq_refl))) as (L & M & X).
    destruct (IH2 (fun x Y => O x (or_intror Y))) as (L2 & M2 & X2). exists ((nl la ++ ind la d) ++ L ++ 44 :: L2). split.
    + rewrite <- app_assoc. apply made_app; [apply Mws; auto|]. apply made_app; [apply Mws; auto|]. apply made_app; [exact M|]. apply made_cons; [lia|exact M2].
    + intros t l Wt. rewrite <- (app_assoc (nl la ++ ind la d)), <- (app_assoc L). cbn [app]. cbn [map].
      eapply we_more; [apply X; [apply Wap; auto|]|apply (Bl []); [constructor|lia..]|apply X2; assumption].
      apply (St []); [constructor|lia..].
  - intros d k wk v w Hk H IH O. destruct (O k v (or_introl eq_refl)) as [Ok Ov].
    destruct (string_writes k wk Ok Hk) as (Lk & Mk & Ck & Xk). destruct (IH Ov) as (L & M & X).
    exists ((nl la ++ ind la d) ++ Lk ++ 58 :: sp la ++ L). split.
    + rewrite <- app_assoc. apply made_app; [apply Mws; auto|]. apply made_app; [apply Mws; auto|].
      apply made_app; [exact Mk|]. apply made_cons; [lia|]. apply made_app; [apply Mws; auto|exact M].
    + intros t l Wt. rewrite <- (app_assoc (nl la ++ ind la d)), <- (app_assoc Lk). cbn [app]. rewrite <- (app_assoc (sp la)). cbn [map fst snd].
      eapply wm_last; [apply clean_blank; [apply Wap; auto|exact Ck]|apply Xk|apply (Bl []); [constructor|lia..]|apply X; [assumption|]|apply Bl; [assumption|lia..]].
      apply St; [assumption|lia..].
  - intros d k wk v w p m ws0 Hk H IH H2 IH2 O. destruct (O k v (or_introl eq_refl)) as [Ok Ov].
    destruct (string_writes k wk Ok Hk) as (Lk & Mk & Ck & Xk). destruct (IH Ov) as (L & M & X).
    destruct (IH2 (fun k' v' Y => O k' v' (or_intror Y))) as (L2 & M2 & X2).
    exists ((nl la ++ ind la d) ++ Lk ++ 58 :: sp la ++ L ++ 44 :: L2). split.
    + rewrite <- app_assoc. apply made_app; [apply Mws; auto|]. apply made_app; [apply Mws; auto|].
      apply made_app; [exact Mk|]. apply made_cons; [lia|]. apply made_app; [apply Mws; auto|]. apply made_app; [exact M|]. apply made_cons; [lia|exact M2].
    + intros t l Wt. rewrite <- (app_assoc (nl la ++ ind la d)), <- (app_assoc Lk). cbn [app]. rewrite <- (app_assoc (sp la)), <- (app_assoc L). cbn [app].
      change (map (fun p0 => (fst p0, doc_of (snd p0))) ((k, v) :: p :: m)) with ((k, doc_of v) :: map (fun p0 => (fst p0, doc_of (snd p0))) (p :: m)).
      eapply wm_more; [apply clean_blank; [apply Wap; auto|exact Ck]|apply Xk|apply (Bl []); [constructor|lia..]|apply X; [assumption|]|apply (Bl []); [constructor|lia..]|apply X2; assumption].
      apply (St []); [constructor|lia..].
Qed.
End Text.

Lemma dump_wrote : forall pc cf v w, tgt_ck pc = val_ck cf -> tgt_enc pc = val_enc cf -> enc_ok (out_enc cf) (out_ck cf) = true ->
  enc_ok (val_enc cf) (val_ck cf) = true -> blank_indent cf -> ok_any cf v -> dump_string cf v = Ret w ->
  exists L, wrote pc L (doc_of v) [] /\ out_text (out_enc cf) (out_ck cf) L = Some w /\ Forall (plain_cp SpecRfc.plain cf) L.
Proof.
  intros pc cf v w Tc Te Ho Hv B O D. apply dump_string_ret in D; [|assumption]. apply d_val_iff in D. destruct (lay_ws cf B) as (W1 & W2 & W3).
  destruct (proj1 (rend_writes pc cf Hv Tc Te (lay cf) W1 W2 W3) 0 v w D O) as (L & [M P] & X). exists L. split; [|split; assumption].
  apply wr_end with (l1 := []); [|apply bl_none; exact Logic.I]. specialize (X [] [] ltac:(constructor) (stops_nil _)). cbn [app] in X.
  rewrite app_nil_r in X. exact X.
Qed.

Lemma plain_feeds : forall cf L w, enc_ok (out_enc cf) (out_ck cf) = true -> (out_enc cf = Ignore -> s_esc cf = true) ->
  out_text (out_enc cf) (out_ck cf) L = Some w -> Forall (plain_cp SpecRfc.plain cf) L -> feeds (out_enc cf) (out_ck cf) (sis w) L TEof.
Proof.
  intros cf L w Ho Ig E P. apply feeds_enc_text; [assumption|rewrite <- out_text_enc; assumption|].
  eapply Forall_impl; [|exact P]. intros x [X|[Es X]].
  - apply faithful_rt. unfold faithful, SpecGrammar.lead. destruct (out_enc cf); try exact Logic.I; lia.
  - apply faithful_rt. unfold faithful. destruct X as (_ & Lx & _). destruct (out_enc cf); try exact Logic.I.
    + rewrite (Ig eq_refl) in Es. discriminate.
    + intro Y. exact (Lx Y).
Qed.

Lemma round_any : forall put pc cf v w, reads pc cf -> enc_ok (out_enc cf) (out_ck cf) = true -> enc_ok (val_enc cf) (val_ck cf) = true ->
  (out_enc cf = Ignore -> s_esc cf = true) -> blank_indent cf -> ok_any cf v -> dump_string cf v = Ret w ->
  parse_string_with put pc w = Ret (build put (doc_of v)).
Proof.
  intros put pc cf v w (R1 & R2 & R3 & R4) Ho Hv Ig B O D.
  destruct (dump_wrote pc cf v w R3 R4 Ho Hv B O D) as (L & W & E & P). pose proof (plain_feeds cf L w Ho Ig E P) as F.
  apply (accepts put pc w L TEof); [rewrite R3, R4; assumption|rewrite R1, R2; assumption|]. exists (doc_of v), []. auto.
Qed.

Lemma round_last : forall pc cf v w, reads pc cf -> enc_ok (out_enc cf) (out_ck cf) = true -> enc_ok (val_enc cf) (val_ck cf) = true ->
  (out_enc cf = Ignore -> s_esc cf = true) -> blank_indent cf -> ok_any cf v -> distinct v -> dump_string cf v = Ret w ->
  parse_string_with put_last pc w = Ret v.
Proof.
  intros pc cf v w R Ho Hv Ig B O Di D. rewrite (round_any put_last pc cf v w); try assumption. f_equal. symmetry. apply in_order_build, in_order_doc. assumption.
Qed.

(** ** The same members as in a std::map *)
Lemma firsts_assoc : forall seen (ms m : mlist), firsts seen ms m -> forall k v, ~ In k seen -> (assoc k v ms <-> assoc k v m).
Proof.
  intros seen ms m H. induction H as [s|s k0 v0 ms m N H IH|s k0 v0 ms m N H IH]; intros k v X.
  - reflexivity.
  - assert (C : k0 <> k -> ~ In k (k0 :: s)) by (intros D [E|E]; [exact (D E)|exact (X E)]).
    split; intro Y; inversion Y; subst; try (apply as_here); (apply as_next; [assumption|]); apply IH; auto.
  - split; intro Y.
    + inversion Y; subst; [contradiction|]. apply IH; assumption.
    + apply as_next; [intro; subst; contradiction|]. apply IH; assumption.
Qed.
Lemma firsts_keys : forall seen (ms m : mlist), firsts seen ms m -> NoDup (map fst m) /\ forall k, In k (map fst m) -> ~ In k seen.
Proof.
  intros seen ms m H. induction H as [s|s k0 v0 ms m N H [IH1 IH2]|s k0 v0 ms m N H IH]; [split; [constructor|intros k []]| |exact IH].
  cbn [map fst]. split.
  - constructor; [|assumption]. intro I. apply (IH2 _ I). left. reflexivity.
  - intros k [<-|I]; [assumption|]. intro J. apply (IH2 _ I). right. assumption.
Qed.
Lemma assoc_map : forall A B (f : A -> B) k y (ms : list (str * A)), assoc k y (map (fun p => (fst p, f (snd p))) ms) <-> exists x, assoc k x ms /\ y = f x.
Proof.
  intros A B f k y ms. induction ms as [|[k0 x0] ms IH]; cbn [map fst snd].
  - split; [intro H; inversion H|intros (x & H & _); inversion H].
  - split.
    + intro H. inversion H; subst; [exists x0; split; [constructor|reflexivity]|]. destruct (proj1 IH) as (x & X & E); [assumption|]. exists x. split; [apply as_next; assumption|assumption].
    + intros (x & H & ->). inversion H; subst; [constructor|]. apply as_next; [assumption|]. apply IH. eauto.
Qed.

Lemma build_arranged : forall d, well d -> arranged (build put_last d) (build obj_emplace d).
Proof.
  intro d. induction d as [v|s|ds IH|ms IH] using doc_rect2; intro W.
  - apply ar_val. exact W.
  - apply ar_str.
  - rewrite well_arr in W. cbn [build]. apply ar_arr. induction IH as [|d ds H IH IHl]; [constructor|]. destruct W. constructor; auto.
  - rewrite well_obj in W. cbn [build].
    set (r := fold_left (fun m p => put_last (fst p) (snd p) m) (map (fun p => (fst p, build put_last (snd p))) ms) []).
    set (m := fold_left (fun m p => obj_emplace (fst p) (snd p) m) (map (fun p => (fst p, build obj_emplace (snd p))) ms) []).
    assert (R : firsts [] (map (fun p => (fst p, build put_last (snd p))) ms) r) by apply put_last_firsts.
    assert (M : obj_of (map (fun p => (fst p, build obj_emplace (snd p))) ms) m) by (apply obj_of_iff, fold_emplace).
    destruct M as [So M].
    assert (Q : forall k d, assoc k d ms -> arranged (build put_last d) (build obj_emplace d)).
    { clear R So M r m. intros k d X. apply assoc_in in X. induction IH as [|[k0 d0] ms H IH IHl]; [contradiction|]. destruct W as [W1 W2].
      cbn [snd] in *. destruct X as [E|X]; [inversion E; subst; auto|auto]. }
    apply ar_obj; [apply (firsts_keys _ _ _ R)|assumption|..].
    + intros k x X. apply (firsts_assoc _ _ _ R k x (fun Z => Z)) in X. apply assoc_map in X. destruct X as (d & X & ->).
      exists (build obj_emplace d). split; [apply M, assoc_map; eauto|eauto].
    + intros k y Y. apply M, assoc_map in Y. destruct Y as (d & Y & ->). exists (build put_last d). apply (firsts_assoc _ _ _ R k _ (fun Z => Z)), assoc_map. eauto.
Qed.

Lemma wrote_well : forall cf l d rest, wrote cf l d rest -> well d.
Proof. intros cf l d rest H. destruct H; eapply writes_well; eassumption. Qed.

Lemma last_map : forall cf s v', enc_ok (tgt_enc cf) (tgt_ck cf) = true -> parse_string_with put_last cf s = Ret v' ->
  exists v, parse_string cf s = Ret v /\ arranged v' v.
Proof.
  intros cf s v' Hok P. destruct (feeds_string (src_enc cf) (src_ck cf) s) as (l & t & F & _).
  apply (accepts put_last cf s l t v' Hok F) in P. destruct P as (d & rest & W & Hr & ->).
  exists (build obj_emplace d). split; [|apply build_arranged; eapply wrote_well; eassumption].
  rewrite <- parse_string_with_emplace. apply (accepts obj_emplace cf s l t _ Hok F). eauto.
Qed.

Lemma last_accepts : forall cf s l t v, enc_ok (tgt_enc cf) (tgt_ck cf) = true ->
  feeds (src_enc cf) (src_ck cf) (sis s) l t ->
  (parse_string_with put_last cf s = Ret v <-> exists d rest, wrote cf l d rest /\ (t = TEof \/ rest <> []) /\ in_order d v).
Proof.
  intros cf s l t v Hok F. rewrite (accepts put_last cf s l t v Hok F). split; intros (d & rest & W & Hr & X); exists d, rest; repeat split; try assumption.
  - subst v. apply build_last.
  - apply in_order_build. assumption.
Qed.

(** one end for all containers *)
Lemma same_end : forall put cf h n c b, snd (parse_with put cf h n c b) = snd (parse_ibuf cf h n c b).
Proof.
  intros. rewrite <- parse_with_emplace. destruct (with_doc cf h n c b) as (d & o & E). rewrite !E. reflexivity.
Qed.
Lemma same_doc : forall cf h n c b, exists d, fst (parse_ibuf cf h n c b) = build obj_emplace d /\
  forall put, fst (parse_with put cf h n c b) = build put d.
Proof.
  intros cf h n c b. destruct (with_doc cf h n c b) as (d & o & E). exists d. split; [rewrite <- parse_with_emplace|intro put]; rewrite E; reflexivity.
Qed.
Lemma round_arranged : forall pc cf v w, reads pc cf -> enc_ok (out_enc cf) (out_ck cf) = true -> enc_ok (val_enc cf) (val_ck cf) = true ->
  (out_enc cf = Ignore -> s_esc cf = true) -> blank_indent cf -> ok_any cf v -> distinct v -> dump_string cf v = Ret w ->
  exists v', parse_string pc w = Ret v' /\ arranged v v'.
Proof.
  intros pc cf v w R Ho Hv Ig B O Di D. apply last_map; [|eapply round_last; eassumption]. destruct R as (_ & _ & -> & ->). assumption.
Qed.
