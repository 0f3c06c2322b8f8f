(** All that the specification of reading when memory runs out allows can happen. *)
From Coq Require Import Sorted Permutation Floats.SpecFloat Lia ZifyBool ZifyNat ZifyN.
From Verif Require Import Base Value Compare ValueOps Iterator SpecGrammar SpecText ObjFacts SpecValue ValueProofs SpecIter IterProofs
  SpecCompare CompareProofs Cpp Message Convert SpecConv ConvOrder ConvFloat ConvTo ConvFrom ConvRead ConvSafe ConvMem SpecConvMem
  ConvMemStep ConvMemSound ConvMemReach.
Open Scope N_scope.

(** ** Patterns of refusals *)
Definition fork (own : N -> bool) (subs : N -> refusals) : refusals := fun p => match p with [] => own | i :: p' => subs i p' end.
Definition no (_ : N) : bool := false.
Definition yes (_ : N) : bool := true.
Definition none : refusals := fun _ _ => false.
Definition all : refusals := fun _ _ => true.
Definition reading (own : N -> bool) (r : refusals) : refusals := fork own (fun i => if i =? 1 then none else r).

Section Choose.
Context {A B : Type} (G : refusals -> A -> outcome B).
Lemma enum_ge : forall (l : list A) i p, In p (enum i l) -> i <= fst p.
Proof.
  induction l as [|a l IH]; intros i p H; [destruct H|]. cbn [enum] in H. destruct H as [<-|H]; [cbn [fst]; lia|]. apply IH in H. lia.
Qed.
Lemma scan_ext : forall (g g' : N * A -> outcome B) l, (forall p, In p l -> g p = g' p) -> scan g l = scan g' l.
Proof.
  intros g g'. induction l as [|p l IH]; intro H; cbn [scan]; [reflexivity|]. rewrite (H p (or_introl eq_refl)), IH; [reflexivity|].
  intros q Hq. apply H. right. assumption.
Qed.
Lemma choose_cons : forall i f r, forall l, scan (fun p => G ((fun n => if n =? i then r else f n) (fst p)) (snd p)) (enum (i + 1) l) = scan (fun p => G (f (fst p)) (snd p)) (enum (i + 1) l).
Proof.
  intros i f r l. apply scan_ext. intros p Hp. apply enum_ge in Hp. cbn beta. replace (fst p =? i) with false by lia. reflexivity.
Qed.
Lemma choose_all : forall vs ys, Forall2 (fun a b => exists r, G r a = Ret b) vs ys -> forall i,
  exists f, scan (fun p => G (f (fst p)) (snd p)) (enum i vs) = (ys, Ret tt).
Proof.
  intros vs ys F. induction F as [|a b vs ys [r H] F IH]; intro i; [exists (fun _ => none); reflexivity|].
  destruct (IH (i + 1)) as [f E]. exists (fun n => if n =? i then r else f n). cbn [enum scan]. rewrite choose_cons, E. cbn [fst snd].
  rewrite N.eqb_refl, H. reflexivity.
Qed.
Lemma choose_stop : forall vs ys w rest er, Forall2 (fun a b => exists r, G r a = Ret b) vs ys -> (exists r, G r w = Throw er) -> forall i,
  exists f, scan (fun p => G (f (fst p)) (snd p)) (enum i (vs ++ w :: rest)) = (ys, Throw er).
Proof.
  intros vs ys w rest er F [rw Hw]. induction F as [|a b vs ys [r H] F IH]; intro i.
  - exists (fun _ => rw). cbn [app enum scan fst snd]. rewrite Hw. reflexivity.
  - destruct (IH (i + 1)) as [f E]. exists (fun n => if n =? i then r else f n). cbn [app enum scan]. rewrite choose_cons, E. cbn [fst snd].
    rewrite N.eqb_refl, H. reflexivity.
Qed.
End Choose.

Section Env.
Variable e : env.

Definition reach (t : cty) : Prop := forall v x, ordered v -> typed t x -> safe t v ->
  (forall y, may_read t v x y -> exists r, from_mem e r t v x = (y, Ret tt)) /\
  (forall y c, may_stop t v x y c -> exists r, from_mem e r t v x = (y, Throw EAlloc)).

Section One.
Variable t : cty.
Hypothesis W : wf_ty t.
Hypothesis R : reach t.
Lemma reading_get : forall own r v, get_mem e (reading own r) t v = fresh (from_mem e r t v (dflt t)).
Proof. intros own r v. unfold get_mem, made. change (refused (sub 1 (reading own r)) 0) with false. rewrite andb_false_r. reflexivity. Qed.
Lemma re_get : forall v, ordered v -> safe t v ->
  (forall y, may_read t v (dflt t) y -> exists r, forall own, get_mem e (reading own r) t v = Ret y) /\
  (forall c, may_fail t v c -> exists r, get_mem e r t v = Throw EAlloc).
Proof.
  intros v O S. destruct (R v (dflt t) O (dflt_typed t W) S) as [R1 R2]. split.
  - intros y H. destruct (R1 y H) as [r E]. exists r. intro own. rewrite reading_get, E. reflexivity.
  - intros c H. inversion H as [? ? A|? ? y ? St]; subst.
    + exists all. apply gm_throw. left. split; [|reflexivity]. apply inits_asks in A. rewrite A. reflexivity.
    + destruct (R2 y c St) as [r E]. exists (reading no r). rewrite reading_get, E. reflexivity.
Qed.
Lemma re_all : forall vs ys, (forall x, In x vs -> ordered x /\ safe t x) -> Forall2 (fun v y => may_read t v (dflt t) y) vs ys ->
  Forall2 (fun v y => exists r, get_mem e r t v = Ret y) vs ys /\
  Forall2 (fun v y => exists r, need r 3 (get_mem e r t v) = Ret y) vs ys.
Proof.
  intros vs ys O F. split; (eapply Forall2_in; [exact F|]); intros a b Ha H; destruct (O a Ha) as [Oa Sa];
    destruct (re_get a Oa Sa) as [G _]; destruct (G b H) as [r E]; exists (reading no r); rewrite E; reflexivity.
Qed.
Lemma re_set : forall vs ys, (forall x, In x vs -> ordered x /\ safe t x) -> Forall2 (fun v y => may_read t v (dflt t) y) vs ys ->
  Forall (fun y => ceqb y y = true) ys ->
  Forall2 (fun v y => exists r, (let* y := get_mem e r t v in if ceqb y y then need r 3 (Ret y) else UB) = Ret y) vs ys.
Proof.
  intros vs ys O F C. induction F as [|a b vs ys H F IH]; constructor; inversion C; subst.
  - destruct (O a (or_introl eq_refl)) as [Oa Sa]. destruct (re_get a Oa Sa) as [G _]. destruct (G b H) as [r E]. exists (reading no r). rewrite E. cbn [bind].
    match goal with X : ceqb b b = true |- _ => rewrite X end. reflexivity.
  - apply IH; [|assumption]. intros x Hx. apply O. right. assumption.
Qed.
Lemma re_node : forall w c, ordered w -> safe t w -> may_fail_node t w c -> exists r, need r 3 (get_mem e r t w) = Throw EAlloc.
Proof.
  intros w c O S H. destruct (re_get w O S) as [G1 G2]. inversion H as [? ? ? F|? ? y M]; subst.
  - destruct (G2 c F) as [r E]. exists r. rewrite E. reflexivity.
  - destruct (G1 y M) as [r E]. exists (reading yes r). rewrite E. reflexivity.
Qed.
Lemma re_pairs : forall o ps, (forall k x, In (k, x) o -> ordered x /\ safe t x) ->
  Forall2 (fun q p => fst p = fst q /\ may_read t (snd q) (dflt t) (snd p)) o ps ->
  Forall2 (fun (q : str * value) (p : str * cval) => exists r, need r 4 (let* y := get_mem e r t (snd q) in Ret (fst q, y)) = Ret p) o ps.
Proof.
  intros o ps O F. eapply Forall2_in; [exact F|]. intros [k a] [k' b] Ha [H1 H2]. cbn [fst snd] in *. subst k'. destruct (O k a Ha) as [Oa Sa].
  destruct (re_get a Oa Sa) as [G _]. destruct (G b H2) as [r E]. exists (reading no r). rewrite E. reflexivity.
Qed.
Lemma re_pair : forall (k : str) w c, ordered w -> safe t w -> may_fail_node t w c ->
  exists r, need r 4 (let* y := get_mem e r t w in Ret (k, y)) = Throw EAlloc.
Proof.
  intros k w c O S H. destruct (re_get w O S) as [G1 G2]. inversion H as [? ? ? F|? ? y M]; subst.
  - destruct (G2 c F) as [r E]. exists r. rewrite E. reflexivity.
  - destruct (G1 y M) as [r E]. exists (reading yes r). rewrite E. reflexivity.
Qed.
(** the key of an element that has none *)
Lemma re_first : forall w, ordered w -> safe t w -> exists r, first_mem e r t w = Throw EAlloc.
Proof.
  intros w O S. destruct (e_key1 e) eqn:K.
  - exists all. unfold first_mem. rewrite K. reflexivity.
  - set (r1 := fork yes (fun _ => none)).
    destruct (mt_get e t W (mt_all e t W) r1 w O S) as [[y E]|[er E]].
    + exists (fork no (fun _ => r1)). unfold first_mem. rewrite K. change (sub 0 (fork no (fun _ => r1))) with r1. rewrite E. reflexivity.
    + apply (so_get e t W (snd_all e t W)) in E; [|assumption]. destruct (re_get w O S) as [_ G]. destruct (G er E) as [r E'].
      exists (fork no (fun _ => r)). unfold first_mem. rewrite K. change (sub 0 (fork no (fun _ => r))) with r. rewrite E'. reflexivity.
Qed.
End One.

Lemma re_seq : forall k t, wf_ty (TySeq k t) -> reach t -> reach (TySeq k t).
Proof.
  intros k t W R v x O Tx S. inversion Tx as [| | | | | | | | | | |k' t' l Tl Ts| |]; subst. pose proof (wf_elem k t W) as Wt.
  assert (OS : forall vs, seq_items v vs -> forall w, In w vs -> ordered w /\ safe t w).
  { intros vs I w Hw. split; [eapply items_ordered; eassumption|eapply safe_items; eassumption]. }
  assert (Mid : forall vs w rest, seq_items v (vs ++ w :: rest) -> (forall x, In x vs -> ordered x /\ safe t x) /\ ordered w /\ safe t w /\ (forall x, In x rest -> ordered x /\ safe t x)).
  { intros vs w rest I. pose proof (OS _ I) as H. destruct (H w) as [Hw1 Hw2]; [apply in_or_app; right; left; reflexivity|].
    split; [intros y Hy; apply H, in_or_app; left; assumption|]. split; [assumption|]. split; [assumption|].
    intros y Hy; apply H, in_or_app; right; right; assumption. }
  split.
  - intros y H. inversion H as [| | | | | | | | | | | | | |? ? ? vs ys ? K1 K2 I F|? ? ? vs ys ? K I F C| |]; subst.
    + specialize (OS vs I). destruct (re_all t Wt R vs ys OS F) as [F1 F2].
      assert (V : k = KVector \/ k = KDeque -> exists r, from_mem e r (TySeq k t) v (CSeq l) = (CSeq ys, Ret tt)).
      { intro K. destruct (choose_all (fun r v => get_mem e r t v) vs ys F1 0) as [f E]. exists (fork no f). rewrite (mem_seq e k _ t v vs l I).
        assert (Q : seq_mem e k (fork no f) t vs l = (ys, Ret tt)); [|rewrite Q; reflexivity].
        transitivity (if (len l <? len vs) && refused (fork no f) 0 then (l, Throw EAlloc) else
          let '(ys, o) := scan (fun p => get_mem e (f (fst p)) t (snd p)) (enum 0 vs) in (ys ++ skipn (length ys) (resize (dflt t) (length vs) l), o)).
        { destruct K as [->| ->]; reflexivity. }
        rewrite E. change (refused (fork no f) 0) with false. rewrite andb_false_r.
        rewrite (vec_all KVector) by (auto || (symmetry; eapply Forall2_len; eassumption)). reflexivity. }
      destruct k; try congruence; auto.
      * destruct (choose_all (fun r v => need r 3 (get_mem e r t v)) vs ys F2 0) as [f E]. exists (fork no f). rewrite (mem_seq e KList _ t v vs l I).
        cbn [seq_mem]. change (scan (elem_node e (fork no f) t) (enum 0 vs)) with (scan (fun p => need (f (fst p)) 3 (get_mem e (f (fst p)) t (snd p))) (enum 0 vs)).
        rewrite E. reflexivity.
      * apply Forall2_rev' in F2. destruct (choose_all (fun r v => need r 3 (get_mem e r t v)) (rev vs) (rev ys) F2 0) as [f E]. exists (fork no f). rewrite (mem_seq e KForward _ t v vs l I).
        cbn [seq_mem]. change (scan (elem_node e (fork no f) t) (enum 0 (rev vs))) with (scan (fun p => need (f (fst p)) 3 (get_mem e (f (fst p)) t (snd p))) (enum 0 (rev vs))).
        rewrite E. cbn [fst snd]. rewrite rev_involutive. reflexivity.
    + specialize (OS vs I). pose proof (re_set t Wt R vs ys OS F C) as F1.
      destruct (choose_all (fun r v => let* y := get_mem e r t v in if ceqb y y then need r 3 (Ret y) else UB) vs ys F1 0) as [f E].
      exists (fork no f). rewrite (mem_seq e k _ t v vs l I).
      assert (Q : seq_mem e k (fork no f) t vs l = (insert_all ys [], Ret tt)); [|rewrite Q; reflexivity].
      transitivity (let '(ys, o) := scan (fun p => let* y := get_mem e (f (fst p)) t (snd p) in if ceqb y y then need (f (fst p)) 3 (Ret y) else UB) (enum 0 vs) in (insert_all ys [], o)).
      { destruct K as [->| ->]; reflexivity. }
      rewrite E. reflexivity.
  - intros y c H. inversion H; subst.
    + match goal with K : _ \/ _, L : _ < _ |- _ => rename K into K'; rename L into L' end. exists all.
      assert (A : forall K, (K = KVector \/ K = KDeque) -> from_mem e all (TySeq K t) v (CSeq l) = (CSeq l, Throw EAlloc)); [|auto].
      intros K HK. transitivity (if (len l <? v_size v) && refused all 0 then (CSeq l, @Throw unit EAlloc) else from_mem e all (TySeq K t) v (CSeq l)).
      * destruct HK as [->| ->]; cbn [from_mem]; destruct ((len l <? v_size v) && refused all 0); reflexivity.
      * change (refused all 0) with true. rewrite andb_true_r. replace (len l <? v_size v) with true by (unfold len; lia). reflexivity.
    + exists (fork no (fun _ => all)). match goal with N : no_seq_items _ |- _ => rewrite (mem_seq_kind e k _ t v l N) end.
      change (refused (fork no (fun _ => all)) 0) with false. rewrite andb_false_r.
      match goal with K : _ \/ _ |- _ => destruct K as [->| ->] end; reflexivity.
    + match goal with I : seq_items _ _ |- _ => destruct (Mid _ _ _ I) as (M1 & M2 & M3 & M4); pose proof I as I' end.
      destruct (re_all t Wt R vs ys M1) as [F1 F2]; [assumption|]. destruct (re_get t Wt R w M2 M3) as [_ G].
      destruct (choose_stop (fun r v => get_mem e r t v) vs ys w rest EAlloc F1 (G c ltac:(assumption)) 0) as [f E].
      exists (fork no f). rewrite (mem_seq e k _ t v _ l I').
      assert (Q : seq_mem e k (fork no f) t (vs ++ w :: rest) l = (ys ++ skipn (length ys) (resize (dflt t) (length (vs ++ w :: rest)) l), Throw EAlloc)); [|rewrite Q; reflexivity].
      transitivity (if (len l <? len (vs ++ w :: rest)) && refused (fork no f) 0 then (l, Throw EAlloc) else
          let '(ys, o) := scan (fun p => get_mem e (f (fst p)) t (snd p)) (enum 0 (vs ++ w :: rest)) in (ys ++ skipn (length ys) (resize (dflt t) (length (vs ++ w :: rest)) l), o)).
      { match goal with K : _ \/ _ |- _ => destruct K as [->| ->] end; reflexivity. }
      rewrite E. change (refused (fork no f) 0) with false. rewrite andb_false_r. reflexivity.
    + exists (fork no (fun _ => all)). match goal with N : no_seq_items _ |- _ => rewrite (mem_seq_kind e k _ t v l N) end.
      destruct k; try congruence; reflexivity.
    + match goal with I : seq_items _ _ |- _ => destruct (Mid _ _ _ I) as (M1 & M2 & M3 & M4); pose proof I as I' end.
      destruct (re_all t Wt R vs ys M1) as [F1 F2]; [assumption|]. pose proof (re_node t Wt R w c M2 M3 ltac:(assumption)) as G.
      destruct (choose_stop (fun r v => need r 3 (get_mem e r t v)) vs ys w rest EAlloc F2 G 0) as [f E].
      exists (fork no f). rewrite (mem_seq e KList _ t v _ l I').
      cbn [seq_mem]. change (scan (elem_node e (fork no f) t) (enum 0 (vs ++ w :: rest))) with (scan (fun p => need (f (fst p)) 3 (get_mem e (f (fst p)) t (snd p))) (enum 0 (vs ++ w :: rest))).
      rewrite E. reflexivity.
    + match goal with I : seq_items _ _ |- _ => destruct (Mid _ _ _ I) as (M1 & M2 & M3 & M4); pose proof I as I' end.
      destruct (re_all t Wt R rest ys M4) as [F1 F2]; [assumption|]. pose proof (re_node t Wt R w c M2 M3 ltac:(assumption)) as G.
      apply Forall2_rev' in F2.
      destruct (choose_stop (fun r v => need r 3 (get_mem e r t v)) (rev rest) (rev ys) w (rev vs) EAlloc F2 G 0) as [f E].
      exists (fork no f). rewrite (mem_seq e KForward _ t v _ l I').
      cbn [seq_mem]. rewrite rev_app_distr. cbn [rev]. rewrite <- app_assoc. cbn [app].
      change (scan (elem_node e (fork no f) t) (enum 0 (rev rest ++ w :: rev vs))) with (scan (fun p => need (f (fst p)) 3 (get_mem e (f (fst p)) t (snd p))) (enum 0 (rev rest ++ w :: rev vs))).
      rewrite E. cbn [fst snd]. rewrite rev_involutive. reflexivity.
    + match goal with I : seq_items _ _ |- _ => destruct (Mid _ _ _ I) as (M1 & M2 & M3 & M4); pose proof I as I' end.
      assert (F1 := re_set t Wt R vs ys M1 ltac:(assumption) ltac:(assumption)). destruct (re_get t Wt R w M2 M3) as [_ G].
      destruct (G c ltac:(assumption)) as [rw Ew].
      destruct (choose_stop (fun r v => let* y := get_mem e r t v in if ceqb y y then need r 3 (Ret y) else UB) vs ys w rest EAlloc F1) with (i := 0) as [f E].
      { exists rw. rewrite Ew. reflexivity. }
      exists (fork no f). rewrite (mem_seq e k _ t v _ l I').
      assert (Q : seq_mem e k (fork no f) t (vs ++ w :: rest) l = (insert_all ys [], Throw EAlloc)); [|rewrite Q; reflexivity].
      transitivity (let '(ys, o) := scan (fun p => let* y := get_mem e (f (fst p)) t (snd p) in if ceqb y y then need (f (fst p)) 3 (Ret y) else UB) (enum 0 (vs ++ w :: rest)) in (insert_all ys [], o)).
      { match goal with K : _ \/ _ |- _ => destruct K as [->| ->] end; reflexivity. }
      rewrite E. reflexivity.
    + match goal with I : seq_items _ _ |- _ => destruct (Mid _ _ _ I) as (M1 & M2 & M3 & M4); pose proof I as I' end.
      assert (F1 := re_set t Wt R vs ys M1 ltac:(assumption) ltac:(assumption)). destruct (re_get t Wt R w M2 M3) as [G _].
      destruct (G y0 ltac:(assumption)) as [rw Ew].
      destruct (choose_stop (fun r v => let* y := get_mem e r t v in if ceqb y y then need r 3 (Ret y) else UB) vs ys w rest EAlloc F1) with (i := 0) as [f E].
      { exists (reading yes rw). rewrite Ew. cbn [bind]. match goal with X : ceqb y0 y0 = true |- _ => rewrite X end. reflexivity. }
      exists (fork no f). rewrite (mem_seq e k _ t v _ l I').
      assert (Q : seq_mem e k (fork no f) t (vs ++ w :: rest) l = (insert_all ys [], Throw EAlloc)); [|rewrite Q; reflexivity].
      transitivity (let '(ys, o) := scan (fun p => let* y := get_mem e (f (fst p)) t (snd p) in if ceqb y y then need (f (fst p)) 3 (Ret y) else UB) (enum 0 (vs ++ w :: rest)) in (insert_all ys [], o)).
      { match goal with K : _ \/ _ |- _ => destruct K as [->| ->] end; reflexivity. }
      rewrite E. reflexivity.
Qed.

Lemma re_array : forall n t, wf_ty t -> reach t -> reach (TyArray n t).
Proof.
  intros n t W R v x O T S. inversion T as [| | | | | | | | | |n' t' l Ln Tl| | |]; subst n' t' x.
  assert (OS : forall vs, seq_items v vs -> forall w, In w vs -> ordered w /\ safe t w).
  { intros vs I w Hw. split; [eapply items_ordered; eassumption|eapply safe_array; eassumption]. }
  split.
  - intros y H. inversion H as [| | | | | | | | | | | |? ? ? vs ys ? I F| | | | |]; subst.
    + specialize (OS vs I).
      destruct (re_all t W R (firstn (length l) vs) ys) as [F1 _]; [|assumption|].
      { intros w Hw. apply OS. rewrite <- (firstn_skipn (length l) vs). apply in_or_app. left. assumption. }
      destruct (choose_all (fun r v => get_mem e r t v) _ ys F1 0) as [f E]. exists (fork no f). rewrite (mem_array e (length l) _ t v vs l I eq_refl).
      change (scan (elem e (fork no f) t) (enum 0 (firstn (length l) vs))) with (scan (fun p => get_mem e (f (fst p)) t (snd p)) (enum 0 (firstn (length l) vs))).
      rewrite E. reflexivity.
    + exists none. apply mem_array0.
  - intros y c H. inversion H; subst.
    + exists all. match goal with N : no_seq_items _ |- _ => rewrite (mem_array_kind e (length l) _ t v l N) end; [reflexivity|assumption].
    + match goal with I : seq_items _ _ |- _ => specialize (OS _ I); pose proof I as I' end.
      destruct (firstn_split _ vs w rest (length l)) as [b Eb]; [assumption|].
      destruct (re_all t W R vs ys) as [F1 _]; [|assumption|].
      { intros a Ha. apply OS, in_or_app. left. assumption. }
      destruct (OS w) as [Ow Sw]; [apply in_or_app; right; left; reflexivity|]. destruct (re_get t W R w Ow Sw) as [_ G].
      destruct (choose_stop (fun r v => get_mem e r t v) vs ys w b EAlloc F1 (G c ltac:(assumption)) 0) as [f E].
      exists (fork no f). rewrite (mem_array e (length l) _ t v _ l I' eq_refl), Eb.
      change (scan (elem e (fork no f) t) (enum 0 (vs ++ w :: b))) with (scan (fun p => get_mem e (f (fst p)) t (snd p)) (enum 0 (vs ++ w :: b))).
      rewrite E. reflexivity.
Qed.

Lemma re_map : forall h t, wf_ty t -> reach t -> reach (TyMap h t).
Proof.
  intros h t W R v x O T S. inversion T as [| | | | | | | | | | | |h' t' m Tm Ts|]; subst. apply ss_sorted in Ts.
  assert (OS : forall o, v = VObj o -> forall k w, In (k, w) o -> ordered w /\ safe t w).
  { intros o -> k w Hw. split; [inversion O; subst; eauto|eapply safe_entry; eassumption]. }
  assert (Kind : type_of v <> TObject -> ~ seq_items v [] -> exists r, from_mem e r (TyMap h t) v (CMap m) = (CMap m, Throw EAlloc)).
  { intros Ty Ni. destruct (mem_map_kind e h none t v m O Ty Ni) as (w & es & El & _).
    destruct (re_first t W R w) as [r E].
    - apply (elem_ordered v _ El O None). left. reflexivity.
    - eapply (safe_elem h t v _ None); [eassumption|assumption|left; reflexivity].
    - exists r. destruct (mem_map_kind e h r t v m O Ty Ni) as (w' & es' & El' & ->).
      assert (Ew : w' = w) by (clear - El El'; inversion El; subst; inversion El'; subst; congruence). subst w'. rewrite E. reflexivity. }
  split.
  - intros y H. inversion H as [| | | | | | | | | | | | | | | |? ? ? o ps ? m' Hv F M|]; subst. apply emplaces_iff in M; [|assumption]. subst m'.
    destruct Hv as [->|[I ->]].
    + pose proof (re_pairs t W R o ps (OS o eq_refl) F) as F1.
      destruct (choose_all (fun r (q : str * value) => need r 4 (let* y := get_mem e r t (snd q) in Ret (fst q, y))) o ps F1 0) as [f E].
      exists (fork no f). rewrite (mem_map e h _ t o m O).
      change (scan (pair_mem e (fork no f) t) (enum 0 o)) with (scan (fun p => need (f (fst p)) 4 (let* y := get_mem e (f (fst p)) t (snd (snd p)) in Ret (fst (snd p), y))) (enum 0 o)).
      rewrite E. reflexivity.
    + inversion F; subst. exists none. apply mem_map_none. assumption.
  - intros y c H. inversion H; subst.
    + apply Kind; assumption.
    + apply Kind; [assumption|]. intro I. pose proof (items_size _ _ I) as Sz.
      match goal with El : elements v _ |- _ => pose proof (elements_size _ _ El) as Sz' end. cbn [length] in Sz'.
      change (len (@nil value)) with 0 in Sz. lia.
    + match goal with M : map_of _ _ |- _ => apply emplaces_iff in M; [|assumption]; subst end.
      destruct (OS _ eq_refl k w) as [Ow Sw]; [apply in_or_app; right; left; reflexivity|].
      pose proof (re_pair t W R k w c Ow Sw ltac:(assumption)) as G.
      assert (F1 := re_pairs t W R o ps ltac:(intros k' x' Hx; apply (OS _ eq_refl k'), in_or_app; left; assumption) ltac:(assumption)).
      destruct (choose_stop (fun r (q : str * value) => need r 4 (let* y := get_mem e r t (snd q) in Ret (fst q, y))) o ps (k, w) rest EAlloc F1 G 0) as [f E].
      exists (fork no f). rewrite (mem_map e h _ t _ m O).
      change (scan (pair_mem e (fork no f) t) (enum 0 (o ++ (k, w) :: rest))) with (scan (fun p => need (f (fst p)) 4 (let* y := get_mem e (f (fst p)) t (snd (snd p)) in Ret (fst (snd p), y))) (enum 0 (o ++ (k, w) :: rest))).
      rewrite E. reflexivity.
Qed.

Definition field_reads (own : N -> bool) (rf rr : refusals) : refusals := fork own (fun i => if i =? 3 then rf else rr).
Lemma re_fields : forall fs, Forall (fun f => reach (snd f)) fs -> forall v l, ordered v ->
  Forall2 (fun f x => typed (snd f) x) fs l -> fields_safe fs v ->
  (forall l', may_fields v fs l l' -> exists r, fields_mem e v r fs l = (l', Ret tt)) /\
  (forall l' c, may_fields_stop v fs l l' c -> exists r, fields_mem e v r fs l = (l', Throw EAlloc)).
Proof.
  induction fs as [|[[n req] t] fs IH]; intros Tf v l O T S; inversion T as [|? x ? l0 Tx Tl]; subst.
  { split; intros; inversion H; exists none; reflexivity. }
  inversion Tf as [|? ? Tt Tfs]; subst. cbn [snd] in *.
  assert (S' : fields_safe fs v) by (eapply fields_safe_tail; eassumption).
  destruct (IH Tfs v l0 O Tl S') as [I1 I2]. clear IH.
  assert (P : forall o w, v = VObj o -> In (n, w) o -> at_key n v = Ret w /\ (0 <? v_count n v) = true /\ ordered w /\ safe t w).
  { intros o w -> Hw. assert (So : sorted o) by (inversion O; assumption). pose proof (proj2 (find_in _ n w o So) Hw) as Fn.
    split; [apply at_key_obj; assumption|]. split; [cbn [v_count]; rewrite Fn; reflexivity|]. split; [eapply ordered_find; eassumption|].
    apply (S n req t o w); [left; reflexivity|reflexivity|assumption]. }
  assert (A : (forall o w, v = VObj o -> ~ In (n, w) o) -> (0 <? v_count n v) = false).
  { intro A. destruct (obj_or_not v) as [[o ->]|Ty]; [|rewrite count_kind by assumption; reflexivity]. cbn [v_count].
    rewrite (proj2 (find_no _ n o)); [reflexivity|]. intros w. apply (A o w eq_refl). }
  assert (Rd : forall o w y, v = VObj o -> In (n, w) o -> (may_read t w x y \/ exists c, may_stop t w x y c) ->
    exists rf, forall rr, fields_mem e v (field_reads no rf rr) ((n, req, t) :: fs) (x :: l0) = let '(q, out) := fields_mem e v rr fs l0 in (y :: q, out)).
  { intros o w y Ev Hw H. destruct (P o w Ev Hw) as (P1 & P2 & P3 & P4). destruct (Tt w x P3 Tx P4) as [B1 B2].
    assert (E : exists rf, from_mem e rf t w x = (y, Ret tt) \/ exists er, from_mem e rf t w x = (y, Throw er)).
    { destruct H as [H|[c H]]; [destruct (B1 y H) as [rf E]; exists rf; left; assumption|destruct (B2 y c H) as [rf E]; exists rf; right; eauto]. }
    destruct E as [rf E]. exists rf. intro rr. cbn [fields_mem].
    change (sub 3 (field_reads no rf rr)) with rf. change (sub 4 (field_reads no rf rr)) with rr. unfold need. cbn [bind].
    change (refused (field_reads no rf rr) 0) with false. change (refused (field_reads no rf rr) 1) with false. cbn iota.
    rewrite P1, P2, saying_ret. replace (if req then Ret true else Ret true) with (Ret true) by (destruct req; reflexivity).
    destruct E as [E|[er E]]; rewrite E; reflexivity. }
  assert (Sk : forall rr, req = false -> (forall o w, v = VObj o -> ~ In (n, w) o) ->
    fields_mem e v (field_reads no rr rr) ((n, req, t) :: fs) (x :: l0) = let '(q, out) := fields_mem e v rr fs l0 in (x :: q, out)).
  { intros rr -> Ab. cbn [fields_mem]. change (sub 4 (field_reads no rr rr)) with rr. unfold need. cbn [bind].
    change (refused (field_reads no rr rr) 0) with false. cbn iota. rewrite (A Ab). reflexivity. }
  assert (Nm : exists r, fields_mem e v r ((n, req, t) :: fs) (x :: l0) = (x :: l0, Throw EAlloc)).
  { exists all. cbn [fields_mem]. unfold need. cbn [bind]. change (refused all 0) with true. change (refused all 1) with true. cbn iota. destruct req; reflexivity. }
  split.
  - intros l' H. inversion H; subst.
    + edestruct Rd as [rf E]; [reflexivity|eassumption|left; eassumption|]. edestruct I1 as [rr Er]; [eassumption|].
      exists (field_reads no rf rr). rewrite E, Er. reflexivity.
    + edestruct Rd as [rf E]; [reflexivity|eassumption|right; eexists; eassumption|]. edestruct I1 as [rr Er]; [eassumption|].
      exists (field_reads no rf rr). rewrite E, Er. reflexivity.
    + edestruct I1 as [rr Er]; [eassumption|]. exists (field_reads no rr rr). rewrite Sk by (reflexivity || assumption). rewrite Er. reflexivity.
  - intros l' c H. inversion H; subst; try assumption.
    + edestruct Rd as [rf E]; [reflexivity|eassumption|left; eassumption|]. edestruct I2 as [rr Er]; [eassumption|].
      exists (field_reads no rf rr). rewrite E, Er. reflexivity.
    + edestruct Rd as [rf E]; [reflexivity|eassumption|right; eexists; eassumption|]. edestruct I2 as [rr Er]; [eassumption|].
      exists (field_reads no rf rr). rewrite E, Er. reflexivity.
    + edestruct I2 as [rr Er]; [eassumption|]. exists (field_reads no rr rr). rewrite Sk by (reflexivity || assumption). rewrite Er. reflexivity.
Qed.

Lemma copies_none : forall {A} (l : list A) i, copies none i l = None.
Proof. induction l as [|w l IH]; intro i; [reflexivity|]. cbn [copies]. rewrite IH. reflexivity. Qed.
Lemma copies_at : forall {A} (a : list A) w b i j, j = i + N.of_nat (length a) ->
  copies (fork no (fun n => if n =? j then all else none)) i (a ++ w :: b) = Some (length a).
Proof.
  induction a as [|u a IH]; intros w b i j E; cbn [app copies length] in *; unfold sub, fork, refused.
  - replace (i =? j) with true by lia. reflexivity.
  - replace (i =? j) with false by lia. fold (fork no (fun n => if n =? j then all else none)). rewrite IH by lia. reflexivity.
Qed.
Lemma raw_reach : forall raw, reach (TyRaw raw).
Proof.
  intros raw v x O T S. split.
  - intros y H. exists none. inversion H; subst; cbn [from_mem dflt]; rewrite ?copies_none; reflexivity.
  - intros y c H. inversion H; subst.
    + exists all. destruct v; cbn [type_of] in *; try congruence; reflexivity.
    + exists all. destruct v; cbn [type_of] in *; try congruence; reflexivity.
    + exists (fork no (fun n => if n =? 0 + N.of_nat (length a) then all else none)). cbn [from_mem]. rewrite copies_at by reflexivity.
      rewrite Nat.min_comm, <- firstn_firstn, firstn_app, Nat.sub_diag, firstn_all, firstn_O, app_nil_r. reflexivity.
    + exists (fork no (fun n => if n =? 0 + N.of_nat (length a) then all else none)). cbn [from_mem]. rewrite copies_at by reflexivity.
      rewrite firstn_app, Nat.sub_diag, firstn_all, firstn_O, app_nil_r. reflexivity.
Qed.

Theorem reach_all : forall t, wf_ty t -> reach t.
Proof.
  induction t as [|w sg| | | | |raw|t IH|n t IH|k t IH|h t IH|fs IH] using cty_deep; intro W;
    try (intros v x O T S; split; [intros y H; exists none; inversion H; subst; reflexivity
      |intros y c H; exists all; inversion H; subst; destruct v; cbn [type_of] in *; try congruence; reflexivity]).
  - intros v x O T S. split.
    + intros y H. exists none. inversion H; subst. cbn [from_mem].
      match goal with St : stored _ _ _ _ |- _ => apply stored_wrap in St; [subst; reflexivity|eapply wf_width; eassumption] end.
    + intros y c H. exists all. inversion H; subst; destruct v; cbn [type_of] in *; try congruence; reflexivity.
  - intros v x O T S. split.
    + intros y H. exists none. inversion H; subst. reflexivity.
    + intros y c H. exists all. inversion H; subst; [|reflexivity]. destruct v; cbn [type_of] in *; try congruence; reflexivity.
  - intros v x O T S. split.
    + intros y H. exists none. inversion H; subst. cbn [from_mem]. unfold need. cbn [bind]. change (refused none 0) with false.
      match goal with |- context [owns ?u] => destruct (owns u) end; reflexivity.
    + intros y c H. exists all. inversion H; subst. match goal with Q : _ \/ _ |- _ => rename Q into Ow end.
      destruct v; try reflexivity; destruct Ow as [E|[E|E]]; discriminate.
  - apply raw_reach.
  - inversion W; subst. intros v x O T S.
    assert (St : safe t v) by (apply safe_ptr; assumption).
    destruct (re_get t H0 (IH H0) v O St) as [G1 G2]. split.
    + intros y H. inversion H; subst; [exists none; reflexivity|]. edestruct G1 as [r E]; [eassumption|]. exists (reading no r).
      rewrite ptr_mem by assumption. rewrite E. reflexivity.
    + intros y c H. inversion H; subst.
      * edestruct G2 as [r E]; [eassumption|]. exists r. rewrite ptr_mem by assumption. rewrite E. reflexivity.
      * edestruct G1 as [r E]; [eassumption|]. exists (reading yes r). rewrite ptr_mem by assumption. rewrite E. reflexivity.
  - inversion W; subst. apply re_array; auto.
  - apply re_seq; [assumption|]. inversion W; auto.
  - inversion W; subst. apply re_map; auto.
  - inversion W as [| | | | | | | | | | |fs' Nd Wf]; subst. intros v x O T S. inversion T; subst.
    destruct (re_fields fs) with (v := v) (l := l) as [F1 F2]; try assumption.
    { clear - IH Wf. induction IH; constructor; inversion Wf; subst; auto. }
    { apply safe_fields. assumption. }
    split.
    + intros y H. inversion H; subst. destruct (F1 l') as [r E]; [assumption|]. exists r. rewrite mem_struct, E. reflexivity.
    + intros y c H. inversion H; subst. destruct (F2 l' c) as [r E]; [assumption|]. exists r. rewrite mem_struct, E. reflexivity.
Qed.
End Env.

(** ** In terms of get *)
Section Get.
Variables (e : env) (t : cty) (v : value).
Hypotheses (W : wf_ty t) (O : ordered v) (S : ~ nan_in_set t v).

Theorem mem_enough : forall r, (forall p k, r p k = false) -> get_mem e r t v = get e t v.
Proof. intros r Q. apply (same_get e t W (same_all e t W) r v Q O). Qed.
Theorem mem_enough_into : forall r x, typed t x -> (forall p k, r p k = false) -> get_into_mem e r t v x = get_into e t v x.
Proof. intros r x T Q. unfold get_into_mem, get_into. rewrite (same_all e t W r v x Q O T). reflexivity. Qed.

Theorem mem_result : forall y, (exists r, get_mem e r t v = Ret y) <-> may_read t v (dflt t) y.
Proof.
  intro y. split.
  - intros [r H]. apply (so_get e t W (snd_all e t W) r v O). exact H.
  - intro H. destruct (re_get e t W (reach_all e t W) v O S) as [G _]. destruct (G y H) as [r E]. exists (reading no r). apply E.
Qed.
Theorem mem_alloc : (exists r, get_mem e r t v = Throw EAlloc) <-> exists c, may_fail t v c.
Proof.
  split.
  - intros [r H]. exists EAlloc. apply (so_get e t W (snd_all e t W) r v O). exact H.
  - intros [c H]. destruct (re_get e t W (reach_all e t W) v O S) as [_ G]. exact (G c H).
Qed.
Theorem mem_exception : forall er, er <> EAlloc -> (exists r, get_mem e r t v = Throw er) <-> get e t v = Throw er.
Proof.
  intros er N. split.
  - intros [r H]. destruct (sim_get e t W (sim_all e t W) r v O S) as [_ F]. destruct (F er H) as [E|E]; [congruence|exact E].
  - intro H. exists none. rewrite mem_enough; [exact H|reflexivity].
Qed.
Theorem mem_returns : forall r y, get_mem e r t v = Ret y -> exists y0, get e t v = Ret y0.
Proof. intros r y H. destruct (sim_get e t W (sim_all e t W) r v O S) as [F _]. exact (F y H). Qed.
Theorem mem_unbound : unbound t -> forall r y, get_mem e r t v = Ret y -> get e t v = Ret y.
Proof.
  intros U r y H. apply (so_get e t W (snd_all e t W) r v O) in H. apply unbound_reads in H; [|assumption].
  apply (bwd_get e t W (bwd_ok e t W) v O S). exact H.
Qed.
Theorem mem_defined : forall r, (exists y, get_mem e r t v = Ret y) \/ (exists er, get_mem e r t v = Throw er).
Proof. intro r. apply (mt_get e t W (mt_all e t W) r v O S). Qed.

Section Into.
Variable x : cval.
Hypothesis T : typed t x.
Theorem mem_into_true : forall y, (exists r, get_into_mem e r t v x = (y, Ret true)) <-> may_read t v x y.
Proof.
  intro y. split.
  - intros [r H]. unfold get_into_mem in H. destruct (from_mem e r t v x) as [x' [[]|er| | |]] eqn:E; try discriminate. injection H as <-.
    apply (snd_all e t W r v x O T). exact E.
  - intro H. destruct (reach_all e t W v x O T S) as [R _]. destruct (R y H) as [r E]. exists r. unfold get_into_mem. rewrite E. reflexivity.
Qed.
Theorem mem_into_false : forall y, (exists r, get_into_mem e r t v x = (y, Ret false)) <-> exists c, may_stop t v x y c.
Proof.
  intro y. split.
  - intros [r H]. unfold get_into_mem in H. destruct (from_mem e r t v x) as [x' [[]|er| | |]] eqn:E; try discriminate. injection H as <-.
    exists er. apply (snd_all e t W r v x O T). exact E.
  - intros [c H]. destruct (reach_all e t W v x O T S) as [_ R]. destruct (R y c H) as [r E]. exists r. unfold get_into_mem. rewrite E. reflexivity.
Qed.
Theorem mem_into_defined : forall r, exists y b, get_into_mem e r t v x = (y, Ret b).
Proof.
  intro r. pose proof (mt_all e t W r v x O T S) as D. unfold get_into_mem. destruct (from_mem e r t v x) as [y o]. cbn [snd] in D.
  destruct D as [[[] ->]|[er ->]]; eauto.
Qed.
Theorem mem_into_true_enough : forall r y, get_into_mem e r t v x = (y, Ret true) -> exists y0, get_into e t v x = (y0, Ret true).
Proof.
  intros r y H. destruct (sim_all e t W r v x O T S) as [F _]. unfold get_into_mem, get_into in *.
  destruct (from_mem e r t v x) as [x' [[]|er| | |]]; try discriminate. destruct (F tt eq_refl) as [[] E]. destruct (from_val e t v x) as [y0 o]. cbn [snd] in E. subst o. eauto.
Qed.
Theorem mem_unchanged : atomic t -> (forall raw, t <> TyRaw raw) -> forall r y, get_into_mem e r t v x = (y, Ret false) -> y = x.
Proof.
  intros A N r y H. destruct (proj1 (mem_into_false y) (ex_intro _ r H)) as [c M]. destruct A; try (inversion M; reflexivity). destruct (N raw). reflexivity.
Qed.
End Into.
End Get.

(** a struct with a REQUIRED string *)
Theorem mem_silent : ~ (forall e r t v y, wf_ty t -> getable t -> ordered v -> ~ nan_in_set t v -> get_mem e r t v = Ret y -> get e t v = Ret y).
Proof.
  intro H. set (t := TyStruct [([110], true, TyString)]). set (v := VObj [([110], VStr [120])]).
  set (e0 := mkEnv (fun l => l) (fun m => m) true).
  assert (W : wf_ty t) by (constructor; [constructor; [intros []|constructor]|constructor; [constructor|constructor]]).
  assert (Ga : getable t) by (repeat constructor).
  assert (O : ordered v).
  { constructor; [constructor; constructor|]. intros k x [E|[]]. injection E as <- <-. constructor. }
  assert (S : ~ nan_in_set t v).
  { intro N. inversion N as [| | | | |? ? ? ? ? ? Hf Hw N']; subst. destruct Hf as [Hf|[]]. injection Hf as <- <- <-. inversion N'. }
  specialize (H e0 (fun p k => match p with [2; 3] => true | _ => false end) t v (CRec [CStr []]) W Ga O S eq_refl). discriminate H.
Qed.
Theorem mem_raw : forall raw, exists v x y, ordered v /\ typed (TyRaw raw) x /\ y <> x /\
  forall e, exists r, get_into_mem e r (TyRaw raw) v x = (y, Ret false).
Proof.
  intros [|].
  - exists (VObj [(chars "a", VNull)]), (CJson (VObj [(chars "b", VNull)])), (CJson (VObj [])).
    assert (Q : forall k, ordered (VObj [(k, VNull)])).
    { intro k. constructor; [constructor; [constructor|constructor]|]. intros j x [E|[]]. injection E as _ <-. constructor. }
    split; [apply Q|]. split; [constructor; apply Q|]. split; [discriminate|]. intro e. exists all. reflexivity.
  - exists (VArr [VNull; VNull]), (CJson (VArr [VBool true; VBool true])), (CJson (VArr [VNull; VBool true])).
    assert (Q : forall l, Forall ordered l -> ordered (VArr l)) by (intros l F; constructor; apply Forall_forall; exact F).
    split; [apply Q; repeat constructor|]. split; [constructor; apply Q; repeat constructor|]. split; [discriminate|].
    intro e. exists (fork no (fun n => if n =? 1 then all else none)). reflexivity.
Qed.
