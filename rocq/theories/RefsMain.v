(** Programs with references. *)
From Coq Require Import Lia Permutation Arith.
From Verif Require Import Base Value ValueOps SpecGrammar SpecText ObjFacts SpecValue ValueProofs Heap SpecHeap HeapGhost HeapPaths HeapOps HeapProofs HeapMain Refs SpecRefs RefsFacts RefsProofs.
Open Scope nat_scope.

Lemma forall2_impl : forall A B (P Q : A -> B -> Prop) la lb, (forall a b, P a b -> Q a b) -> Forall2 P la lb -> Forall2 Q la lb.
Proof. intros A B P Q la lb H F. induction F; constructor; auto. Qed.

Lemma leads : forall s G R ls, rep s G [] -> refers s (vals G) R ls <-> Forall2 (fun r l => forall a, r = Some a -> exists x, fwalk G a = Some (l, x)) R ls.
Proof.
  intros s G R ls H. split; intro F; (eapply forall2_impl; [|exact F]); intros r l K a E; specialize (K a E).
  - destruct K as ((x & Hx) & El). apply sget_walk in Hx. destruct Hx as (l0 & x0 & W & V). rewrite (locate_ok _ _ _ _ _ _ H W) in El. injection El as <-. eauto.
  - destruct K as (x & W). split; [exists (val_of x); eapply walk_sget; eassumption|]. eapply locate_ok; eassumption.
Qed.

Lemma leads_on : forall c S o s' G G' R R' ls, kept c S o s' G G' -> tracked c S o R R' ->
  Forall2 (fun r l => forall a, r = Some a -> exists x, fwalk G a = Some (l, x)) R ls ->
  Forall2 (fun r l => forall a, r = Some a -> exists x, fwalk G' a = Some (l, x)) R' ls.
Proof.
  intros c S o s' G G' R R' ls [K _] T. revert ls. induction T as [|r r' R R' Hr T IH]; intros ls F; inversion F as [|? l ? ls' Hl F']; subst; constructor.
  - intros a' E. destruct (Hr _ E) as (a & Ea & Fa). destruct (Hl _ Ea) as (x & W). eapply K; eassumption.
  - apply IH. assumption.
Qed.

(** ** One command *)
Lemma ref_step : forall c S S' o s R R' ls, tstep c S S' o -> in_order S -> holds s S -> refers s S R ls -> tracked c S o R R' ->
  exists s', exec c s = (s', o) /\ holds s' S' /\ refers s' S' R' ls.
Proof.
  intros c S S' o s R R' ls T O H Rf Tr. apply holds_rep in H. destruct H as (G & H & ES).
  destruct (follow_step _ _ _ _ T O _ _ _ H ES) as (s' & G' & E & H' & ES' & K). exists s'. split; [assumption|]. subst S S'. split; [apply rep_holds; assumption|].
  apply (leads _ _ _ _ H) in Rf. apply (leads _ _ _ _ H'). eapply leads_on; eassumption.
Qed.

Lemma ref_dangling : forall c S S' o s r x l, tstep c S S' o -> in_order S -> holds s S -> sget S r x -> locate r s = (s, Ret l) ->
  exists s', exec c s = (s', o) /\ ((exists r', follows c S o r r') \/ snd (read_loc l s') = UB).
Proof.
  intros c S S' o s r x l T O H Hx El. apply holds_rep in H. destruct H as (G & H & ES).
  destruct (follow_step _ _ _ _ T O _ _ _ H ES) as (s' & G' & E & H' & ES' & [_ K]). exists s'. split; [assumption|]. subst S.
  apply sget_walk in Hx. destruct Hx as (l0 & x0 & W & V). rewrite (locate_ok _ _ _ _ _ _ H W) in El. injection El as <-. eapply K. eassumption.
Qed.

Lemma ref_one : forall c S S' o s r1 r2 r1' r2' x1 x2, tstep c S S' o -> in_order S -> holds s S -> sget S r1 x1 -> sget S r2 x2 ->
  follows c S o r1 r1' -> follows c S o r2 r2' -> (r1 = r2 <-> r1' = r2').
Proof.
  intros c S S' o s r1 r2 r1' r2' x1 x2 T O H H1 H2 F1 F2. apply holds_rep in H. destruct H as (G & H & ES).
  destruct (follow_step _ _ _ _ T O _ _ _ H ES) as (s' & G' & E & H' & ES' & [K _]). subst S.
  apply sget_walk in H1. destruct H1 as (l1 & y1 & W1 & _). apply sget_walk in H2. destruct H2 as (l2 & y2 & W2 & _).
  destruct (K _ _ _ _ F1 W1) as (z1 & W1'). destruct (K _ _ _ _ F2 W2) as (z2 & W2'). split; intros ->.
  - rewrite W1 in W2. injection W2 as <- _. destruct (place_dec r1' r2') as [->|D]; [reflexivity|]. exfalso. apply (loc_diff _ _ _ _ _ _ _ _ _ H' W1' W2' D). reflexivity.
  - rewrite W1' in W2'. injection W2' as <- _. destruct (place_dec r1 r2) as [->|D]; [reflexivity|]. exfalso. apply (loc_diff _ _ _ _ _ _ _ _ _ H W1 W2 D). reflexivity.
Qed.

(** ** Places that start at references *)
Lemma get_pure : forall p s, fst (get_block p s) = s.
Proof. intros p s. unfold get_block. destruct (nth_error (heap s) p) as [[b|]|]; reflexivity. Qed.

Lemma pure_bind : forall A B (m : M A) (k : A -> M B) s, fst (m s) = s -> (forall a, fst (k a s) = s) -> fst ((do x <- m; k x) s) = s.
Proof. intros A B m k s Hm Hk. unfold seqm. destruct (m s) as [s1 o] eqn:E. cbn [fst] in Hm. subst s1. destruct o; try reflexivity. apply Hk. Qed.

Lemma read_pure : forall l s, fst (read_loc l s) = s.
Proof.
  intros [n|p g i|p k] s; cbn [read_loc].
  - destruct (nth_error (env s) n) as [[c|]|]; reflexivity.
  - apply pure_bind; [apply get_pure|]. intros [t|g' l|m]; try reflexivity. destruct (Nat.eqb g g'); [|reflexivity]. destruct (nth_error l i); reflexivity.
  - apply pure_bind; [apply get_pure|]. intros [t|g' l|m]; try reflexivity. destruct (obj_find k m); reflexivity.
Qed.

Lemma at_pure : forall l sl s, fst (at_loc l sl s) = s.
Proof.
  intros l sl s. unfold at_loc. apply pure_bind; [apply read_pure|]. intro c. destruct sl as [i|k]; destruct (c_ty c); try reflexivity.
  - apply pure_bind; [unfold ptr_of; destruct (c_data c); reflexivity|]. intro p. apply pure_bind; [apply get_pure|]. intros [t|g' l'|m]; try reflexivity.
    destruct (len l' <=? i)%N; reflexivity.
  - apply pure_bind; [unfold ptr_of; destruct (c_data c); reflexivity|]. intro p. apply pure_bind; [apply get_pure|]. intros [t|g' l'|m]; try reflexivity.
    destruct (obj_find k m); reflexivity.
Qed.

Lemma walk_at_pure : forall p l s, fst (walk_at l p s) = s.
Proof. induction p as [|sl p IH]; intros l s; [reflexivity|]. cbn [walk_at]. apply pure_bind; [apply at_pure|]. intro l'. apply IH. Qed.

Lemma locate_pure : forall a s, fst (locate a s) = s.
Proof. intros a s. unfold locate. apply pure_bind; [apply read_pure|]. intro c. apply walk_at_pure. Qed.

Lemma walk_at_app : forall p t l s, walk_at l (p ++ t) s = (do l' <- walk_at l p; walk_at l' t) s.
Proof.
  induction p as [|sl p IH]; intros t l s; [reflexivity|]. cbn [app walk_at]. unfold seqm. destruct (at_loc l sl s) as [s1 [l'|e| | |]]; try reflexivity.
  rewrite IH. reflexivity.
Qed.

Lemma locate_under : forall a t l s, locate a s = (s, Ret l) -> locate (under a t) s = walk_at l t s.
Proof.
  intros a t l s E. unfold locate in *. cbn [under fst snd]. unfold seqm in *. destruct (read_loc (LSlot (fst a)) s) as [s1 o]. destruct o as [c|e| | |]; try discriminate.
  rewrite walk_at_app. unfold seqm. rewrite E. reflexivity.
Qed.

Lemma nth_forall2 : forall A B (P : A -> B -> Prop) la lb k a, Forall2 P la lb -> nth_error la k = Some a -> exists b, nth_error lb k = Some b /\ P a b.
Proof.
  intros A B P la lb k a F. revert k. induction F as [|x y la lb Hp F IH]; intros [|k] E; cbn in *; try discriminate.
  - injection E as <-. eauto.
  - apply IH. assumption.
Qed.

Lemma rlocate_place : forall s S R ls a a', refers s S R ls -> resolve_place R a = Some a' -> rlocate ls a s = locate a' s.
Proof.
  intros s S R ls [[n|k] p] a' Rf E; unfold resolve_place in E; cbn [fst snd] in E.
  - injection E as <-. reflexivity.
  - destruct (nth_error R k) as [[b|]|] eqn:Ek; try discriminate. injection E as <-. destruct (nth_forall2 _ _ _ _ _ _ _ Rf Ek) as (l & El & K).
    destruct (K _ eq_refl) as (_ & Lb). unfold rlocate. cbn [fst snd]. rewrite El. symmetry. apply locate_under. assumption.
Qed.

(** ** Commands *)
Definition plainly (p : hstate * outcome result) : hstate * outcome (option loc * result) :=
  match p with (s, Ret r) => (s, Ret (None, r)) | (s, Throw e) => (s, Throw e) | (s, Abort) => (s, Abort) | (s, UB) => (s, UB) | (s, OutOfFuel) => (s, OutOfFuel) end.

Lemma plain_ret : forall A (m : M A) (f : A -> result) s, (do x <- m; ret (None, f x)) s = plainly ((do x <- m; ret (f x)) s).
Proof. intros A m f s. unfold seqm. destruct (m s) as [s1 []]; reflexivity. Qed.

Lemma same_head : forall A (m1 m2 : M A) (k1 : A -> M (option loc * result)) (k2 : A -> M result) s,
  m1 s = m2 s -> fst (m2 s) = s -> (forall a, k1 a s = plainly (k2 a s)) -> (do x <- m1; k1 x) s = plainly ((do x <- m2; k2 x) s).
Proof. intros A m1 m2 k1 k2 s E P K. unfold seqm. rewrite E. destruct (m2 s) as [s1 o] eqn:E2. cbn [fst] in P. subst s1. destruct o; try reflexivity. apply K. Qed.

Lemma same_any : forall A (m : M A) (k1 : A -> M (option loc * result)) (k2 : A -> M result) s,
  (forall a s, k1 a s = plainly (k2 a s)) -> (do x <- m; k1 x) s = plainly ((do x <- m; k2 x) s).
Proof. intros A m k1 k2 s K. unfold seqm. destruct (m s) as [s1 o]. destruct o; try reflexivity. apply K. Qed.

Lemma rexec1_plain : forall s S R ls rc c, refers s S R ls -> resolves R rc c -> rexec1 ls rc s = plainly (exec c s).
Proof.
  intros s S R ls rc c Rf Rv.
  assert (Lo : forall a a', resolve_place R a = Some a' -> rlocate ls a s = locate a' s) by (intros; eapply rlocate_place; eassumption).
  destruct Rv; cbn [rexec1 exec];
    repeat (first [ apply same_head; [apply Lo; assumption|apply locate_pure|intro] ]);
    repeat (first [ apply (plain_ret _ _ (fun _ => RUnit)) | apply (plain_ret _ _ RNum) | apply same_any; intros ? ? ]).
Qed.

Lemma rexec_plain : forall s S R ls rc c s' o, refers s S R ls -> resolves R rc c -> exec c s = (s', o) -> rexec rc (s, ls) = ((s', ls), o).
Proof.
  intros s S R ls rc c s' o Rf Rv E. unfold rexec. cbn [fst snd]. rewrite (rexec1_plain _ _ _ _ _ _ Rf Rv), E. destruct o; reflexivity.
Qed.

Lemma sub_step : forall a sl S S' u, tstep (Sub a sl) S S' (Ret u) -> in_order S -> forall s G L, rep s G L -> S = vals G ->
  exists s' G' la l' x', locate a s = (s, Ret la) /\ sub_loc la sl s = (s', Ret l') /\ rep s' G' L /\ S' = vals G' /\ kept (Sub a sl) S (Ret u) s' G G' /\
    fwalk G' (under a [sl]) = Some (l', x').
Proof.
  intros a sl S S' u T O s G L H ES. inversion T as [| | | | | | | | | | | | | |c a0 f S0 y y' r S0' Hl Ha Hf Nr Hs| | |]; subst.
  assert (a0 = a) by (destruct sl; cbn [local] in Hl; congruence). subst a0.
  apply sget_walk in Ha. destruct Ha as (la & xa & Wa & Va). rewrite <- Va in Hf. pose proof (sorted_at _ _ _ _ O Wa) as Sm.
  destruct (sub_at _ _ _ _ _ _ _ _ _ _ H Wa Sm Hl Hf Nr) as [(e & Er & _)|(s' & l' & z & Er & E & V & H' & Gz & x' & Wz)]; [discriminate|].
  exists s', (fput G a z), la, l', x'. split; [eapply locate_ok; eassumption|]. split; [assumption|]. split; [assumption|]. split; [eapply sset_to; eassumption|].
  split; [eapply kept_sub; eauto|assumption].
Qed.

Lemma forall2_snoc : forall A B (P : A -> B -> Prop) la lb a b, Forall2 P la lb -> P a b -> Forall2 P (la ++ [a]) (lb ++ [b]).
Proof. intros. apply Forall2_app; [assumption|]. constructor; [assumption|constructor]. Qed.

Lemma untracked : forall c S e R, tracked c S (Throw e) R R.
Proof. intros c S e R. induction R as [|r R IH]; constructor; [|assumption]. intros a' ->. exists a'. split; [reflexivity|constructor]. Qed.

Lemma run_step : forall c st st' o, rstep c st st' o -> forall s ls, in_order (fst st) -> holds s (fst st) -> refers s (fst st) (snd st) ls ->
  exists s' ls', rexec c (s, ls) = ((s', ls'), o) /\ holds s' (fst st') /\ refers s' (fst st') (snd st') ls'.
Proof.
  intros c st st' o T s ls O H Rf. destruct T as [rc c S R S' R' o Rv T Tr|a a' S R x Rv Hx|a a' S R e Rv Hf|a a' sl S R S' R' u Rv T Tr|a a' sl S R S' e Rv T]; cbn [fst snd] in *.
  - destruct (ref_step _ _ _ _ _ _ _ _ T O H Rf Tr) as (s' & E & H' & Rf'). exists s', ls. split; [eapply rexec_plain; eassumption|auto].
  - pose proof (rlocate_place _ _ _ _ _ _ Rf Rv) as Lo. pose proof H as H0. apply holds_rep in H. destruct H as (G & H & ->). apply sget_walk in Hx. destruct Hx as (l & y & W & _).
    rewrite (locate_ok _ _ _ _ _ _ H W) in Lo. exists s, (ls ++ [l]). unfold rexec. cbn [fst snd rexec1]. unfold seqm. rewrite Lo. split; [reflexivity|]. split; [assumption|].
    apply (leads _ _ _ _ H) in Rf. apply (leads _ _ _ _ H). apply forall2_snoc; [assumption|]. intros a0 E. injection E as <-. eauto.
  - pose proof (rlocate_place _ _ _ _ _ _ Rf Rv) as Lo. pose proof H as H0. apply holds_rep in H. destruct H as (G & H & ->). rewrite (locate_bad _ _ _ _ _ H Hf) in Lo.
    exists s, ls. unfold rexec. cbn [fst snd rexec1]. unfold seqm. rewrite Lo. auto.
  - pose proof (rlocate_place _ _ _ _ _ _ Rf Rv) as Lo. apply holds_rep in H. destruct H as (G & H & ES).
    destruct (sub_step _ _ _ _ _ T O _ _ _ H ES) as (s' & G' & la & l' & x' & E1 & E2 & H' & ES' & K & W). rewrite E1 in Lo.
    exists s', (ls ++ [l']). unfold rexec. cbn [fst snd rexec1]. unfold seqm. rewrite Lo, E2. split; [reflexivity|]. subst S S'. split; [apply rep_holds; assumption|].
    apply (leads _ _ _ _ H) in Rf. apply (leads _ _ _ _ H'). apply forall2_snoc; [eapply leads_on; eassumption|]. intros a0 E. injection E as <-. eauto.
  - pose proof (rlocate_place _ _ _ _ _ _ Rf Rv) as Lo. destruct (ref_step _ _ _ _ _ _ _ _ T O H Rf (untracked _ _ _ _)) as (s' & E & H' & Rf'). exists s', ls. split; [|auto].
    unfold rexec. cbn [fst snd rexec1]. cbn [exec] in E. unfold seqm in *. rewrite Lo. destruct (locate a' s) as [s1 [l|e1| | |]]; try discriminate; [|injection E as -> ->; reflexivity].
    destruct (sub_loc l sl s1) as [s2 [l2|e2| | |]]; try discriminate. injection E as -> ->. reflexivity.
Qed.

Lemma rstep_ordered : forall c st st' o, rstep c st st' o -> in_order (fst st) -> in_order (fst st').
Proof. intros c st st' o T O. destruct T; cbn [fst] in *; try assumption; eapply step_ordered; eassumption. Qed.

Lemma rstep_ends : forall c st st' o, rstep c st st' o -> (exists a, o = Ret a) \/ (exists e, o = Throw e).
Proof. intros c st st' o T. destruct T; eauto. eapply tstep_ends. eassumption. Qed.

Lemma ref_run : forall cs st st' os, rrun cs st st' os -> forall s ls, in_order (fst st) -> holds s (fst st) -> refers s (fst st) (snd st) ls ->
  exists s' ls', rexec_all cs (s, ls) = ((s', ls'), os) /\ holds s' (fst st') /\ refers s' (fst st') (snd st') ls'.
Proof.
  intros cs st st' os T. induction T as [st|c cs st st1 st2 o os T1 T2 IH]; intros s ls O H Rf.
  - exists s, ls. auto.
  - destruct (run_step _ _ _ _ T1 _ _ O H Rf) as (s1 & ls1 & E1 & H1 & R1). destruct (IH _ _ (rstep_ordered _ _ _ _ T1 O) H1 R1) as (s2 & ls2 & E2 & H2 & R2).
    exists s2, ls2. split; [|auto]. cbn [rexec_all]. rewrite E1. destruct (rstep_ends _ _ _ _ T1) as [[a ->]|[e ->]]; rewrite E2; reflexivity.
Qed.

Lemma run_from_start : forall cs S R os, rrun cs ([], []) (S, R) os -> exists s ls, rexec_all cs rstart = ((s, ls), os) /\ holds s S /\ refers s S R ls /\
  (forall o, In o os -> (exists a, o = Ret a) \/ (exists e, o = Throw e)).
Proof.
  intros cs S R os T. destruct (ref_run _ _ _ _ T start []) as (s & ls & E & H & Rf).
  - intros n v E. cbn [fst] in E. destruct n; discriminate.
  - apply start_holds.
  - constructor.
  - exists s, ls. split; [exact E|]. split; [exact H|]. split; [exact Rf|]. clear -T. induction T as [|c cs st st1 st2 o os T1 T2 IH]; intros o' I; [contradiction|].
    destruct I as [<-|I]; [eapply rstep_ends; eassumption|auto].
Qed.

(** every sane command has a specified step that keeps all references that are still good *)
Lemma ref_progress : forall rc c S R s ls, resolves R rc c -> sane c S -> in_order S -> holds s S -> refers s S R ls ->
  exists S' R' o s', rstep rc (S, R) (S', R') o /\ rexec rc (s, ls) = ((s', ls), o) /\
    forall k a l, nth_error R k = Some (Some a) -> nth_error ls k = Some l -> (exists a', nth_error R' k = Some (Some a')) \/ snd (read_loc l s') = UB.
Proof.
  intros rc c S R s ls Rv Sn O H Rf. destruct (covered _ _ Sn) as (S' & o & T). pose proof H as H0. apply holds_rep in H. destruct H as (G & H & ES).
  destruct (follow_step _ _ _ _ T O _ _ _ H ES) as (s' & G' & E & H' & ES' & [K1 K2]).
  pose proof Rf as Rf0. rewrite ES in Rf. apply (leads _ _ _ _ H) in Rf.
  assert (X : exists R', tracked c S o R R' /\ forall k a l, nth_error R k = Some (Some a) -> nth_error ls k = Some l -> (exists a', nth_error R' k = Some (Some a')) \/ snd (read_loc l s') = UB).
  { clear Rf0 Rv. induction Rf as [|r l R ls Hr F IH].
    - exists []. split; [constructor|]. intros [|k] a l Ek; discriminate.
    - destruct IH as (R' & Tr & Dn). destruct r as [a|].
      + destruct (Hr _ eq_refl) as (x & W). destruct (K2 _ _ _ W) as [(a' & Fa)|Dead].
        * exists (Some a' :: R'). split; [constructor; [|assumption]|].
          -- intros b E1. injection E1 as <-. eauto.
          -- intros [|k] b l0 E1 E2; cbn [nth_error] in *; [left; eauto|eapply Dn; eassumption].
        * exists (None :: R'). split; [constructor; [discriminate|assumption]|].
          intros [|k] b l0 E1 E2; cbn [nth_error] in *; [right; congruence|eapply Dn; eassumption].
      + exists (None :: R'). split; [constructor; [discriminate|assumption]|].
        intros [|k] b l0 E1 E2; cbn [nth_error] in *; [discriminate|eapply Dn; eassumption]. }
  destruct X as (R' & Tr & Dn). exists S', R', o, s'. split; [econstructor; eassumption|]. split; [|assumption]. eapply rexec_plain; eassumption.
Qed.
