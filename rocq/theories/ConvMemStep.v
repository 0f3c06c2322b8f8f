(** from_value when memory runs out, container by container. *)
From Coq Require Import Sorted Permutation Floats.SpecFloat Lia ZifyBool ZifyNat ZifyN.
From Verif Require Import Base Value Compare ValueOps Iterator SpecGrammar SpecText ObjFacts SpecValue ValueProofs SpecIter IterProofs
  SpecCompare CompareProofs Cpp Convert SpecConv ConvOrder ConvFloat ConvTo ConvFrom ConvRead ConvSafe ConvMem SpecConvMem.
Open Scope N_scope.

(** ** Numbered elements *)
Fixpoint enum {A} (i : N) (l : list A) : list (N * A) :=
  match l with
  | [] => []
  | a :: l' => (i, a) :: enum (i + 1) l'
  end.
Lemma enum_len : forall A (l : list A) i, length (enum i l) = length l.
Proof. induction l as [|a l IH]; intro i; cbn [enum length]; [reflexivity|]. rewrite IH. reflexivity. Qed.
Lemma enum_nth : forall A (l : list A) i j p, nth_error (enum i l) j = Some p -> fst p = i + N.of_nat j /\ nth_error l j = Some (snd p).
Proof.
  induction l as [|a l IH]; intros i [|j] p H; try discriminate; cbn [enum nth_error] in H.
  - injection H as <-. cbn [fst snd nth_error]. split; [lia|reflexivity].
  - apply IH in H. cbn [nth_error]. destruct H as [-> ->]. split; [lia|reflexivity].
Qed.
Lemma enum_app : forall A (a b : list A) i, enum i (a ++ b) = enum i a ++ enum (i + len a) b.
Proof.
  induction a as [|x a IH]; intros b i; cbn [enum app]; [unfold len; cbn [length]; rewrite N.add_0_r; reflexivity|].
  rewrite IH. do 3 f_equal. unfold len. cbn [length]. lia.
Qed.
Lemma enum_snd : forall A (l : list A) i, map snd (enum i l) = l.
Proof. induction l as [|a l IH]; intro i; cbn [enum map snd]; [reflexivity|]. rewrite IH. reflexivity. Qed.
Lemma enum_split : forall A (l : list A) i l1 p l2, enum i l = l1 ++ p :: l2 -> l = map snd l1 ++ snd p :: map snd l2.
Proof. intros A l i l1 p l2 H. rewrite <- (enum_snd A l i), H, map_app. reflexivity. Qed.
Lemma enum_in : forall A (l : list A) i p, In p (enum i l) -> In (snd p) l.
Proof. intros A l i p H. rewrite <- (enum_snd A l i). apply in_map. assumption. Qed.

Lemma saying_ret : forall A r k (a : A), saying r k (Ret a) = Ret a.
Proof. reflexivity. Qed.
Lemma need_ret : forall A r k (o : outcome A) a, need r k o = Ret a <-> o = Ret a /\ refused r k = false.
Proof.
  intros A r k o a. unfold need. destruct o; cbn [bind]; try (split; [discriminate|intros [H _]; discriminate]).
  destruct (refused r k); split; intro H; try discriminate; try (destruct H; discriminate); [auto|tauto].
Qed.
Lemma need_throw : forall A r k (o : outcome A) er, need r k o = Throw er <-> o = Throw er \/ ((exists a, o = Ret a) /\ refused r k = true /\ er = EAlloc).
Proof.
  intros A r k o er. unfold need. destruct o as [a|c| | |]; cbn [bind].
  - destruct (refused r k); split; intro H.
    + injection H as <-. right. eauto.
    + destruct H as [H|(_ & _ & ->)]; [discriminate|reflexivity].
    + discriminate.
    + destruct H as [H|(_ & H & _)]; discriminate.
  - split; [auto|]. intros [H|([a H] & _)]; [assumption|discriminate].
  - split; [discriminate|]. intros [H|([a H] & _)]; discriminate.
  - split; [discriminate|]. intros [H|([a H] & _)]; discriminate.
  - split; [discriminate|]. intros [H|([a H] & _)]; discriminate.
Qed.
Lemma need_defined : forall A r k (o : outcome A), defined o -> defined (need r k o).
Proof. intros A r k o [[a ->]|[er ->]]; unfold need; cbn [bind]; [destruct (refused r k); [right|left]|right]; eexists; reflexivity. Qed.
Lemma saying_throw : forall A r k (o : outcome A) er, saying r k o = Throw er -> exists c, o = Throw c /\ thrown c er.
Proof.
  intros A r k o er H. destruct o as [a|c| | |]; try discriminate. cbn [saying] in H. injection H as <-. exists c. split; [reflexivity|].
  destruct (refused r k); [right|left]; reflexivity.
Qed.

Section Env.
Variable e : env.

Definition elem (r : refusals) (t : cty) (p : N * value) : outcome cval := get_mem e (sub (fst p) r) t (snd p).
Definition elem_node (r : refusals) (t : cty) (p : N * value) : outcome cval := need (sub (fst p) r) 3 (elem r t p).
Definition elem_set (r : refusals) (t : cty) (p : N * value) : outcome cval :=
  let* y := elem r t p in if ceqb y y then need (sub (fst p) r) 3 (Ret y) else UB.

Definition seq_mem (k : seqk) (r : refusals) (t : cty) (vs : list value) (l : list cval) : list cval * outcome unit :=
  match k with
  | KVector | KDeque =>
      if (len l <? len vs) && refused r 0 then (l, Throw EAlloc) else
      let '(ys, o) := scan (elem r t) (enum 0 vs) in (ys ++ skipn (length ys) (resize (dflt t) (length vs) l), o)
  | KList => scan (elem_node r t) (enum 0 vs)
  | KForward => let '(ys, o) := scan (elem_node r t) (enum 0 (rev vs)) in (rev ys, o)
  | KSet | KUSet => let '(ys, o) := scan (elem_set r t) (enum 0 vs) in (insert_all ys [], o)
  end.

Lemma mem_seq : forall k r t v vs l, seq_items v vs ->
  from_mem e r (TySeq k t) v (CSeq l) = (CSeq (fst (seq_mem k r t vs l)), snd (seq_mem k r t vs l)).
Proof.
  intros k r t v vs l I. pose proof (items_size v vs I) as Sz.
  assert (L : (length (enum 0 vs) < S (N.to_nat (v_size v)))%nat) by (rewrite enum_len, Sz; unfold len; lia).
  assert (C : (0 + N.of_nat (length (enum 0 vs)) <? v_size v) = false) by (rewrite enum_len, Sz; unfold len; lia).
  assert (H : forall j p, nth_error (enum 0 vs) j = Some p ->
    (0 + N.of_nat j <? v_size v) = true /\
    (let ri := sub (0 + N.of_nat j) r in let* v := saying ri 0 (at_idx (0 + N.of_nat j) v) in
     made (sub 1 ri) t (fun _ => from_mem e (sub 2 ri) t v (dflt t))) = elem r t p).
  { intros j p Hj. apply enum_nth in Hj. destruct Hj as [E Hj]. split.
    - assert (j < length vs)%nat by (apply nth_error_Some; congruence). rewrite Sz. unfold len. lia.
    - rewrite N.add_0_l in *. rewrite (items_at v vs j _ I Hj). cbv zeta; rewrite saying_ret. cbn [bind]. unfold elem, get_mem. rewrite E. reflexivity. }
  assert (V : forall K, K = KVector \/ K = KDeque -> from_mem e r (TySeq K t) v (CSeq l) = (CSeq (fst (seq_mem K r t vs l)), snd (seq_mem K r t vs l))).
  { intros K HK. transitivity (let '(l', o) :=
      if (len l <? v_size v) && refused r 0 then (l, Throw EAlloc) else
      for_loop (S (N.to_nat (v_size v))) (fun i => i <? v_size v)
        (fun i l => assign l (let ri := sub i r in let* v := saying ri 0 (at_idx i v) in
           made (sub 1 ri) t (fun _ => from_mem e (sub 2 ri) t v (dflt t))) (fun y => set_nth (N.to_nat i) y l)) 0
        (resize (dflt t) (N.to_nat (v_size v)) l) in (CSeq l', o)); [destruct HK as [->| ->]; reflexivity|].
    assert (Q : seq_mem K r t vs l = if (len l <? len vs) && refused r 0 then (l, Throw EAlloc) else
      let '(ys, o) := scan (elem r t) (enum 0 vs) in (ys ++ skipn (length ys) (resize (dflt t) (length vs) l), o)) by (destruct HK as [->| ->]; reflexivity).
    rewrite Q, Sz. destruct ((len l <? len vs) && refused r 0); [reflexivity|]. rewrite <- Sz.
    rewrite (loop_scan (N * value) cval (list cval) (elem r t) _ (fun i l y => set_nth (N.to_nat i) y l) _ (enum 0 vs) 0 _ _ L H C).
    pose proof (scan_len _ _ (elem r t) (enum 0 vs)) as SL. rewrite enum_len in SL.
    destruct (scan (elem r t) (enum 0 vs)) as [ys o]; cbn [fst snd] in *.
    rewrite upds_set0 by (rewrite resize_length, Sz; unfold len; lia). rewrite Sz; unfold len; rewrite Nat2N.id; reflexivity. }
  assert (T : forall K, K = KSet \/ K = KUSet -> from_mem e r (TySeq K t) v (CSeq l) = (CSeq (fst (seq_mem K r t vs l)), snd (seq_mem K r t vs l))).
  { intros K HK. transitivity (let '(l', o) :=
      for_loop (S (N.to_nat (v_size v))) (fun i => i <? v_size v)
        (fun i l => assign l (let* y := (let ri := sub i r in let* v := saying ri 0 (at_idx i v) in
           made (sub 1 ri) t (fun _ => from_mem e (sub 2 ri) t v (dflt t))) in if ceqb y y then need (sub i r) 3 (Ret y) else UB)
          (fun y => set_insert y l)) 0 [] in (CSeq l', o)).
    { transitivity (let '(l', o) :=
      for_loop (S (N.to_nat (v_size v))) (fun i => i <? v_size v)
        (fun i l => match (let ri := sub i r in let* v := saying ri 0 (at_idx i v) in
           made (sub 1 ri) t (fun _ => from_mem e (sub 2 ri) t v (dflt t))) with
           | Ret y => if ceqb y y then assign l (need (sub i r) 3 (Ret y)) (fun y => set_insert y l) else (l, UB)
           | o => (l, void o) end) 0 [] in (CSeq l', o)); [destruct HK as [->| ->]; reflexivity|].
      match goal with |- _ = let '(l', o) := for_loop _ _ ?b2 _ _ in _ => rewrite (loop_ext _ _ _ _ b2); [reflexivity|] end. intros i s. cbv zeta.
      destruct (let* v := saying (sub i r) 0 (at_idx i v) in made (sub 1 (sub i r)) t (fun _ => from_mem e (sub 2 (sub i r)) t v (dflt t))) as [y|c| | |]; cbn [bind]; try reflexivity.
      destruct (ceqb y y); reflexivity. }
    rewrite (loop_scan (N * value) cval (list cval) (elem_set r t) _ (fun i l y => set_insert y l) _ (enum 0 vs) 0 _ _ L).
    - destruct HK as [->| ->]; cbn [seq_mem]; destruct (scan (elem_set r t) (enum 0 vs)) as [ys o]; cbn [fst snd]; rewrite upds_insert; reflexivity.
    - intros j p Hj. destruct (H j p Hj) as [H1 H2]. split; [assumption|]. cbv zeta in H2 |- *. rewrite H2. apply enum_nth in Hj. destruct Hj as [E _].
      unfold elem_set. rewrite E. reflexivity.
    - assumption. }
  destruct k; auto.
  - cbn [from_mem]. rewrite (loop_scan (N * value) cval (list cval) (elem_node r t) _ (fun i l y => l ++ [y]) _ (enum 0 vs) 0 _ _ L).
    + cbn [seq_mem]. rewrite upds_back. reflexivity.
    + intros j p Hj. destruct (H j p Hj) as [H1 H2]. split; [assumption|]. cbv zeta in H2 |- *. rewrite H2. apply enum_nth in Hj. destruct Hj as [E _].
      unfold elem_node. rewrite E. reflexivity.
    + assumption.
  - cbn [from_mem]. rewrite (loop_scan (N * value) cval (list cval) (elem_node r t)
      (fun i => need (sub i r) 3 (let ri := sub i r in let* v := saying ri 0 (at_idx (v_size v - i - 1) v) in
           made (sub 1 ri) t (fun _ => from_mem e (sub 2 ri) t v (dflt t))))
      (fun i l y => y :: l) _ (enum 0 (rev vs)) 0).
    + cbn [seq_mem]. destruct (scan (elem_node r t) (enum 0 (rev vs))) as [ys o]. cbn [fst snd]. rewrite upds_front, app_nil_r. reflexivity.
    + rewrite enum_len in L |- *. rewrite rev_length. assumption.
    + intros j p Hj. apply enum_nth in Hj. destruct Hj as [E Hj]. apply nth_rev in Hj. destruct Hj as [Lj Hj]. rewrite N.add_0_l in *. rewrite Sz. unfold len.
      replace (N.of_nat (length vs) - N.of_nat j - 1) with (N.of_nat (length vs - j - 1)) by lia.
      rewrite (items_at v vs _ _ I Hj). split; [lia|]. cbv zeta. rewrite saying_ret. cbn [bind]. unfold elem_node, elem, get_mem. rewrite E. reflexivity.
    + rewrite enum_len in C |- *. rewrite rev_length. assumption.
Qed.

Lemma loop_cut : forall X fuel cond (body : N -> X -> X * outcome unit) i s s' er, cond i = true -> body i s = (s', Throw er) ->
  for_loop (S fuel) cond body i s = (s', Throw er).
Proof. intros X fuel cond body i s s' er C E. cbn [for_loop]. rewrite C, E. reflexivity. Qed.

Definition said_not_array (r : refusals) : exn := if refused (sub 0 r) 0 then EAlloc else not_array.
Lemma mem_seq_kind : forall k r t v l, no_seq_items v ->
  from_mem e r (TySeq k t) v (CSeq l) =
  match k with
  | KVector | KDeque => if (len l <? v_size v) && refused r 0 then (CSeq l, Throw EAlloc)
                        else (CSeq (resize (dflt t) (N.to_nat (v_size v)) l), Throw (said_not_array r))
  | _ => (CSeq [], Throw (said_not_array r))
  end.
Proof.
  intros k r t v l N0. pose proof (no_items_size v N0) as P.
  destruct k; cbn [from_mem]; try destruct ((len l <? v_size v) && refused r 0); try reflexivity;
    erewrite loop_stop; try reflexivity; try lia; cbv zeta; rewrite no_items_at by assumption; reflexivity.
Qed.

Lemma mem_array : forall n r t v vs l, seq_items v vs -> length l = n ->
  from_mem e r (TyArray n t) v (CSeq l) =
  let '(ys, o) := scan (elem r t) (enum 0 (firstn n vs)) in (CSeq (ys ++ skipn (length ys) l), o).
Proof.
  intros n r t v vs l I Ln. pose proof (items_size v vs I) as Sz. cbn [from_mem].
  rewrite (loop_scan (N * value) cval (list cval) (elem r t) _ (fun i l y => set_nth (N.to_nat i) y l) _ (enum 0 (firstn n vs)) 0).
  - pose proof (scan_len _ _ (elem r t) (enum 0 (firstn n vs))) as SL. rewrite enum_len, firstn_length in SL.
    destruct (scan (elem r t) (enum 0 (firstn n vs))) as [ys o]. cbn [fst snd] in *. rewrite upds_set0 by lia. reflexivity.
  - rewrite enum_len, firstn_length. lia.
  - intros j p Hj. apply enum_nth in Hj. destruct Hj as [E Hj]. assert (Lj : (j < length (firstn n vs))%nat) by (apply nth_error_Some; congruence). rewrite firstn_length in Lj.
    assert (Hj' : nth_error vs j = Some (snd p)).
    { rewrite <- (firstn_skipn n vs). rewrite nth_error_app1 by (rewrite firstn_length; lia). assumption. }
    rewrite N.add_0_l in *. rewrite (items_at v vs j _ I Hj'), Sz. unfold len. split; [lia|]. cbv zeta. rewrite saying_ret. cbn [bind].
    unfold elem, get_mem. rewrite E. reflexivity.
  - rewrite enum_len, firstn_length, Sz. unfold len. lia.
Qed.
Lemma mem_array_kind : forall n r t v l, no_seq_items v -> n <> O -> from_mem e r (TyArray n t) v (CSeq l) = (CSeq l, Throw (said_not_array r)).
Proof.
  intros n r t v l N0 Nn. pose proof (no_items_size v N0) as P. cbn [from_mem].
  erewrite loop_stop; try reflexivity; [lia|cbv zeta; rewrite no_items_at by assumption; reflexivity].
Qed.
Lemma mem_array0 : forall r t v l, from_mem e r (TyArray 0 t) v (CSeq l) = (CSeq l, Ret tt).
Proof. intros r t v l. cbn [from_mem]. rewrite loop_none by lia. reflexivity. Qed.

(** ** Maps *)
Definition pair_mem (r : refusals) (t : cty) (p : N * (str * value)) : outcome (str * cval) :=
  need (sub (fst p) r) 4 (let* y := get_mem e (sub (fst p) r) t (snd (snd p)) in Ret (fst (snd p), y)).

Lemma each_mem : forall c (P : N -> iter -> outcome (str * cval)) (g : N * (str * value) -> outcome (str * cval)) l n it m fuel,
  at_pos (fun _ => c) 0 n it -> N.of_nat (n + length l) = v_size c -> (length l < fuel)%nat ->
  (forall j a jt, nth_error l j = Some a -> at_pos (fun _ => c) 0 (n + j) jt -> P (N.of_nat (n + j)) jt = g (N.of_nat (n + j), a)) ->
  (let '((_, m'), o) := each fuel c (fun it im => let '(i, m) := im in
     let '(m', o) := assign m (P i it) (fun p => obj_emplace (fst p) (snd p) m) in ((i + 1, m'), o)) it (N.of_nat n, m) in (CMap m', o))
  = (CMap (emplaces (fst (scan g (enum (N.of_nat n) l))) m), snd (scan g (enum (N.of_nat n) l))).
Proof.
  intros c P g l. set (mem := fun _ : addr => c). induction l as [|a l IH]; intros n it m [|fuel] At Sz L H; try (cbn in L; lia); cbn [each enum scan]; change (fun _ : addr => c) with mem.
  - destruct (end_pos mem 0) as (en & -> & En). cbn [bind]. cbn [length] in Sz. rewrite Nat.add_0_r in Sz.
    change (v_size (mem 0)) with (v_size c) in En. rewrite <- Sz, Nat2N.id in En.
    rewrite (eq_pos mem 0 n n it en At En) by auto. rewrite Nat.eqb_refl. reflexivity.
  - destruct (end_pos mem 0) as (en & -> & En). cbn [bind]. change (v_size (mem 0)) with (v_size c) in En. rewrite <- Sz, Nat2N.id in En.
    assert (Nn : type_of (mem 0) = TNull -> n = (n + length (a :: l))%nat).
    { intro T. change (mem 0) with c in T. destruct c; try discriminate. cbn [v_size] in Sz. lia. }
    rewrite (eq_pos mem 0 n _ it en At En Nn). replace (Nat.eqb n _) with false by (symmetry; apply Nat.eqb_neq; cbn [length]; lia).
    pose proof (H 0%nat a it eq_refl) as H0. rewrite Nat.add_0_r in H0. rewrite (H0 At). clear H0.
    destruct (g (N.of_nat n, a)) as [b|er| | |]; cbn [assign seq_ void bind fst snd]; try reflexivity.
    destruct (incr_pos mem 0 n it At) as (jt & -> & Jt); [change (v_size (mem 0)) with (v_size c); cbn [length] in Sz; lia|].
    replace (N.of_nat n + 1) with (N.of_nat (S n)) by lia.
    rewrite (IH (S n) jt (obj_emplace (fst b) (snd b) m) fuel Jt); [reflexivity|cbn [length] in Sz; lia|cbn [length] in L; lia|].
    intros j a' jt' Hj At'. replace (S n + j)%nat with (n + S j)%nat in * by lia. apply (H (S j) a' jt' Hj At').
Qed.

Lemma mem_map : forall h r t o m, ordered (VObj o) ->
  from_mem e r (TyMap h t) (VObj o) (CMap m) = (CMap (emplaces (fst (scan (pair_mem r t) (enum 0 o))) m), snd (scan (pair_mem r t) (enum 0 o))).
Proof.
  intros h r t o m Od. cbn [from_mem].
  destruct (begin_pos (fun _ => VObj o) 0) as (it & -> & At).
  change (enum 0 o) with (enum (N.of_nat 0) o).
  rewrite <- (each_mem (VObj o) (fun i it => need (sub i r) 4 (if e_key1 e
      then let* k := saying (sub i r) 3 (it_key (fun _ => VObj o) it) in let* y := (let* v := saying (sub i r) 0 (it_read (fun _ => VObj o) it) in
           made (sub 1 (sub i r)) t (fun _ => from_mem e (sub 2 (sub i r)) t v (dflt t))) in Ret (k, y)
      else let* y := (let* v := saying (sub i r) 0 (it_read (fun _ => VObj o) it) in
           made (sub 1 (sub i r)) t (fun _ => from_mem e (sub 2 (sub i r)) t v (dflt t))) in let* k := saying (sub i r) 3 (it_key (fun _ => VObj o) it) in Ret (k, y)))
      (pair_mem r t) o 0 it m (S (N.to_nat (v_size (VObj o))))).
  - reflexivity.
  - assumption.
  - reflexivity.
  - cbn [v_size]. unfold len. lia.
  - intros j [k w] jt Hj Aj. rewrite Nat.add_0_l in *.
    destruct (read_pos (fun _ => VObj o) 0 j jt (map (fun p => (Some (fst p), snd p)) o) (Some k) w Od Aj) as [R [K _]].
    + constructor.
    + rewrite nth_error_map, Hj. reflexivity.
    + cbn beta in R, K. rewrite R, K. rewrite !saying_ret. cbn [bind]. unfold pair_mem, get_mem. cbn [fst snd].
      destruct (e_key1 e); [reflexivity|]. destruct (made _ t _); reflexivity.
Qed.
Lemma mem_map_none : forall h r t v m, seq_items v [] -> from_mem e r (TyMap h t) v (CMap m) = (CMap m, Ret tt).
Proof.
  intros h r t v m I. pose proof (items_size v [] I) as Sz. change (len (@nil value)) with 0 in Sz. cbn [from_mem].
  destruct (begin_pos (fun _ => v) 0) as (it & -> & At).
  rewrite Sz. cbn [N.to_nat each]. destruct (end_pos (fun _ => v) 0) as (en & -> & En). cbn [bind]. cbn beta in En. rewrite Sz in En.
  rewrite (eq_pos (fun _ => v) 0 0 0 it en At En) by auto. reflexivity.
Qed.

(** the first element of what is no object *)
Definition first_mem (r : refusals) (t : cty) (w : value) : outcome unit :=
  if e_key1 e then saying (sub 0 r) 3 (Throw no_key)
  else let* _ := get_mem e (sub 0 r) t w in saying (sub 0 r) 3 (Throw no_key).
Lemma mem_map_kind : forall h r t v m, ordered v -> type_of v <> TObject -> ~ seq_items v [] ->
  exists w es, elements v ((None, w) :: es) /\ from_mem e r (TyMap h t) v (CMap m) = (CMap m, first_mem r t w).
Proof.
  intros h r t v m Od Ty Ni.
  assert (El : exists w es, elements v ((None, w) :: es)).
  { destruct v as [|z|f|s|l|o|b]; try (eexists; eexists; constructor; fail).
    - destruct Ni. constructor.
    - destruct l as [|x l]; [destruct Ni; constructor|]. exists x, (map (fun x => (None, x)) l). apply (es_arr (x :: l)).
    - destruct Ty. reflexivity. }
  destruct El as (w & es & El). exists w, es. split; [assumption|].
  assert (Sz : 0 < v_size v) by (rewrite <- (elements_size _ _ El); cbn [length]; lia).
  cbn [from_mem]. destruct (begin_pos (fun _ => v) 0) as (it & -> & At).
  destruct (read_pos (fun _ => v) 0 0 it ((None, w) :: es) None w Od At El eq_refl) as [R [K _]].
  destruct (N.to_nat (v_size v)) as [|n] eqn:En; [lia|]. cbn [each].
  destruct (end_pos (fun _ => v) 0) as (en & -> & Pe). cbn [bind]. cbn beta in Pe. rewrite En in Pe.
  rewrite (eq_pos (fun _ => v) 0 0 (S n) it en At Pe) by (intro T; destruct v; try discriminate; cbn in En; discriminate).
  cbn [Nat.eqb]. rewrite R, K. rewrite saying_ret. cbn [bind]. unfold first_mem, get_mem.
  destruct (e_key1 e); [reflexivity|]. destruct (made _ t _); reflexivity.
Qed.

(** ** Structs *)
Definition fields_mem (c : value) := fix fields (r : refusals) (fs : list (str * bool * cty)) (l : list cval) {struct fs} : list cval * outcome unit :=
  match fs, l with
  | (n, req, t') :: fs', y :: l' =>
      match (if req then Ret true else need r 0 (Ret (0 <? v_count n c))) with
      | Ret true =>
          match need r 1 (Ret tt), saying r 2 (at_key n c) with
          | Ret _, Ret v =>
              match from_mem e (sub 3 r) t' v y with
              | (y', Ret _) | (y', Throw _) => let '(q, o) := fields (sub 4 r) fs' l' in (y' :: q, o)
              | (y', o) => (y' :: l', o)
              end
          | Ret _, o => (l, void o)
          | o, _ => (l, o)
          end
      | Ret false => let '(q, o) := fields (sub 4 r) fs' l' in (y :: q, o)
      | o => (l, void o)
      end
  | _, _ => (l, Ret tt)
  end.
Lemma mem_struct : forall fs r v l, from_mem e r (TyStruct fs) v (CRec l) = (CRec (fst (fields_mem v r fs l)), snd (fields_mem v r fs l)).
Proof.
  intros fs r v l. transitivity (let '(l', o) := fields_mem v r fs l in (CRec l', o)); [reflexivity|]. destruct (fields_mem v r fs l). reflexivity.
Qed.
End Env.
