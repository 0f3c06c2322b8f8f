(** Containers, pointers and bound structs of classes with hand-written
    conversions. *)
From Coq Require Import Sorted Permutation Lia ZifyBool ZifyNat ZifyN.
From Verif Require Import Base Value Compare ValueOps Iterator SpecGrammar SpecText ObjFacts SpecValue ValueProofs SpecIter IterProofs
  SpecCompare CompareProofs Cpp Convert SpecConv ConvOrder ConvFloat ConvTo ConvFrom ConvRead ConvUser SpecConvUser.
Open Scope N_scope.

(** ** runs *)
Lemma ends_eq : forall A (a : outcome A) (o : outcome unit), ends a o -> void a = o /\ (forall x, a <> Ret x).
Proof. intros A [x|er| | |] [u|er'| | |] H; cbn in H; try contradiction; subst; (split; [reflexivity|discriminate]). Qed.

Lemma scan_runs : forall A B (f : A -> outcome B) l bs rest o, runs f l bs rest o -> scan f l = (bs, o).
Proof.
  intros A B f l bs rest o H. induction H as [|a b l bs rest o E H IH|a l o E]; cbn [scan].
  - reflexivity.
  - rewrite E, IH. reflexivity.
  - destruct (ends_eq _ _ _ E) as [V N]. destruct (f a) as [b|er| | |]; [destruct (N b eq_refl)|rewrite <- V; reflexivity..].
Qed.
Lemma runs_total : forall A B (f : A -> outcome B) l, exists bs rest o, runs f l bs rest o.
Proof.
  intros A B f l. induction l as [|a l (bs & rest & o & IH)].
  - repeat eexists. constructor.
  - destruct (f a) as [b|er| | |] eqn:E.
    + exists (b :: bs), rest, o. constructor; assumption.
    + exists [], (a :: l), (Throw er). constructor. rewrite E. reflexivity.
    + exists [], (a :: l), Abort. constructor. rewrite E. exact I.
    + exists [], (a :: l), UB. constructor. rewrite E. exact I.
    + exists [], (a :: l), OutOfFuel. constructor. rewrite E. exact I.
Qed.
Lemma runs_unique : forall A B (f : A -> outcome B) l bs rest o bs' rest' o', runs f l bs rest o -> runs f l bs' rest' o' ->
  bs = bs' /\ rest = rest' /\ o = o'.
Proof.
  intros A B f l bs rest o bs' rest' o' H. revert bs' rest' o'.
  induction H as [|a b l bs rest o E H IH|a l o E]; intros bs' rest' o' H'; inversion H' as [|? b' ? ? ? ? E' R'|? ? ? E']; subst.
  - auto.
  - rewrite E in E'. injection E' as <-. destruct (IH _ _ _ R') as (-> & -> & ->). auto.
  - rewrite E in E'. contradiction.
  - rewrite E' in E. contradiction.
  - split; [reflexivity|]. split; [reflexivity|]. destruct (ends_eq _ _ _ E) as [<- _]. destruct (ends_eq _ _ _ E') as [<- _]. reflexivity.
Qed.
Lemma runs_ret : forall A B (f : A -> outcome B) l bs rest o, runs f l bs rest o ->
  (o = Ret tt <-> rest = []) /\ (o = Ret tt -> Forall2 (fun a b => f a = Ret b) l bs).
Proof.
  intros A B f l bs rest o H. induction H as [|a b l bs rest o E H [IH1 IH2]|a l o E].
  - split; [tauto|constructor].
  - split; [exact IH1|]. intro O. constructor; auto.
  - destruct (ends_eq _ _ _ E) as [V N]. split; [split; [|discriminate]|]; intros ->; destruct (f a) as [b|er| | |]; try discriminate; destruct (N b eq_refl).
Qed.
Lemma runs_of_all : forall A B (f : A -> outcome B) l bs, Forall2 (fun a b => f a = Ret b) l bs -> runs f l bs [] (Ret tt).
Proof. intros A B f l bs H. induction H; constructor; assumption. Qed.
Lemma runs_split : forall A B (f : A -> outcome B) l bs rest o, runs f l bs rest o ->
  exists l1, l = l1 ++ rest /\ Forall2 (fun a b => f a = Ret b) l1 bs /\
    match rest with [] => o = Ret tt | a :: _ => ends (f a) o end.
Proof.
  intros A B f l bs rest o H. induction H as [|a b l bs rest o E H (l1 & -> & F & R)|a l o E].
  - exists []. repeat split. constructor.
  - exists (a :: l1). repeat split; [constructor; assumption|assumption].
  - exists []. repeat split; [constructor|assumption].
Qed.
Lemma runs_cut : forall A B (f : A -> outcome B) l bs rest er, runs f l bs rest (Throw er) ->
  exists l1 a l2, l = l1 ++ a :: l2 /\ rest = a :: l2 /\ Forall2 (fun a b => f a = Ret b) l1 bs /\ f a = Throw er.
Proof.
  intros A B f l bs rest er H. destruct (runs_split _ _ _ _ _ _ _ H) as (l1 & -> & F & R).
  destruct rest as [|a l2]; [discriminate|]. exists l1, a, l2. repeat split; [assumption|].
  destruct (f a); cbn in R; try contradiction. subst. reflexivity.
Qed.
Lemma runs_to_cut : forall A B (f : A -> outcome B) l1 a l2 bs er, Forall2 (fun a b => f a = Ret b) l1 bs -> f a = Throw er ->
  runs f (l1 ++ a :: l2) bs (a :: l2) (Throw er).
Proof.
  intros A B f l1 a l2 bs er F E. induction F as [|x b l1 bs Hx F IH]; cbn [app].
  - constructor. rewrite E. reflexivity.
  - constructor; assumption.
Qed.

(** ** Writing *)
Lemma make_ret : forall t x v, make t x = Ret v <-> to_ t x VNull = (v, Ret tt).
Proof.
  intros t x v. unfold make. destruct (to_ t x VNull) as [w [[]|er| | |]]; cbn [bind]; split; intro H; try discriminate; congruence.
Qed.
Lemma make_snd : forall t x, void (make t x) = snd (to_ t x VNull).
Proof. intros t x. unfold make. destruct (to_ t x VNull) as [w [[]|er| | |]]; reflexivity. Qed.

Section Rf.
Variable rf : bool.

Lemma store_ret : forall t x v a c, make t x = Ret v -> store rf a (to_ t x VNull) c = put [a] (v, Ret tt) c.
Proof. intros t x v a c H. apply make_ret in H. rewrite H. reflexivity. Qed.
Lemma store_end : forall t x o a c c' u, ends (make t x) o -> run [a] Get c = (c', Ret u) ->
  store rf a (to_ t x VNull) c = (if rf then c' else c, o).
Proof.
  intros t x o a c c' u H R. destruct (ends_eq _ _ _ H) as [V N]. rewrite make_snd in V. unfold make in N.
  destruct (to_ t x VNull) as [w p]. cbn [snd] in V. subst p. unfold store.
  destruct o as [[]|er| | |]; try (destruct (N w); reflexivity); rewrite R; destruct rf; reflexivity.
Qed.

Lemma get_next : forall l, exists u, run [RefIdx (len l)] Get (VArr l) = (VArr (l ++ [VNull]), Ret u).
Proof.
  intro l. unfold run. cbn [via via1]. unfold via_idx, run_op. rewrite N.leb_refl.
  replace (len l + 18446744073709551616 - len l + 1) with (1 + 1 * 18446744073709551616) by lia.
  unfold u64. rewrite N.mod_add by lia. change (N.to_nat (1 mod 18446744073709551616)) with 1%nat. cbn [repeat].
  unfold in_elem, len. rewrite Nat2N.id, nth_error_app2 by lia. rewrite Nat.sub_diag. cbn [nth_error].
  rewrite set_at_end. eexists. reflexivity.
Qed.
Lemma emplace_set : forall k (d : value) m, sorted m -> obj_find k m = None -> obj_emplace k d m = obj_set k d m.
Proof.
  intros k d m S F. apply sorted_unique; [apply emplace_sorted; assumption|apply set_sorted; assumption|].
  intros k2 x. rewrite <- !find_iff. rewrite find_set, find_emplace by assumption.
  destruct (str_eqb k2 k) eqn:E; [|destruct (obj_find k2 m); tauto].
  apply str_eqb_iff in E. subst k2. rewrite F. tauto.
Qed.
Lemma get_member : forall k m, sorted m -> obj_find k m = None ->
  exists u, run [RefKey k] Get (VObj m) = (VObj (obj_set k VNull m), Ret u).
Proof.
  intros k m S F. unfold run. cbn [via via1]. unfold via_key, run_op, in_member.
  rewrite find_emplace, str_eqb_refl, F by assumption. rewrite set_emplace by assumption. eexists. reflexivity.
Qed.
Lemma get_first : forall k, exists u, run [RefKey k] Get VNull = (VObj (obj_set k VNull []), Ret u).
Proof. intro k. apply (get_member k []); [constructor|reflexivity]. Qed.

Lemma store_seq_runs : forall t l vs rest o acc, runs (make t) l vs rest o ->
  store_seq rf (fun y => to_ t y VNull) (len acc) l (VArr acc) = (VArr (acc ++ vs ++ hole rf rest), o).
Proof.
  intros t l vs rest o acc H. revert acc. induction H as [|a b l bs rest o E H IH|a l o E]; intro acc; cbn [store_seq].
  - cbn [hole app]. rewrite app_nil_r. reflexivity.
  - rewrite (store_ret _ _ _ _ _ E), put_next. cbn [seq_]. replace (len acc + 1) with (len (acc ++ [b])).
    + rewrite IH, <- app_assoc. reflexivity.
    + unfold len. rewrite app_length. cbn [length]. lia.
  - destruct (get_next acc) as (u & G). rewrite (store_end _ _ _ _ _ _ _ E G).
    destruct (ends_eq _ _ _ E) as [V N]. cbn [hole app].
    assert (X : forall w : value, seq_ (w, o) (store_seq rf (fun y => to_ t y VNull) (len acc + 1) l) = (w, o)).
    { intro w. destruct o as [[]|er| | |]; try reflexivity. destruct (make t a) as [v|er| | |]; try discriminate. destruct (N v eq_refl). }
    rewrite X. destruct rf; [reflexivity|]. rewrite app_nil_r. reflexivity.
Qed.

Definition outside (ks : list str) (m : list (str * value)) : Prop := forall k, In k ks -> obj_find k m = None.
Lemma outside_set : forall k v ks m, sorted m -> ~ In k ks -> outside ks m -> outside ks (obj_set k v m).
Proof.
  intros k v ks m S N H j J. rewrite find_set by assumption. destruct (str_eqb j k) eqn:E; [|apply H; assumption].
  apply str_eqb_iff in E. subst. contradiction.
Qed.
Lemma not_ret : forall A (a : outcome A) X (w : X) o k, ends a o -> seq_ (w, o) k = (w, o).
Proof. intros A a X w o k H. destruct a, o; cbn in H; try contradiction; reflexivity. Qed.
Lemma named_ret : forall A B (f : A -> outcome B) p q, named f p = Ret q -> fst q = fst p /\ f (snd p) = Ret (snd q).
Proof. intros A B f p q H. unfold named in H. destruct (f (snd p)) as [b|er| | |]; try discriminate. injection H as <-. auto. Qed.
Lemma named_ends : forall A B (f : A -> outcome B) p (o : outcome unit), ends (named f p) o <-> ends (f (snd p)) o.
Proof. intros A B f p o. unfold named. destruct (f (snd p)); cbn [bind]; tauto. Qed.

Lemma store_map_runs : forall t ms ps rest o acc, runs (named (make t)) ms ps rest o ->
  sorted acc -> NoDup (map fst ms) -> outside (map fst ms) acc ->
  store_map rf (fun y => to_ t y VNull) ms (VObj acc) = (VObj (set_all (ps ++ named_hole rf rest) acc), o).
Proof.
  intros t ms ps rest o acc H. revert acc. induction H as [|[k y] q l bs rest o E H IH|[k y] l o E]; intros acc S N O; cbn [store_map].
  - reflexivity.
  - apply named_ret in E. cbn [fst snd] in E. destruct q as [k' v]. cbn [fst snd] in E. destruct E as [-> E].
    cbn [map fst] in N, O. inversion N as [|? ? N1 N2]; subst.
    rewrite (store_ret _ _ _ _ _ E), put_member by assumption. cbn [seq_]. rewrite IH.
    + reflexivity.
    + apply set_sorted. assumption.
    + assumption.
    + apply outside_set; try assumption. intros j J. apply O. right. assumption.
  - rewrite named_ends in E. cbn [snd] in E. cbn [map fst] in O.
    destruct (get_member k acc S (O k (or_introl eq_refl))) as (u & G). rewrite (store_end _ _ _ _ _ _ _ E G).
    rewrite (not_ret _ _ _ _ _ _ E). cbn [app named_hole]. destruct rf; reflexivity.
Qed.

(** a value that is null or an object *)
Inductive open_obj : value -> list (str * value) -> Prop :=
| oo_null : open_obj VNull []
| oo_obj m : open_obj (VObj m) m.
Lemma put_open : forall c m k v, open_obj c m -> sorted m -> put [RefKey k] (v, Ret tt) c = (VObj (obj_set k v m), Ret tt).
Proof. intros c m k v H S. destruct H; [apply put_first|apply put_member; assumption]. Qed.
Lemma get_open : forall c m k, open_obj c m -> sorted m -> obj_find k m = None ->
  exists u, run [RefKey k] Get c = (VObj (obj_set k VNull m), Ret u).
Proof. intros c m k H S F. destruct H; [apply get_first|apply get_member; assumption]. Qed.

Definition written (c : value) (ps m : list (str * value)) : value :=
  match ps with [] => c | _ => VObj (set_all ps m) end.

Lemma store_fields_runs : forall fs l ws, wanted fs l ws -> forall ps rest o c m, runs (named made) ws ps rest o ->
  open_obj c m -> sorted m -> NoDup (map fst ws) -> outside (map fst ws) m ->
  store_fields rf fs l c = (written c (ps ++ named_hole rf rest) m, o).
Proof.
  intros fs l ws W. induction W as [|n req t fs x l ws D W IH|n t fs x l ws D W IH]; intros ps rest o c m R Oc S N O; cbn [store_fields].
  - inversion R; subst. reflexivity.
  - replace (req || differs t x) with true by (symmetry; destruct D as [->| ->]; [reflexivity|destruct req; reflexivity]).
    inversion R as [|? q ? bs ? ? E R' |? ? ? E]; subst.
    + apply named_ret in E. cbn [fst snd] in E. destruct q as [k' v]. cbn [fst snd made] in E. destruct E as [-> E]. unfold made in E. cbn [fst snd] in E.
      cbn [map fst] in N, O. inversion N as [|? ? N1 N2]; subst.
      rewrite (store_ret _ _ _ _ _ E), (put_open _ m) by assumption. cbn [seq_].
      rewrite (IH _ _ _ (VObj (obj_set n v m)) (obj_set n v m) R').
      * cbn [app written]. unfold written. destruct (bs ++ named_hole rf rest) eqn:Eb; reflexivity.
      * constructor.
      * apply set_sorted. assumption.
      * assumption.
      * apply outside_set; try assumption. intros j J. apply O. right. assumption.
    + rewrite named_ends in E. cbn [snd] in E. unfold made in E. cbn [fst snd] in E. cbn [map fst] in O.
      destruct (get_open c m n Oc S (O n (or_introl eq_refl))) as (u & G). rewrite (store_end _ _ _ _ _ _ _ E G).
      rewrite (not_ret _ _ _ _ _ _ E). cbn [app named_hole]. destruct rf; reflexivity.
  - rewrite D. cbn [orb seq_]. apply (IH _ _ _ _ m); assumption.
Qed.
End Rf.

(** written as specified *)
Lemma writes_seq : forall rf k t d l c vs rest o, runs (make t) l vs rest o ->
  to_ (seq_conv rf k t d) (CSeq l) c = (VArr (vs ++ hole rf rest), o).
Proof. intros rf k t d l c vs rest o H. exact (store_seq_runs rf t l vs rest o [] H). Qed.
Lemma writes_array : forall rf n t d l c vs rest o, runs (make t) l vs rest o ->
  to_ (array_conv rf n t d) (CSeq l) c = (VArr (vs ++ hole rf rest), o).
Proof. intros rf n t d l c vs rest o H. exact (store_seq_runs rf t l vs rest o [] H). Qed.

Lemma iterated_perm : forall e h m, fair e -> Permutation (iterated e h m) m.
Proof. intros e [] m [_ F]; [apply F|apply Permutation_refl]. Qed.
Lemma iterated_nodup : forall e h m, fair e -> sorted m -> NoDup (map fst (iterated e h m)).
Proof.
  intros e h m F S. apply (Permutation_NoDup (l := map fst m)); [|apply sorted_nodup; assumption].
  apply Permutation_map, Permutation_sym, iterated_perm. assumption.
Qed.
Lemma runs_names : forall A B (f : A -> outcome B) ms ps rest o, runs (named f) ms ps rest o -> map fst ms = map fst ps ++ map fst rest.
Proof.
  intros A B f ms ps rest o H. induction H as [|a b l bs rest o E H IH|a l o E]; cbn [map app]; try reflexivity.
  apply named_ret in E. destruct E as [-> _]. rewrite IH. reflexivity.
Qed.
Lemma nodup_front : forall A (a b : list A), NoDup (a ++ b) -> NoDup a.
Proof.
  intros A a b. induction a as [|x a IH]; cbn [app]; intro N; [constructor|]. inversion N as [|? ? N1 N2]; subst. constructor; [|auto].
  intro J. apply N1, in_or_app. left. assumption.
Qed.
Lemma hole_nodup : forall A (f : A -> outcome value) rf ms ps rest o, runs (named f) ms ps rest o -> NoDup (map fst ms) ->
  NoDup (map fst (ps ++ named_hole rf rest)).
Proof.
  intros A f rf ms ps rest o H N. rewrite (runs_names _ _ _ _ _ _ _ H) in N. rewrite map_app.
  destruct rest as [|[k y] rest]; cbn [named_hole map fst] in *; [exact N|]. destruct rf; cbn [map fst].
  - apply (nodup_front _ _ (map fst rest)). rewrite <- app_assoc. exact N.
  - rewrite app_nil_r. apply (nodup_front _ _ _ N).
Qed.
Lemma writes_map : forall e rf h t d m c ps rest o, fair e -> sorted m ->
  runs (named (make t)) (iterated e h m) ps rest o ->
  exists w, to_ (map_conv e rf h t d) (CMap m) c = (VObj w, o) /\ map_of (ps ++ named_hole rf rest) w.
Proof.
  intros e rf h t d m c ps rest o F S H. pose proof (iterated_nodup e h m F S) as N.
  exists (set_all (ps ++ named_hole rf rest) []). split.
  - refine (store_map_runs rf t _ ps rest o [] H _ N _); [constructor|intros k _; reflexivity].
  - apply set_all_map_of. apply (hole_nodup _ _ _ _ _ _ _ H N).
Qed.
Lemma wanted_names : forall fs l ws, wanted fs l ws -> NoDup (map (fun f => fst (fst f)) fs) -> NoDup (map fst ws).
Proof.
  intros fs l ws W. assert (I : forall fs l ws, wanted fs l ws -> forall n, In n (map fst ws) -> In n (map (fun f : str * bool * conv => fst (fst f)) fs)).
  { clear. intros fs l ws W. induction W; cbn [map fst]; intros j J; [destruct J|destruct J as [->|J]; [left; reflexivity|right; auto]|right; auto]. }
  induction W as [|n req t fs x l ws D W IH|n t fs x l ws D W IH]; cbn [map fst]; intro N; inversion N; subst; [constructor|constructor|]; auto.
  intro J. apply (I _ _ _ W) in J. contradiction.
Qed.
Lemma writes_struct : forall rf fs d l ws ps rest o, NoDup (map (fun f => fst (fst f)) fs) -> wanted fs l ws ->
  runs (named made) ws ps rest o ->
  exists v, to_ (struct_conv rf fs d) (CRec l) VNull = (v, o) /\
    (ps ++ named_hole rf rest = [] -> v = VNull) /\
    (ps ++ named_hole rf rest <> [] -> exists w, v = VObj w /\ map_of (ps ++ named_hole rf rest) w).
Proof.
  intros rf fs d l ws ps rest o N W R. pose proof (wanted_names _ _ _ W N) as Nw.
  exists (written VNull (ps ++ named_hole rf rest) []). split; [|split].
  - refine (store_fields_runs rf fs l ws W ps rest o VNull [] R _ _ Nw _); [constructor|constructor|intros k _; reflexivity].
  - intros ->. reflexivity.
  - intro X. exists (set_all (ps ++ named_hole rf rest) []). split.
    + unfold written. destruct (ps ++ named_hole rf rest); [contradiction|reflexivity].
    + apply set_all_map_of. apply (hole_nodup _ _ _ _ _ _ _ R Nw).
Qed.
Lemma writes_ptr : forall t c, to_ (ptr_conv t) (CPtr None) c = (VNull, Ret tt).
Proof. reflexivity. Qed.
Lemma writes_ptr_some : forall t x c v, make t x = Ret v -> to_ (ptr_conv t) (CPtr (Some x)) c = (v, Ret tt).
Proof. intros t x c v H. apply make_ret in H. cbn [ptr_conv of_into to_]. rewrite H. reflexivity. Qed.
Lemma writes_ptr_end : forall t x c o, ends (make t x) o -> to_ (ptr_conv t) (CPtr (Some x)) c = (c, o).
Proof.
  intros t x c o H. destruct (ends_eq _ _ _ H) as [V N]. rewrite make_snd in V. unfold make in N. cbn [ptr_conv of_into to_].
  destruct (to_ t x VNull) as [w p]. cbn [snd] in V. subst p. destruct o as [[]|er| | |]; try reflexivity. destruct (N w eq_refl).
Qed.

(** ** Reading *)
Section Read.
Variables (e : env) (rf : bool).

Lemma loop_items : forall (t : conv) v vs, seq_items v vs -> forall j a, nth_error vs j = Some a ->
  (0 + N.of_nat j <? v_size v) = true /\ (let* w := at_idx (0 + N.of_nat j) v in get_ t w) = get_ t a.
Proof.
  intros t v vs I j a Hj. pose proof (items_size v vs I) as Sz. rewrite N.add_0_l, (items_at v vs j a I Hj). split; [|reflexivity].
  assert (j < length vs)%nat by (apply nth_error_Some; congruence). rewrite Sz. unfold len. lia.
Qed.

Lemma reads_vec : forall k t d v vs l ys rest o, k = KVector \/ k = KDeque -> seq_items v vs -> runs (get_ t) vs ys rest o ->
  into_ (seq_conv rf k t d) v (CSeq l) = (CSeq (ys ++ skipn (length ys) (resize (zero t) (length vs) l)), o).
Proof.
  intros k t d v vs l ys rest o K I R. pose proof (items_size v vs I) as Sz. pose proof (scan_runs _ _ _ _ _ _ _ R) as Sc.
  transitivity (let '(l', o) :=
      for_loop (S (N.to_nat (v_size v))) (fun i => i <? v_size v)
        (fun i l => assign l (let* w := at_idx i v in get_ t w) (fun y => set_nth (N.to_nat i) y l)) 0
        (resize (zero t) (N.to_nat (v_size v)) l) in (CSeq l', o)); [destruct K as [->| ->]; reflexivity|].
  rewrite (loop_scan value cval (list cval) (get_ t) _ (fun i l y => set_nth (N.to_nat i) y l) _ vs 0).
  - pose proof (scan_len _ _ (get_ t) vs) as SL. rewrite Sc in *. cbn [fst snd] in *.
    rewrite upds_set0 by (rewrite resize_length, Sz; unfold len; lia). rewrite Sz. unfold len. rewrite Nat2N.id. reflexivity.
  - rewrite Sz. unfold len. lia.
  - apply loop_items. assumption.
  - rewrite Sz. unfold len. lia.
Qed.
Lemma reads_list : forall t d v vs l ys rest o, seq_items v vs -> runs (get_ t) vs ys rest o ->
  into_ (seq_conv rf KList t d) v (CSeq l) = (CSeq ys, o).
Proof.
  intros t d v vs l ys rest o I R. pose proof (items_size v vs I) as Sz. pose proof (scan_runs _ _ _ _ _ _ _ R) as Sc.
  cbn [seq_conv of_into into_]. rewrite (loop_scan value cval (list cval) (get_ t) _ (fun i l y => l ++ [y]) _ vs 0).
  - rewrite upds_back, Sc. reflexivity.
  - rewrite Sz. unfold len. lia.
  - apply loop_items. assumption.
  - rewrite Sz. unfold len. lia.
Qed.
Lemma reads_forward : forall t d v vs l ys rest o, seq_items v vs -> runs (get_ t) (rev vs) ys rest o ->
  into_ (seq_conv rf KForward t d) v (CSeq l) = (CSeq (rev ys), o).
Proof.
  intros t d v vs l ys rest o I R. pose proof (items_size v vs I) as Sz. pose proof (scan_runs _ _ _ _ _ _ _ R) as Sc.
  cbn [seq_conv of_into into_].
  rewrite (loop_scan value cval (list cval) (get_ t) (fun i => let* w := at_idx (v_size v - i - 1) v in get_ t w) (fun i l y => y :: l) _ (rev vs) 0).
  - rewrite upds_front, Sc, app_nil_r. reflexivity.
  - rewrite rev_length, Sz. unfold len. lia.
  - intros j a Hj. apply nth_rev in Hj. destruct Hj as [Lj Hj]. rewrite N.add_0_l, Sz. unfold len.
    replace (N.of_nat (length vs) - N.of_nat j - 1) with (N.of_nat (length vs - j - 1)) by lia.
    rewrite (items_at v vs _ a I Hj). split; [lia|reflexivity].
  - rewrite rev_length, Sz. unfold len. lia.
Qed.
Lemma reads_seq_kind : forall k t d v l, k <> KSet -> k <> KUSet -> no_seq_items v ->
  into_ (seq_conv rf k t d) v (CSeq l) =
  (CSeq (match k with KVector | KDeque => resize (zero t) (N.to_nat (v_size v)) l | _ => [] end), Throw not_array).
Proof.
  intros k t d v l K1 K2 N0. pose proof (no_items_size v N0) as P.
  destruct k; try contradiction; cbn [seq_conv of_into into_]; erewrite loop_stop; try reflexivity; try lia; rewrite no_items_at by assumption; reflexivity.
Qed.
Lemma reads_array : forall n t d v vs l ys rest o, seq_items v vs -> length l = n -> runs (get_ t) (firstn n vs) ys rest o ->
  into_ (array_conv rf n t d) v (CSeq l) = (CSeq (ys ++ skipn (length ys) l), o).
Proof.
  intros n t d v vs l ys rest o I Ln R. pose proof (items_size v vs I) as Sz. pose proof (scan_runs _ _ _ _ _ _ _ R) as Sc. cbn [array_conv of_into into_].
  rewrite (loop_scan value cval (list cval) (get_ t) _ (fun i l y => set_nth (N.to_nat i) y l) _ (firstn n vs) 0).
  - pose proof (scan_len _ _ (get_ t) (firstn n vs)) as SL. rewrite firstn_length in SL. rewrite Sc in *. cbn [fst snd] in *.
    rewrite upds_set0 by lia. reflexivity.
  - rewrite firstn_length. lia.
  - intros j a Hj. assert (Lj : (j < length (firstn n vs))%nat) by (apply nth_error_Some; congruence). rewrite firstn_length in Lj.
    assert (Hj' : nth_error vs j = Some a).
    { rewrite <- (firstn_skipn n vs). rewrite nth_error_app1 by (rewrite firstn_length; lia). assumption. }
    rewrite N.add_0_l, (items_at v vs j a I Hj'), Sz. unfold len. split; [lia|reflexivity].
  - rewrite firstn_length, Sz. unfold len. lia.
Qed.
Lemma reads_array_kind : forall n t d v l, no_seq_items v -> n <> O -> into_ (array_conv rf n t d) v (CSeq l) = (CSeq l, Throw not_array).
Proof.
  intros n t d v l N0 Nn. pose proof (no_items_size v N0) as P. cbn [array_conv of_into into_].
  erewrite loop_stop; try reflexivity; [lia|rewrite no_items_at by assumption; reflexivity].
Qed.
Lemma reads_array0 : forall t d v l, into_ (array_conv rf 0 t d) v (CSeq l) = (CSeq l, Ret tt).
Proof. intros t d v l. cbn [array_conv of_into into_]. rewrite loop_none by lia. reflexivity. Qed.

Lemma reads_map : forall h t d o m ps rest r, ordered (VObj o) -> sorted m -> runs (named (get_ t)) o ps rest r ->
  exists m', into_ (map_conv e rf h t d) (VObj o) (CMap m) = (CMap m', r) /\ map_of (m ++ ps) m'.
Proof.
  intros h t d o m ps rest r Od S R. pose proof (scan_runs _ _ _ _ _ _ _ R) as Sc.
  exists (emplaces ps m). split; [|apply emplaces_iff; [assumption|reflexivity]].
  cbn [map_conv of_into into_].
  destruct (begin_pos (fun _ => VObj o) 0) as (it & -> & At).
  rewrite (each_scan (VObj o) (str * value) (str * cval) (list (str * cval)) (named (get_ t)) _ (fun m p => obj_emplace (fst p) (snd p) m) o 0 it).
  - rewrite Sc. reflexivity.
  - assumption.
  - reflexivity.
  - cbn [v_size]. unfold len. lia.
  - intros j [k w] jt Hj Aj.
    destruct (read_pos (fun _ => VObj o) 0 j jt (map (fun p => (Some (fst p), snd p)) o) (Some k) w Od Aj) as [R' [K _]].
    + constructor.
    + rewrite nth_error_map, Hj. reflexivity.
    + cbn beta in R', K. rewrite R', K. cbn [bind]. unfold named. cbn [fst snd].
      destruct (e_key1 e); destruct (get_ t w); reflexivity.
Qed.
Lemma reads_map_none : forall h t d v m, seq_items v [] -> into_ (map_conv e rf h t d) v (CMap m) = (CMap m, Ret tt).
Proof.
  intros h t d v m I. pose proof (items_size v [] I) as Sz. change (len (@nil value)) with 0 in Sz. cbn [map_conv of_into into_].
  destruct (begin_pos (fun _ => v) 0) as (it & -> & At).
  rewrite (each_scan v unit (str * cval) (list (str * cval)) (fun _ => UB) _ (fun m p => obj_emplace (fst p) (snd p) m) [] 0 it).
  - reflexivity.
  - assumption.
  - rewrite Sz. reflexivity.
  - cbn [length]. lia.
  - intros j a jt Hj. destruct j; discriminate.
Qed.
Lemma reads_map_kind : forall h t d v m, ordered v -> type_of v <> TObject -> ~ seq_items v [] ->
  exists w es, elements v ((None, w) :: es) /\
    (into_ (map_conv e rf h t d) v (CMap m) = (CMap m, Throw no_key) \/
     (exists o, e_key1 e = false /\ ends (get_ t w) o /\ into_ (map_conv e rf h t d) v (CMap m) = (CMap m, o))).
Proof.
  intros h t d v m Od Ty Ni.
  assert (El : exists w es, elements v ((None, w) :: es)).
  { destruct v as [|z|f|s|l|o|b]; try (eexists; eexists; constructor; fail).
    - destruct Ni. constructor.
    - destruct l as [|x l]; [destruct Ni; constructor|]. exists x, (map (fun x => (None, x)) l). apply (es_arr (x :: l)).
    - destruct Ty. reflexivity. }
  destruct El as (w & es & El). exists w, es. split; [assumption|].
  assert (Sz : 0 < v_size v) by (rewrite <- (elements_size _ _ El); cbn [length]; lia).
  cbn [map_conv of_into into_]. destruct (begin_pos (fun _ => v) 0) as (it & -> & At).
  destruct (read_pos (fun _ => v) 0 0 it ((None, w) :: es) None w Od At El eq_refl) as [R [K _]].
  destruct (N.to_nat (v_size v)) as [|n] eqn:En; [lia|]. cbn [each].
  destruct (end_pos (fun _ => v) 0) as (en & -> & Pe). cbn [bind]. cbn beta in Pe. rewrite En in Pe.
  rewrite (eq_pos (fun _ => v) 0 0 (S n) it en At Pe) by (intro T; destruct v; try discriminate; cbn in En; discriminate).
  cbn [Nat.eqb]. rewrite R, K. cbn [bind].
  destruct (e_key1 e).
  - left. reflexivity.
  - destruct (get_ t w) as [y|er'| | |] eqn:G; cbn [bind assign void seq_]; [left; reflexivity|right; eexists; split; [reflexivity|]; split; [|reflexivity]..]; cbn; auto.
Qed.

Lemma reads_ptr_none : forall t x, into_ (ptr_conv t) VNull x = (CPtr None, Ret tt).
Proof. reflexivity. Qed.
Lemma reads_ptr : forall t v x y, v <> VNull -> get_ t v = Ret y -> into_ (ptr_conv t) v x = (CPtr (Some y), Ret tt).
Proof. intros t v x y N G. cbn [ptr_conv of_into into_]. destruct v; try contradiction; rewrite G; reflexivity. Qed.
Lemma reads_ptr_end : forall t v x o, v <> VNull -> ends (get_ t v) o -> into_ (ptr_conv t) v x = (x, o).
Proof.
  intros t v x o N H. destruct (ends_eq _ _ _ H) as [V R]. cbn [ptr_conv of_into into_].
  destruct v; try contradiction; (destruct (get_ t _) as [y|er| | |]; [destruct (R y eq_refl)|rewrite <- V; reflexivity..]).
Qed.

Lemma fields_fill : forall fs v l, ordered v -> length l = length fs -> exists l' o,
  get_fields fs v l = (l', o) /\ fills v fs l l' o.
Proof.
  induction fs as [|[[n req] t] fs IH]; intros v [|x l] Od L; cbn [length] in L; try discriminate.
  - repeat eexists. constructor.
  - cbn [get_fields]. destruct (IH v l Od) as (l' & o & E & F); [lia|].
    destruct (obj_or_not v) as [[m ->]|Ty].
    + assert (S : sorted m) by (inversion Od; assumption).
      destruct (obj_find n m) as [w|] eqn:Fn.
      * assert (I : In (n, w) m) by (apply find_in'; assumption).
        replace (req || (0 <? v_count n (VObj m))) with true
          by (symmetry; cbn [v_count]; rewrite Fn; destruct req; reflexivity).
        rewrite (at_key_obj _ _ _ Fn). unfold try_get. destruct (into_ t w x) as [y [[]|er| | |]] eqn:G; rewrite ?E; cbn [void bind];
          (eexists; eexists; split; [reflexivity|]); try (eapply fl_read; eauto; fail); eapply fl_end; eauto.
      * assert (A : absent n (VObj m)).
        { intros m' w' Em I. injection Em as <-. apply (find_in _ _ _ _ S) in I. congruence. }
        destruct req.
        -- cbn [orb]. rewrite at_key_missing by assumption. eexists. eexists. split; [reflexivity|]. constructor. assumption.
        -- cbn [orb v_count]. rewrite Fn. rewrite E. eexists. eexists. split; [reflexivity|]. constructor; assumption.
    + destruct req.
      * cbn [orb]. rewrite at_key_kind by assumption. eexists. eexists. split; [reflexivity|]. constructor. assumption.
      * cbn [orb]. rewrite count_kind by assumption. rewrite E. eexists. eexists. split; [reflexivity|]. constructor; [|assumption].
        intros m' w' ->. destruct Ty. reflexivity.
Qed.
Lemma fills_unique : forall v, ordered v -> forall fs l a oa, fills v fs l a oa -> forall b ob, fills v fs l b ob -> a = b /\ oa = ob.
Proof.
  intros v Od fs l a oa H. 
  induction H as [v|m n req t fs w x y p l l' o I G P F IH|m n req t fs w x y p l I G P|v n t fs x l l' o A F IH|m n t fs x l A|v n t fs x l Ty];
    intros b ob H'; inversion H' as [v'|m2 n2 req2 t2 fs2 w2 x2 y2 p2 l2 l2' o2 I2 G2 P2 F2|m2 n2 req2 t2 fs2 w2 x2 y2 p2 l2 I2 G2 P2|v2 n2 t2 fs2 x2 l2 l2' o2 A2 F2|m2 n2 t2 fs2 x2 l2 A2|v2 n2 t2 fs2 x2 l2 Ty2]; subst; auto;
    try (match goal with X : type_of (VObj _) <> TObject |- _ => destruct X; reflexivity end);
    try (match goal with A : absent ?n (VObj ?m), I : In (?n, ?w) ?m |- _ => destruct (A m w eq_refl I) end);
    try (destruct (IH Od _ _ F2) as [-> ->]);
    try (assert (w2 = w) by (assert (S : sorted m) by (inversion Od; assumption); apply (find_in _ _ _ _ S) in I; apply (find_in _ _ _ _ S) in I2; congruence); subst w2;
         rewrite G in G2; injection G2 as <- <-; auto);
    try (destruct P as [->|[er ->]], P2 as [?|[?|?]]; discriminate);
    try (destruct P2 as [->|[er ->]], P as [?|[?|?]]; discriminate); auto.
Qed.
Lemma reads_struct : forall fs d v l, ordered v -> length l = length fs -> forall l' o,
  into_ (struct_conv rf fs d) v (CRec l) = (CRec l', o) <-> fills v fs l l' o.
Proof.
  intros fs d v l Od L l' o. cbn [struct_conv of_into into_]. destruct (fields_fill fs v l Od L) as (l2 & o2 & -> & F). split; intro H.
  - injection H as <- <-. assumption.
  - destruct (fills_unique v Od _ _ _ _ F _ _ H) as [-> ->]. reflexivity.
Qed.
End Read.
