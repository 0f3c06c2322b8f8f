(** The functions of Cost give the results of those they repeat. *)
From Coq Require Import Lia Floats.SpecFloat.
From Verif Require Import Base Stream Encoding Value ValueOps Token Message Parser Serializer Compare DumpText Cost SpecCost.
Open Scope nat_scope.

(** ** Parsing *)

Lemma fst_match : forall A B (p : A * B) (f : A -> A), fst (let '(a, b) := p in (f a, b)) = f (fst p).
Proof. intros A B [a b] f. reflexivity. Qed.

Lemma skip_same : forall cf fuel st, fst (k_skip cf fuel st) = skip_spaces cf fuel st.
Proof.
  intros cf fuel. induction fuel as [|f IH]; intro st; [reflexivity|]. cbn [k_skip skip_spaces].
  destruct (skip_ws cf (S f) st) as [st1| | | |]; try reflexivity. cbn [bind].
  destruct (N.eqb (p_cur st1) c_slash); [|reflexivity].
  destruct (read_next cf st1) as [st2| | | |]; try reflexivity. cbn [bind].
  destruct (N.eqb (p_cur st2) c_slash).
  - destruct (line_comment cf (S f) st2) as [[[] st3]| | | |]; try reflexivity. cbn [bind fst snd].
    rewrite <- IH. destruct (k_skip cf f st3). reflexivity.
  - destruct (N.eqb (p_cur st2) c_star); [|reflexivity].
    destruct (block_comment cf (S f) st2) as [st3| | | |]; try reflexivity. cbn [bind].
    rewrite <- IH. destruct (k_skip cf f st3). reflexivity.
Qed.

Lemma scan_same : forall cf fuel st, fst (k_scan cf fuel st) = scan cf fuel st.
Proof.
  intros cf fuel st. unfold k_scan, scan. rewrite <- skip_same.
  destruct (k_skip cf fuel st) as [[| | | |] k]; reflexivity.
Qed.

Lemma scan_eq : forall cf fuel st, k_scan cf fuel st = (scan cf fuel st, snd (k_scan cf fuel st)).
Proof. intros. rewrite <- scan_same. destruct (k_scan cf fuel st). reflexivity. Qed.

Lemma parse_same : forall cf fuel,
  (forall c tok st, fst (k_parse cf fuel c tok st) = do_parse cf fuel c tok st) /\
  (forall l st, fst (k_arr cf fuel l st) = arr_loop cf fuel l st) /\
  (forall m st, fst (k_obj cf fuel m st) = obj_loop cf fuel m st).
Proof.
  intros cf fuel. induction fuel as [|f (IHp & IHa & IHo)]; [repeat split|]. split; [|split].
  - intros c tok st. cbn [k_parse do_parse].
    assert (E : (match tok with None => k_scan cf (S f) st | Some t => (Ret (t, st), free) end) =
      (match tok with None => scan cf (S f) st | Some t => Ret (t, st) end,
       snd (match tok with None => k_scan cf (S f) st | Some t => (Ret (t, st), free) end))).
    { destruct tok; [reflexivity|apply scan_eq]. }
    rewrite E. clear E. destruct (match tok with None => scan cf (S f) st | Some t => Ret (t, st) end) as [[t st1]| | | |]; try reflexivity.
    destruct t; try reflexivity.
    + destruct (get_string cf (S f) st1). reflexivity.
    + destruct (get_integer st1); reflexivity.
    + rewrite <- IHa. destruct (k_arr cf f [] st1) as [[l r] k]. reflexivity.
    + rewrite <- IHo. destruct (k_obj cf f [] st1) as [[m r] k]. reflexivity.
  - intros l st. cbn [k_arr arr_loop]. rewrite scan_eq. destruct (scan cf (S f) st) as [[t st1]| | | |]; try reflexivity.
    destruct (starts_value t); [|reflexivity]. rewrite <- IHp. destruct (k_parse cf f VNull (Some t) st1) as [[v r] k].
    cbn [fst]. destruct r as [st2| | | |]; try reflexivity. rewrite scan_eq. destruct (scan cf (S f) st2) as [[t3 st3]| | | |]; try reflexivity.
    destruct t3; try reflexivity. rewrite <- IHa. destruct (k_arr cf f (l ++ [v]) st3). reflexivity.
  - intros m st. cbn [k_obj obj_loop]. rewrite scan_eq. destruct (scan cf (S f) st) as [[t st1]| | | |]; try reflexivity.
    destruct t; try reflexivity. destruct (get_string cf (S f) st1) as [key r]. destruct r as [st2| | | |]; try reflexivity.
    rewrite scan_eq. destruct (scan cf (S f) st2) as [[t3 st3]| | | |]; try reflexivity. destruct t3; try reflexivity.
    rewrite <- IHp. destruct (k_parse cf f VNull None st3) as [[v r] k]. cbn [fst]. destruct r as [st4| | | |]; try reflexivity.
    rewrite scan_eq. destruct (scan cf (S f) st4) as [[t5 st5]| | | |]; try reflexivity. destruct t5; try reflexivity.
    rewrite <- IHo. destruct (k_obj cf f (obj_emplace key v m) st5). reflexivity.
Qed.

Lemma body_same : forall cf fuel c st, fst (k_body cf fuel c st) = parse_body cf fuel c st.
Proof.
  intros cf fuel c st. unfold k_body, parse_body. destruct (parse_same cf fuel) as (P & _ & _). rewrite <- P.
  destruct (k_parse cf fuel c None st) as [[v r] k]. cbn [fst]. destruct r as [st1| | | |]; try reflexivity. cbn [bind].
  rewrite scan_eq. destruct (scan cf fuel st1) as [[t st2]| | | |]; try reflexivity. cbn [bind fst]. destruct t; reflexivity.
Qed.

Theorem into_same : forall cf h c s, fst (k_into cf h c s) = parse_into cf h c s.
Proof.
  intros cf h c s. unfold k_into, parse_into, parse_ibuf. destruct (read_next cf (init_pst (IStr s))) as [st| | | |]; try reflexivity.
  rewrite <- body_same. destruct (k_body cf (fuel_for s) c st) as [[v r] k]. reflexivity.
Qed.

(** ** Dumping *)

Lemma kseq_fst : forall m f, fst (kseq m f) = (do* s := m in fst (f s)).
Proof. intros [s r] f. destruct r; reflexivity. Qed.
Lemma kthen_fst : forall m f, fst (kthen m f) = (do* s := fst m in fst (f s)).
Proof. intros [[s r] n] f. unfold kthen. cbn [fst snd]. destruct r; try reflexivity. cbn [sthen]. destruct (f s). reflexivity. Qed.

(** the loops, named *)
Definition k_elems (cf : scfg) := fix go (l : list value) (s : sst) : kres :=
  match l with
  | [] => kdone (sret s)
  | v :: l' => kthen (k_dump cf v s) (fun s => match l' with [] => kdone (sret s) | _ => kseq (next cf Tval_sep s) (fun s => go l' s) end)
  end.
Definition k_members (cf : scfg) := fix go (m : list (str * value)) (s : sst) : kres :=
  match m with
  | [] => kdone (sret s)
  | (k, v) :: m' =>
      kseq (next cf Tstring s) (fun s => kseq (put_string cf k s) (fun s => kseq (next cf Tname_sep s) (fun s =>
      kthen (k_dump cf v s) (fun s => match m' with [] => kdone (sret s) | _ => kseq (next cf Tval_sep s) (fun s => go m' s) end))))
  end.
Definition d_elems (cf : scfg) := fix go (l : list value) (s : sst) : sres :=
  match l with
  | [] => sret s
  | v :: l' => do* s := do_dump cf v s in match l' with [] => sret s | _ => do* s := next cf Tval_sep s in go l' s end
  end.
Definition d_members (cf : scfg) := fix go (m : list (str * value)) (s : sst) : sres :=
  match m with
  | [] => sret s
  | (k, v) :: m' =>
      do* s := next cf Tstring s in do* s := put_string cf k s in do* s := next cf Tname_sep s in
      do* s := do_dump cf v s in match m' with [] => sret s | _ => do* s := next cf Tval_sep s in go m' s end
  end.
Lemma k_elems_eq : forall cf v l' s, k_elems cf (v :: l') s =
  kthen (k_dump cf v s) (fun s => match l' with [] => kdone (sret s) | _ => kseq (next cf Tval_sep s) (fun s => k_elems cf l' s) end).
Proof. reflexivity. Qed.
Lemma k_members_eq : forall cf k v m' s, k_members cf ((k, v) :: m') s =
  kseq (next cf Tstring s) (fun s => kseq (put_string cf k s) (fun s => kseq (next cf Tname_sep s) (fun s =>
  kthen (k_dump cf v s) (fun s => match m' with [] => kdone (sret s) | _ => kseq (next cf Tval_sep s) (fun s => k_members cf m' s) end)))).
Proof. reflexivity. Qed.
Lemma d_elems_eq : forall cf v l' s, d_elems cf (v :: l') s =
  do* s := do_dump cf v s in match l' with [] => sret s | _ => do* s := next cf Tval_sep s in d_elems cf l' s end.
Proof. reflexivity. Qed.
Lemma d_members_eq : forall cf k v m' s, d_members cf ((k, v) :: m') s =
  do* s := next cf Tstring s in do* s := put_string cf k s in do* s := next cf Tname_sep s in
  do* s := do_dump cf v s in match m' with [] => sret s | _ => do* s := next cf Tval_sep s in d_members cf m' s end.
Proof. reflexivity. Qed.
Lemma k_dump_arr : forall cf v l s, k_dump cf (VArr (v :: l)) s =
  kcall (kseq (next cf Tbegin_arr s) (fun s => kthen (k_elems cf (v :: l) s) (fun s => kdone (next cf Tend_arr s)))).
Proof. reflexivity. Qed.
Lemma k_dump_obj : forall cf v m s, k_dump cf (VObj (v :: m)) s =
  kcall (kseq (next cf Tbegin_obj s) (fun s => kthen (k_members cf (v :: m) s) (fun s => kdone (next cf Tend_obj s)))).
Proof. reflexivity. Qed.
Lemma d_dump_arr : forall cf v l s, do_dump cf (VArr (v :: l)) s =
  do* s := next cf Tbegin_arr s in do* s := d_elems cf (v :: l) s in next cf Tend_arr s.
Proof. reflexivity. Qed.
Lemma d_dump_obj : forall cf v m s, do_dump cf (VObj (v :: m)) s =
  do* s := next cf Tbegin_obj s in do* s := d_members cf (v :: m) s in next cf Tend_obj s.
Proof. reflexivity. Qed.

Lemma sthen_ext : forall m f g, (forall s, f s = g s) -> (do* s := m in f s) = (do* s := m in g s).
Proof. intros [s []] f g H; cbn [sthen]; auto. Qed.

Lemma dump_same : forall cf v s, fst (k_dump cf v s) = do_dump cf v s.
Proof.
  intro cf. apply (value_rect2 (fun v => forall s, fst (k_dump cf v s) = do_dump cf v s)); try reflexivity.
  - intros l F s. assert (E : forall s, fst (k_elems cf l s) = d_elems cf l s).
    { clear s. induction F as [|v l Fv F IH]; intro s; [reflexivity|]. rewrite k_elems_eq, d_elems_eq. rewrite kthen_fst, Fv.
      apply sthen_ext. intro s2. destruct l as [|w l]; [reflexivity|]. rewrite kseq_fst. apply sthen_ext. exact IH. }
    destruct l as [|v l]; [cbn [k_dump do_dump kcall fst]; rewrite kseq_fst; reflexivity|]. rewrite k_dump_arr, d_dump_arr.
    cbn [kcall fst]. rewrite kseq_fst. apply sthen_ext. intro s1. rewrite kthen_fst, E. reflexivity.
  - intros m F s. assert (E : forall s, fst (k_members cf m s) = d_members cf m s).
    { clear s. induction F as [|[k v] m Fv F IH]; intro s; [reflexivity|]. rewrite k_members_eq, d_members_eq. cbn [snd] in Fv.
      rewrite kseq_fst. apply sthen_ext. intro s1. rewrite kseq_fst. apply sthen_ext. intro s2. rewrite kseq_fst. apply sthen_ext. intro s3.
      rewrite kthen_fst, Fv. apply sthen_ext. intro s4. destruct m as [|w m]; [reflexivity|]. rewrite kseq_fst. apply sthen_ext. exact IH. }
    destruct m as [|v m]; [cbn [k_dump do_dump kcall fst]; rewrite kseq_fst; reflexivity|]. rewrite k_dump_obj, d_dump_obj.
    cbn [kcall fst]. rewrite kseq_fst. apply sthen_ext. intro s1. rewrite kthen_fst, E. reflexivity.
Qed.

Theorem dump_string_same : forall cf v, fst (k_dump_string cf v) = dump_string cf v.
Proof.
  intros cf v. unfold k_dump_string, dump_string, dump_to.
  assert (E : forall m f, kthen m f = (do* s := fst m in fst (f s), snd (kthen m f))).
  { intros. rewrite <- kthen_fst. destruct (kthen m f). reflexivity. }
  rewrite E, dump_same. cbn [kdone fst].
  destruct (do* s := do_dump cf v (init_sst cf (mkOs [] false)) in next cf Teoi s) as [s r].
  cbn [fst]. destruct (handle HNone r). reflexivity.
Qed.

(** how deep: do_dump is called once for each value around *)
Definition fine (m : sres) : Prop := match snd m with Ret _ => True | _ => False end.
Lemma kthen_le : forall m f n, snd m <= n -> (forall s, snd (f s) <= n) -> snd (kthen m f) <= n.
Proof. intros [[s r] k] f n M F. unfold kthen. cbn [fst snd] in *. destruct r; try assumption. specialize (F s). destruct (f s). cbn [snd] in *. lia. Qed.
Lemma kseq_le : forall m f n, (forall s, snd (f s) <= n) -> snd (kseq m f) <= n.
Proof. intros [s r] f n F. unfold kseq. destruct r; cbn [snd]; auto; lia. Qed.

Lemma kseq_eq : forall m f n, fine (fst (kseq m f)) -> (forall s, fine (fst (f s)) -> snd (f s) = n) -> snd (kseq m f) = n.
Proof. intros [s r] f n H F. unfold kseq in *. destruct r; try contradiction. auto. Qed.
Lemma kthen_eq : forall m f n1 n2, fine (fst (kthen m f)) -> (fine (fst m) -> snd m = n1) -> (forall s, fine (fst (f s)) -> snd (f s) = n2) ->
  snd (kthen m f) = Nat.max n1 n2.
Proof.
  intros [[s r] k] f n1 n2 H M F. unfold kthen in *. cbn [fst snd] in *. destruct r; try contradiction.
  specialize (F s). destruct (f s) as [x j]. cbn [fst snd] in *. rewrite F, M by (assumption || exact Logic.I). reflexivity.
Qed.

Lemma dump_deep : forall cf v s, snd (k_dump cf v s) <= nest v /\ (fine (fst (k_dump cf v s)) -> snd (k_dump cf v s) = nest v).
Proof.
  intro cf. apply (value_rect2 (fun v => forall s, snd (k_dump cf v s) <= nest v /\ (fine (fst (k_dump cf v s)) -> snd (k_dump cf v s) = nest v))); try (intros; split; [apply le_n|reflexivity]).
  - intros l F s.
    assert (E : forall s, snd (k_elems cf l s) <= list_max (map nest l) /\ (fine (fst (k_elems cf l s)) -> snd (k_elems cf l s) = list_max (map nest l))).
    { clear s. induction F as [|v l Fv F IH]; intro s; [split; [apply le_n|reflexivity]|]. rewrite k_elems_eq; cbn [map list_max fold_right].
      fold (list_max (map nest l)). split.
      - apply kthen_le; [destruct (Fv s); lia|]. intro s1. destruct l as [|w l]; [cbn [kdone snd]; lia|]. apply kseq_le. intro s2. destruct (IH s2). lia.
      - intro X. eapply kthen_eq; [exact X|apply Fv|]. intros s1 X1. destruct l as [|w l]; [reflexivity|].
        eapply kseq_eq; [exact X1|]. intro s2. apply IH. }
    destruct l as [|v l].
    + cbn [k_dump kcall snd fst nest map list_max fold_right]. split; [apply le_n_S; apply kseq_le; intro; apply le_n|].
      intro X. f_equal. eapply kseq_eq; [exact X|]. reflexivity.
    + rewrite k_dump_arr. cbn [kcall snd fst]. change (nest (VArr (v :: l))) with (S (list_max (map nest (v :: l)))). split.
      * apply le_n_S, kseq_le. intro s1. apply kthen_le; [apply E|]. intro. cbn [kdone snd]. lia.
      * intro X. f_equal. eapply kseq_eq; [exact X|]. intros s1 X1. replace (list_max (map nest (v :: l))) with (Nat.max (list_max (map nest (v :: l))) 0) by lia.
        eapply kthen_eq; [exact X1|apply E|reflexivity].
  - intros m F s. set (nst := fun kv : str * value => nest (snd kv)).
    assert (E : forall s, snd (k_members cf m s) <= list_max (map nst m) /\ (fine (fst (k_members cf m s)) -> snd (k_members cf m s) = list_max (map nst m))).
    { clear s. induction F as [|[k v] m Fv F IH]; intro s; [split; [apply le_n|reflexivity]|]. rewrite k_members_eq; cbn [map list_max fold_right].
      fold (list_max (map nst m)). unfold nst at 1 3. cbn [snd] in *. split.
      - apply kseq_le. intro s1. apply kseq_le. intro s2. apply kseq_le. intro s3. apply kthen_le; [destruct (Fv s3); lia|].
        intro s4. destruct m as [|w m]; [cbn [kdone snd]; lia|]. apply kseq_le. intro s5. destruct (IH s5). lia.
      - intro X. eapply kseq_eq; [exact X|]. intros s1 X1. eapply kseq_eq; [exact X1|]. intros s2 X2. eapply kseq_eq; [exact X2|]. intros s3 X3.
        eapply kthen_eq; [exact X3|apply Fv|]. intros s4 X4. destruct m as [|w m]; [reflexivity|].
        eapply kseq_eq; [exact X4|]. intro s5. apply IH. }
    destruct m as [|v m].
    + cbn [k_dump kcall snd fst nest map list_max fold_right]. split; [apply le_n_S; apply kseq_le; intro; apply le_n|].
      intro X. f_equal. eapply kseq_eq; [exact X|]. reflexivity.
    + rewrite k_dump_obj. cbn [kcall snd fst]. change (nest (VObj (v :: m))) with (S (list_max (map nst (v :: m)))). split.
      * apply le_n_S, kseq_le. intro s1. apply kthen_le; [apply E|]. intro. cbn [kdone snd]. lia.
      * intro X. f_equal. eapply kseq_eq; [exact X|]. intros s1 X1. replace (list_max (map nst (v :: m))) with (Nat.max (list_max (map nst (v :: m))) 0) by lia.
        eapply kthen_eq; [exact X1|apply E|reflexivity].
Qed.

Theorem dump_depth : forall cf v, snd (k_dump_string cf v) <= nest v /\ (forall w, dump_string cf v = Ret w -> snd (k_dump_string cf v) = nest v).
Proof.
  intros cf v. destruct (dump_deep cf v (init_sst cf (mkOs [] false))) as [A B].
  assert (E : snd (k_dump_string cf v) = snd (kthen (k_dump cf v (init_sst cf (mkOs [] false))) (fun s => kdone (next cf Teoi s)))).
  { unfold k_dump_string. destruct (kthen _ _) as [[s r] n]. reflexivity. }
  rewrite E. split; [apply kthen_le; [assumption|intro; apply Nat.le_0_l]|].
  intros w W. rewrite <- dump_string_same in W. unfold k_dump_string in W.
  replace (nest v) with (Nat.max (nest v) 0) by lia. apply kthen_eq; [|exact B|reflexivity].
  destruct (kthen _ _) as [[s r] n]. cbn [fst]. unfold fine. cbn [snd]. destruct r; try discriminate W. exact Logic.I.
Qed.
