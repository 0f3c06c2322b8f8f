(** Trees annotated with their blocks, and the lemmas about single blocks,
    destruction and copying. *)
From Coq Require Import Lia Permutation Arith.
From Verif Require Import Base Value ValueOps ValueProofs Heap.
Open Scope nat_scope.

Inductive gt :=
| GNull | GBool (b : bool) | GInt (z : Z) | GFlt (f : f64)
| GStr (p : nat) (s : str)
| GArr (p g : nat) (l : list gt)
| GObj (p : nat) (m : list (str * gt)).

Section Ind.
Variable P : gt -> Prop.
Hypothesis Hnull : P GNull.
Hypothesis Hbool : forall b, P (GBool b).
Hypothesis Hint : forall z, P (GInt z).
Hypothesis Hflt : forall f, P (GFlt f).
Hypothesis Hstr : forall p s, P (GStr p s).
Hypothesis Harr : forall p g l, Forall P l -> P (GArr p g l).
Hypothesis Hobj : forall p m, Forall (fun kx => P (snd kx)) m -> P (GObj p m).
Fixpoint gt_deep (x : gt) : P x :=
  match x with
  | GNull => Hnull
  | GBool b => Hbool b
  | GInt z => Hint z
  | GFlt f => Hflt f
  | GStr p s => Hstr p s
  | GArr p g l => Harr p g l ((fix go (l : list gt) : Forall P l :=
      match l with [] => Forall_nil _ | y :: t => Forall_cons _ (gt_deep y) (go t) end) l)
  | GObj p m => Hobj p m ((fix go (m : list (str * gt)) : Forall (fun kx => P (snd kx)) m :=
      match m with [] => Forall_nil _ | y :: t => Forall_cons _ (gt_deep (snd y)) (go t) end) m)
  end.
End Ind.

Definition cell_of (x : gt) : cell :=
  match x with
  | GNull => mkCell TNull WZero
  | GBool b => mkCell TBoolean (WBool b)
  | GInt z => mkCell TInteger (WInt z)
  | GFlt f => mkCell TFloating (WFloat f)
  | GStr p _ => mkCell TString (WPtr p)
  | GArr p _ _ => mkCell TArray (WPtr p)
  | GObj p _ => mkCell TObject (WPtr p)
  end.

Definition vmap {A B} (f : A -> B) (m : list (str * A)) : list (str * B) := map (fun kx => (fst kx, f (snd kx))) m.

Fixpoint val_of (x : gt) : value :=
  match x with
  | GNull => VNull
  | GBool b => VBool b
  | GInt z => VInt z
  | GFlt f => VFloat f
  | GStr _ s => VStr s
  | GArr _ _ l => VArr (map val_of l)
  | GObj _ m => VObj (map (fun kx => (fst kx, val_of (snd kx))) m)
  end.

Fixpoint blocks (x : gt) : list (nat * block) :=
  match x with
  | GStr p s => [(p, BStr s)]
  | GArr p g l => (p, BArr g (map cell_of l)) :: flat_map blocks l
  | GObj p m => (p, BObj (vmap cell_of m)) :: flat_map (fun kx => blocks (snd kx)) m
  | _ => []
  end.

Fixpoint hgt (x : gt) : nat :=
  match x with
  | GArr _ _ l => S (list_max (map hgt l))
  | GObj _ m => S (list_max (map (fun kx => hgt (snd kx)) m))
  | _ => 1
  end.

(** ** Maps commute with the map functions *)
Lemma find_vmap : forall A B (f : A -> B) k m, obj_find k (vmap f m) = option_map f (obj_find k m).
Proof. intros A B f k m. induction m as [|[k' x] m IH]; cbn; [reflexivity|]. destruct (str_eqb k k'); [reflexivity|exact IH]. Qed.
Lemma emplace_vmap : forall A B (f : A -> B) k x m, obj_emplace k (f x) (vmap f m) = vmap f (obj_emplace k x m).
Proof.
  intros A B f k x m. induction m as [|[k' y] m IH]; cbn; [reflexivity|].
  destruct (str_ltb k k'); [reflexivity|]. destruct (str_eqb k k'); [reflexivity|]. cbn [vmap map]. f_equal. exact IH.
Qed.
Lemma erase_vmap : forall A B (f : A -> B) k m, obj_erase k (vmap f m) = vmap f (obj_erase k m).
Proof.
  intros A B f k m. induction m as [|[k' y] m IH]; cbn; [reflexivity|].
  destruct (str_eqb k k'); [reflexivity|]. cbn [vmap map]. f_equal. exact IH.
Qed.
Lemma upd_vmap : forall A B (f : A -> B) k x m, obj_upd k (f x) (vmap f m) = vmap f (obj_upd k x m).
Proof.
  intros A B f k x m. induction m as [|[k' y] m IH]; cbn; [reflexivity|].
  destruct (str_eqb k k'); [reflexivity|]. cbn [vmap map]. f_equal. exact IH.
Qed.
Lemma set_map : forall A B (f : A -> B) l n x, set_nth n (f x) (map f l) = map f (set_nth n x l).
Proof. induction l as [|y l IH]; intros [|n] x; cbn; try reflexivity. rewrite IH. reflexivity. Qed.
Lemma remove_map : forall A B (f : A -> B) l n, remove_nth n (map f l) = map f (remove_nth n l).
Proof. induction l as [|y l IH]; intros [|n]; cbn; try reflexivity. rewrite IH. reflexivity. Qed.

(** ** A heap consisting of given blocks *)
Definition heap_is (h : list (option block)) (B : list (nat * block)) : Prop :=
  NoDup (map fst B) /\ forall q b, nth_error h q = Some (Some b) <-> In (q, b) B.

Lemma heap_is_perm : forall h B B', Permutation B B' -> heap_is h B -> heap_is h B'.
Proof.
  intros h B B' P [N H]. split.
  - eapply Permutation_NoDup; [apply Permutation_map; exact P|exact N].
  - intros q b. rewrite H. split; apply Permutation_in; [exact P|apply Permutation_sym; exact P].
Qed.

Lemma heap_at : forall h q b B, heap_is h ((q, b) :: B) -> nth_error h q = Some (Some b).
Proof. intros h q b B [_ H]. apply H. left. reflexivity. Qed.

Lemma nth_set_other : forall A (l : list A) n m x, n <> m -> nth_error (set_nth n x l) m = nth_error l m.
Proof.
  induction l as [|y l IH]; intros [|n] [|m] x H; cbn; try reflexivity; try congruence. apply IH. congruence.
Qed.

Lemma nth_set_same : forall A (l : list A) n x, n < length l -> nth_error (set_nth n x l) n = Some x.
Proof. induction l as [|y l IH]; intros [|n] x H; cbn in *; try lia; [reflexivity|]. apply IH. lia. Qed.

Lemma in_fst : forall (q : nat) (b : block) B, In (q, b) B -> In q (map fst B).
Proof. intros q b B H. apply (in_map fst) in H. exact H. Qed.

Lemma heap_set : forall h q b b' B, heap_is h ((q, b) :: B) -> heap_is (set_nth q (Some b') h) ((q, b') :: B).
Proof.
  intros h q b b' B H. pose proof (heap_at _ _ _ _ H) as Hq. destruct H as [N H]. split; [exact N|].
  cbn [map fst] in N. inversion N as [|? ? Nq Nb]; subst.
  assert (L : q < length h) by (apply nth_error_Some; congruence).
  intros r c. destruct (Nat.eq_dec q r) as [<-|D].
  - rewrite nth_set_same by assumption. split.
    + intro E. left. congruence.
    + intros [E|E]; [congruence|]. exfalso. apply Nq. eapply in_fst. eassumption.
  - rewrite nth_set_other by assumption. rewrite H. cbn [In]. split; intros [E|E]; auto; congruence.
Qed.

Lemma heap_free : forall h q b B, heap_is h ((q, b) :: B) -> heap_is (set_nth q None h) B.
Proof.
  intros h q b B H. pose proof (heap_at _ _ _ _ H) as Hq. destruct H as [N H].
  cbn [map fst] in N. inversion N as [|? ? Nq Nb]; subst. split; [exact Nb|].
  assert (L : q < length h) by (apply nth_error_Some; congruence).
  intros r c. destruct (Nat.eq_dec q r) as [<-|D].
  - rewrite nth_set_same by assumption. split; [discriminate|]. intro E. exfalso. apply Nq. eapply in_fst. eassumption.
  - rewrite nth_set_other by assumption. rewrite H. cbn [In]. split; [|auto]. intros [E|E]; [congruence|assumption].
Qed.

Lemma heap_new : forall h b B, heap_is h B -> heap_is (h ++ [Some b]) ((length h, b) :: B).
Proof.
  intros h b B [N H].
  assert (D : forall q c, In (q, c) B -> q < length h) by (intros q c E; apply H in E; apply nth_error_Some; congruence).
  split.
  - cbn [map fst]. constructor; [|exact N]. intro E. apply in_map_iff in E. destruct E as ([q c] & E & I). cbn [fst] in E. subst.
    apply D in I. lia.
  - intros r c. destruct (lt_eq_lt_dec r (length h)) as [[L|E]|L].
    + rewrite nth_error_app1 by assumption. rewrite H. cbn [In]. split; [auto|]. intros [E|E]; [|assumption]. injection E as E1 E2. lia.
    + subst. rewrite nth_error_app2, Nat.sub_diag by lia. cbn [nth_error In]. split.
      * intro E. left. congruence.
      * intros [E|E]; [congruence|]. apply D in E. lia.
    + rewrite nth_error_app2 by lia. destruct (r - length h) as [|d] eqn:E; [lia|]. cbn [nth_error In]. split.
      * destruct d; discriminate.
      * intros [X|X]; [injection X as E1 E2; lia|]. apply D in X. lia.
Qed.

Lemma heap_bound : forall h B, heap_is h B -> length B <= length h.
Proof.
  intros h B [N H]. rewrite <- (map_length fst B), <- (seq_length (length h) 0).
  apply NoDup_incl_length; [exact N|]. intros q Hq. apply in_map_iff in Hq. destruct Hq as ([r b] & <- & I).
  apply H in I. apply in_seq. cbn [fst]. assert (r < length h) by (apply nth_error_Some; congruence). lia.
Qed.

Lemma list_max_le' : forall l n, (forall x, In x l -> x <= n) -> list_max l <= n.
Proof. induction l as [|y l IH]; intros n H; cbn; [lia|]. pose proof (H y (or_introl eq_refl)). apply Nat.max_lub; auto. apply IH. intros; apply H; right; assumption. Qed.

Lemma in_list_max : forall l x, In x l -> x <= list_max l.
Proof. intros l. induction l as [|y l IH]; intros x []; cbn; [subst; lia|]. apply IH in H. unfold list_max in H. lia. Qed.

Lemma flat_len : forall A B (f : A -> list B) l x, In x l -> length (f x) <= length (flat_map f l).
Proof.
  intros A B f l. induction l as [|y l IH]; intros x []; cbn; rewrite app_length; [subst; lia|]. apply IH in H. lia.
Qed.

Lemma hgt_blocks : forall x, hgt x <= S (length (blocks x)).
Proof.
  induction x as [| | | | |p g l IH|p m IH] using gt_deep; cbn [hgt blocks length]; try lia; apply le_n_S;
    apply list_max_le'; intros y Hy; apply in_map_iff in Hy; destruct Hy as (z & <- & I); rewrite Forall_forall in IH; specialize (IH z I).
  - pose proof (flat_len _ _ blocks l z I). lia.
  - pose proof (flat_len _ _ (fun kx => blocks (snd kx)) m z I). cbn beta in *. lia.
Qed.

Lemma hgt_budget : forall s B x, heap_is (heap s) (blocks x ++ B) -> hgt x <= budget s.
Proof.
  intros s B x H. apply heap_bound in H. rewrite app_length in H. pose proof (hgt_blocks x). unfold budget. lia.
Qed.

(** ** Primitive steps *)
Lemma get_block_ok : forall s q b B, heap_is (heap s) ((q, b) :: B) -> get_block q s = (s, Ret b).
Proof. intros s q b B H. unfold get_block. rewrite (heap_at _ _ _ _ H). reflexivity. Qed.

Lemma set_block_ok : forall s q b b' B, heap_is (heap s) ((q, b) :: B) ->
  set_block q b' s = (set_heap (set_nth q (Some b') (heap s)) s, Ret tt).
Proof. intros s q b b' B H. unfold set_block. rewrite (heap_at _ _ _ _ H). reflexivity. Qed.

Lemma release_ok : forall s q b B, heap_is (heap s) ((q, b) :: B) ->
  release q s = (set_heap (set_nth q None (heap s)) s, Ret tt).
Proof. intros s q b B H. unfold release. rewrite (heap_at _ _ _ _ H). reflexivity. Qed.

Ltac perm_solve := 
  repeat (rewrite <- ?app_assoc; cbn [app]); 
  first [apply Permutation_refl | apply Permutation_middle | apply Permutation_app_comm | idtac].

(** ** Destruction *)
Definition destroys (f : cell -> M unit) (x : gt) : Prop :=
  forall s B, heap_is (heap s) (blocks x ++ B) ->
  exists s', f (cell_of x) s = (s', Ret tt) /\ env s' = env s /\ heap_is (heap s') B /\ length (heap s') = length (heap s).

Lemma iterm_destroy : forall A (cl : A -> gt) (f : cell -> M unit) l, (forall x, In x l -> destroys f (cl x)) ->
  forall (g : A -> cell), (forall x, g x = cell_of (cl x)) ->
  forall s B, heap_is (heap s) (flat_map (fun x => blocks (cl x)) l ++ B) ->
  exists s', iterm f (map g l) s = (s', Ret tt) /\ env s' = env s /\ heap_is (heap s') B /\ length (heap s') = length (heap s).
Proof.
  intros A cl f l Hf g Hg. induction l as [|x l IH]; intros s B H.
  - exists s. cbn. auto.
  - cbn [flat_map] in H. rewrite <- app_assoc in H.
    destruct (Hf x (or_introl eq_refl) s _ H) as (s1 & E1 & V1 & H1 & L1).
    destruct (IH (fun y Hy => Hf y (or_intror Hy)) s1 B H1) as (s2 & E2 & V2 & H2 & L2).
    exists s2. cbn [map iterm]. unfold seqm. rewrite Hg, E1. split; [exact E2|]. split; [congruence|]. split; [assumption|congruence].
Qed.

Lemma iterm_ext : forall A B (f : B -> M unit) (g : A -> B) l s, iterm (fun x => f (g x)) l s = iterm f (map g l) s.
Proof.
  intros A B f g l. induction l as [|x l IH]; intro s; cbn [map iterm]; [reflexivity|]. unfold seqm.
  destruct (f (g x) s) as [s' []]; try reflexivity. apply IH.
Qed.

Lemma destroy_ok : forall x fuel, hgt x <= fuel -> destroys (destroy fuel) x.
Proof.
  intro x. induction x as [|b|z|f|p s0|p g l IH|p m IH] using gt_deep; intros fuel Hf s B H;
    (destruct fuel as [|fuel]; [cbn in Hf; lia|]); cbn [destroy cell_of c_ty].
  - exists s. auto.
  - exists s. auto.
  - exists s. auto.
  - exists s. auto.
  - cbn [blocks app] in H. unfold seqm, ptr_of. cbn [c_data ret]. rewrite (get_block_ok _ _ _ _ H). rewrite (release_ok _ _ _ _ H).
    eexists. split; [reflexivity|]. split; [reflexivity|]. split; [eapply heap_free; eassumption|]. cbn. apply length_set.
  - cbn [blocks app] in H. unfold seqm at 1. unfold ptr_of. cbn [c_data ret]. unfold seqm at 1. rewrite (get_block_ok _ _ _ _ H).
    assert (P : heap_is (heap s) (flat_map blocks l ++ (p, BArr g (map cell_of l)) :: B)).
    { eapply heap_is_perm; [|exact H]. apply Permutation_middle. }
    destruct (iterm_destroy gt (fun x => x) (destroy fuel) l) with (g := cell_of) (s := s) (B := (p, BArr g (map cell_of l)) :: B) as (s1 & E1 & V1 & H1 & L1).
    { intros y Hy. rewrite Forall_forall in IH. apply IH; [assumption|]. cbn [hgt] in Hf.
      pose proof (in_list_max (map hgt l) (hgt y) (in_map hgt l y Hy)). lia. }
    { reflexivity. }
    { exact P. }
    unfold seqm. rewrite E1. rewrite (release_ok _ _ _ _ H1).
    eexists. split; [reflexivity|]. split; [exact V1|]. split; [eapply heap_free; eassumption|]. cbn. rewrite length_set. assumption.
  - cbn [blocks app] in H. unfold seqm at 1. unfold ptr_of. cbn [c_data ret]. unfold seqm at 1. rewrite (get_block_ok _ _ _ _ H).
    assert (P : heap_is (heap s) (flat_map (fun kx => blocks (snd kx)) m ++ (p, BObj (vmap cell_of m)) :: B)).
    { eapply heap_is_perm; [|exact H]. apply Permutation_middle. }
    destruct (iterm_destroy (str * gt) snd (destroy fuel) m) with (g := fun kx : str * gt => cell_of (snd kx)) (s := s) (B := (p, BObj (vmap cell_of m)) :: B) as (s1 & E1 & V1 & H1 & L1).
    { intros y Hy. rewrite Forall_forall in IH. apply (IH y Hy). cbn [hgt] in Hf.
      pose proof (in_list_max (map (fun kx : str * gt => hgt (snd kx)) m) (hgt (snd y)) (in_map (fun kx : str * gt => hgt (snd kx)) m y Hy)). lia. }
    { reflexivity. }
    { exact P. }
    unfold seqm. rewrite (iterm_ext _ _ (destroy fuel) snd). unfold vmap. rewrite map_map. cbn [snd]. rewrite E1. rewrite (release_ok _ _ _ _ H1).
    eexists. split; [reflexivity|]. split; [exact V1|]. split; [eapply heap_free; eassumption|]. cbn. rewrite length_set. assumption.
Qed.

Lemma destroy_cell_ok : forall x, destroys destroy_cell x.
Proof.
  intros x s B H. unfold destroy_cell. apply (destroy_ok x (budget s) (hgt_budget _ _ _ H) s B H).
Qed.

(** ** Copying *)
Definition copies (f : cell -> M cell) (x : gt) : Prop :=
  forall s B, heap_is (heap s) B -> incl (blocks x) B ->
  exists s' y, f (cell_of x) s = (s', Ret (cell_of y)) /\ val_of y = val_of x /\ env s' = env s /\ heap_is (heap s') (blocks y ++ B).

Lemma get_block_in : forall s q b B, heap_is (heap s) B -> In (q, b) B -> get_block q s = (s, Ret b).
Proof. intros s q b B [_ H] I. apply H in I. unfold get_block. rewrite I. reflexivity. Qed.

Lemma mapm_copy : forall A (cl : A -> gt) C (f : A -> M C) (mk : A -> cell -> C) l,
  (forall x, In x l -> forall s B, heap_is (heap s) B -> incl (blocks (cl x)) B ->
     exists s' y, f x s = (s', Ret (mk x (cell_of y))) /\ val_of y = val_of (cl x) /\ env s' = env s /\ heap_is (heap s') (blocks y ++ B)) ->
  forall s B, heap_is (heap s) B -> incl (flat_map (fun x => blocks (cl x)) l) B ->
  exists s' ys, mapm f l s = (s', Ret (map (fun xy => mk (fst xy) (cell_of (snd xy))) (combine l ys))) /\ length ys = length l /\
    map val_of ys = map (fun x => val_of (cl x)) l /\ env s' = env s /\ heap_is (heap s') (flat_map blocks ys ++ B).
Proof.
  intros A cl C f mk l. induction l as [|x l IH]; intros Hf s B H I.
  - exists s, []. cbn. auto 10.
  - cbn [flat_map] in I. assert (I1 : incl (blocks (cl x)) B) by (intros e He; apply I; apply in_or_app; auto).
    assert (I2 : incl (flat_map (fun x => blocks (cl x)) l) B) by (intros e He; apply I; apply in_or_app; auto).
    destruct (Hf x (or_introl eq_refl) s B H I1) as (s1 & y & E1 & V1 & N1 & H1).
    destruct (IH (fun z Hz => Hf z (or_intror Hz)) s1 (blocks y ++ B) H1) as (s2 & ys & E2 & L2 & V2 & N2 & H2).
    { intros e He. apply in_or_app. right. apply I2. assumption. }
    exists s2, (y :: ys). cbn [mapm]. unfold seqm. rewrite E1, E2. cbn [ret]. split; [reflexivity|]. split; [cbn; congruence|].
    split; [cbn [map]; congruence|]. split; [congruence|]. eapply heap_is_perm; [|exact H2]. cbn [flat_map].
    rewrite <- app_assoc. rewrite !app_assoc. apply Permutation_app_tail. apply Permutation_app_comm.
Qed.

Lemma combine_snd : forall A B (l : list A) (l' : list B), length l' = length l -> map snd (combine l l') = l'.
Proof. induction l as [|x l IH]; intros [|y l'] H; cbn in *; try discriminate; [reflexivity|]. f_equal. apply IH. lia. Qed.

Lemma in_max : forall A (f : A -> nat) l x, In x l -> f x <= list_max (map f l).
Proof. intros A f l x H. apply in_list_max. apply in_map. assumption. Qed.

Lemma copy_ok : forall x fuel, hgt x <= fuel -> copies (copy fuel) x.
Proof.
  intro x. induction x as [|b|z|f|p s0|p g l IH|p m IH] using gt_deep; intros fuel Hf s B H I;
    (destruct fuel as [|fuel]; [cbn in Hf; lia|]); cbn [copy cell_of c_ty].
  - exists s, GNull. auto.
  - exists s, (GBool b). auto.
  - exists s, (GInt z). auto.
  - exists s, (GFlt f). auto.
  - unfold seqm, ptr_of. cbn [c_data ret]. rewrite (get_block_in _ p (BStr s0) B H) by (apply I; left; reflexivity).
    cbn [create]. eexists. exists (GStr (length (heap s)) s0). split; [reflexivity|]. split; [reflexivity|]. split; [reflexivity|].
    cbn [blocks app]. apply heap_new. assumption.
  - unfold seqm at 1. unfold ptr_of. cbn [c_data ret]. unfold seqm at 1.
    rewrite (get_block_in _ p (BArr g (map cell_of l)) B H) by (apply I; left; reflexivity).
    assert (M : exists s' ys, mapm (copy fuel) (map cell_of l) s = (s', Ret (map cell_of ys)) /\ map val_of ys = map val_of l /\
                 env s' = env s /\ heap_is (heap s') (flat_map blocks ys ++ B)).
    { destruct (mapm_copy gt (fun x => x) cell (fun x => copy fuel (cell_of x)) (fun _ c => c) l) with (s := s) (B := B) as (s' & ys & E & L & V & N & Hh).
      - intros y Hy s1 B1 H1 I1. rewrite Forall_forall in IH. apply (IH y Hy fuel); [|assumption|assumption].
        cbn [hgt] in Hf. pose proof (in_max _ hgt l y Hy). lia.
      - assumption.
      - intros e He. apply I. right. assumption.
      - exists s', ys. split; [|auto]. cbn beta in E.
        assert (X : forall A B C (f : B -> M C) (g : A -> B) l s, mapm (fun x => f (g x)) l s = mapm f (map g l) s).
        { clear. intros A B C f g l. induction l as [|x l IH]; intro s; cbn [map mapm]; [reflexivity|]. unfold seqm.
          destruct (f (g x) s) as [s1 []]; try reflexivity. rewrite IH. reflexivity. }
        rewrite <- X. rewrite E. do 2 f_equal. rewrite <- (map_map snd cell_of). rewrite combine_snd by assumption. reflexivity. }
    destruct M as (s1 & ys & E1 & V1 & N1 & H1). unfold seqm at 1. rewrite E1. unfold seqm. cbn [create ret].
    eexists. exists (GArr (length (heap s1)) 0 ys). split; [reflexivity|]. split; [cbn [val_of]; congruence|]. split; [exact N1|].
    cbn [blocks app heap set_heap]. apply heap_new. assumption.
  - unfold seqm at 1. unfold ptr_of. cbn [c_data ret]. unfold seqm at 1.
    rewrite (get_block_in _ p (BObj (vmap cell_of m)) B H) by (apply I; left; reflexivity).
    assert (M : exists s' m', mapm (fun kc => do c' <- copy fuel (snd kc); ret (fst kc, c')) (vmap cell_of m) s = (s', Ret (vmap cell_of m')) /\
                 vmap val_of m' = vmap val_of m /\ env s' = env s /\ heap_is (heap s') (flat_map (fun kx => blocks (snd kx)) m' ++ B)).
    { destruct (mapm_copy (str * gt) snd (str * cell) (fun kx => (fun kc => do c' <- copy fuel (snd kc); ret (fst kc, c')) (fst kx, cell_of (snd kx)))
         (fun kx c => (fst kx, c)) m) with (s := s) (B := B) as (s' & ys & E & L & V & N & Hh).
      - intros y Hy s1 B1 H1 I1. rewrite Forall_forall in IH. cbn [fst snd].
        destruct (IH y Hy fuel) with (s := s1) (B := B1) as (s2 & y' & E2 & V2 & N2 & H2); [|assumption|assumption|].
        { cbn [hgt] in Hf. pose proof (in_max _ (fun kx : str * gt => hgt (snd kx)) m y Hy). cbn beta in *. lia. }
        exists s2, y'. unfold seqm. rewrite E2. cbn [ret]. auto.
      - assumption.
      - intros e He. apply I. right. assumption.
      - assert (X : forall A B C (f : B -> M C) (g : A -> B) l s, mapm (fun x => f (g x)) l s = mapm f (map g l) s).
        { clear. intros A B C f g l. induction l as [|x l IH]; intro s; cbn [map mapm]; [reflexivity|]. unfold seqm.
          destruct (f (g x) s) as [s1 []]; try reflexivity. rewrite IH. reflexivity. }
        pose proof (eq_trans (eq_sym (X (str * gt)%type _ _ (fun kc => do c' <- copy fuel (snd kc); ret (fst kc, c')) (fun kx => (fst kx, cell_of (snd kx))) m s)) E) as E'.
        exists s', (combine (map fst m) ys). 
        assert (K : map (fun xy : (str * gt) * gt => (fst (fst xy), cell_of (snd xy))) (combine m ys) = vmap cell_of (combine (map fst m) ys)).
        { clear -L. revert ys L. induction m as [|[k x] m IHm]; intros [|y ys] L; cbn in *; try discriminate; [reflexivity|]. f_equal. apply IHm. lia. }
        split; [unfold vmap at 1; rewrite E', K; reflexivity|]. split.
        + clear -L V. revert ys L V. induction m as [|[k x] m IHm]; intros [|y ys] L V; cbn in *; try discriminate; [reflexivity|].
          injection V as V1 V2. rewrite V1. f_equal. apply IHm; [lia|assumption].
        + split; [exact N|]. assert (Q : flat_map (fun kx : str * gt => blocks (snd kx)) (combine (map fst m) ys) = flat_map blocks ys).
          { clear -L. revert ys L. induction m as [|[k x] m IHm]; intros [|y ys] L; cbn in *; try discriminate; [reflexivity|]. f_equal. apply IHm. lia. }
          rewrite Q. assumption. }
    destruct M as (s1 & m' & E1 & V1 & N1 & H1). unfold seqm at 1. rewrite E1. unfold seqm. cbn [create ret].
    eexists. exists (GObj (length (heap s1)) m'). split; [reflexivity|]. split; [cbn [val_of]; f_equal; exact V1|]. split; [exact N1|].
    cbn [blocks app heap set_heap]. apply heap_new. assumption.
Qed.

Lemma copy_cell_ok : forall x s B R, heap_is (heap s) B -> Permutation B (blocks x ++ R) ->
  exists s' y, copy_cell (cell_of x) s = (s', Ret (cell_of y)) /\ val_of y = val_of x /\ env s' = env s /\ heap_is (heap s') (blocks y ++ B).
Proof.
  intros x s B R H P. unfold copy_cell. apply (copy_ok x (budget s)); [|assumption|].
  - eapply hgt_budget. eapply heap_is_perm; eassumption.
  - intros e He. eapply Permutation_in; [apply Permutation_sym; exact P|]. apply in_or_app. auto.
Qed.
