(** Pointers to content. *)
From Coq Require Import ZArith Lia.
From Verif Require Import Base Value ValueOps Content SpecContent.

Ltac inj H := injection H; clear H; intros; subst.

(** ** Member functions keep the type of what is in a block *)
Lemma run_boxed : forall o v v' r, (forall x, o <> Assign x) -> run_op o v = (v', r) -> boxed v = true -> boxed v' = true /\ type_of v' = type_of v.
Proof.
  intros o v v' r N H B. destruct o; cbn in H; try (inj H; split; [exact B|reflexivity]).
  - exfalso. exact (N _ eq_refl).
  - destruct v; try discriminate; cbn in H; inj H; split; reflexivity.
  - destruct v; try discriminate; cbn in H; inj H; split; reflexivity.
  - destruct v; try discriminate; cbn in H; try (inj H; split; reflexivity). destruct (i <? len l)%N; cbn in H; inj H; split; reflexivity.
  - inj H. destruct v; try discriminate; split; reflexivity.
Qed.
Lemma sub_boxed : forall a p o v v' r, run (a :: p) o v = (v', r) -> boxed v = true -> boxed v' = true /\ type_of v' = type_of v.
Proof.
  intros a p o v v' r H B. unfold run in H. cbn [via] in H. remember (via p (run_op o)) as f.
  destruct a; destruct v; try discriminate B; cbn [via1] in H; unfold via_at_idx, via_at_key, via_idx, via_key in H; cbn [of_type] in H;
    repeat match type of H with context [match ?x with _ => _ end] => destruct x end;
    try (inj H; split; reflexivity);
    unfold in_elem, in_member in H;
    repeat match type of H with context [match ?x with _ => _ end] => destruct x end;
    try (inj H; split; reflexivity).
Qed.


Lemma val_ret : forall st x, kok st -> exists v, val st x = Ret v.
Proof.
  intros st x (A & _). unfold val. destruct (k_var st x) as [v|i] eqn:E; [eexists; reflexivity|].
  destruct (A _ _ E) as (_ & v & -> & _). eexists. reflexivity.
Qed.

(** [drop] alone leaves x without content; [clean] is what remains true *)
Definition clean (x : nat) (st : kst) : Prop :=
  (forall y i, y <> x -> k_var st y = CBlk i -> (i < k_next st)%nat /\ exists v, k_heap st i = Some v /\ boxed v = true) /\
  (forall y v, y <> x -> k_var st y = CWord v -> boxed v = false) /\
  (forall y z i, y <> x -> z <> x -> k_var st y = CBlk i -> k_var st z = CBlk i -> y = z) /\
  (forall i v, k_heap st i = Some v -> (i < k_next st)%nat /\ exists y, y <> x /\ k_var st y = CBlk i).

Lemma heap_low : forall st i v, kok st -> k_heap st i = Some v -> (i < k_next st)%nat.
Proof. intros st i v (A & _ & _ & D) H. destruct (D _ _ H) as (x & X). exact (proj1 (A _ _ X)). Qed.

Lemma drop_clean : forall x st, kok st -> clean x (drop x st).
Proof.
  intros x st K. assert (K0 := K). destruct K as (A & B & C & D). unfold drop. destruct (k_var st x) as [v|i] eqn:E.
  - split; [|split; [|split]].
    + intros y i _ H. exact (A _ _ H).
    + intros y w _ H. exact (B _ _ H).
    + intros y z i _ _ H1 H2. exact (C _ _ _ H1 H2).
    + intros i w H. split; [exact (heap_low _ _ _ K0 H)|]. destruct (D _ _ H) as (y & Y). exists y. split; [congruence|exact Y].
  - split; [|split; [|split]]; cbn [k_var k_heap k_next].
    + intros y j N H. destruct (A _ _ H) as (L & v & Hv & Bv). split; [exact L|]. exists v. split; [|exact Bv]. unfold upd.
      destruct (Nat.eqb_spec j i); [subst; exfalso; apply N; exact (C _ _ _ H E)|exact Hv].
    + intros y w _ H. exact (B _ _ H).
    + intros y z j _ _ H1 H2. exact (C _ _ _ H1 H2).
    + intros j w H. unfold upd in H. destruct (Nat.eqb_spec j i); [discriminate|]. split; [exact (heap_low _ _ _ K0 H)|].
      destruct (D _ _ H) as (y & Y). exists y. split; [congruence|exact Y].
Qed.

Lemma word_clean : forall x st w, kok st -> k_var st x = CWord w -> clean x st.
Proof. intros x st w K E. assert (H := drop_clean x st K). unfold drop in H. rewrite E in H. exact H. Qed.

Lemma place_ok : forall x v st, clean x st -> kok (place x v st).
Proof.
  intros x v st (A & B & C & D). unfold place. destruct (boxed v) eqn:Bx; (split; [|split; [|split]]); cbn [k_var k_heap k_next].
  - intros y i H. unfold upd in *. destruct (Nat.eqb_spec y x).
    + inj H. split; [lia|]. rewrite Nat.eqb_refl. exists v. split; [reflexivity|exact Bx].
    + destruct (A _ _ n H) as (L & w & Hw & Bw). split; [lia|]. exists w. destruct (Nat.eqb_spec i (k_next st)); [lia|]. split; assumption.
  - intros y w H. unfold upd in H. destruct (Nat.eqb_spec y x); [discriminate|]. exact (B _ _ n H).
  - intros y z i H1 H2. unfold upd in *. destruct (Nat.eqb_spec y x), (Nat.eqb_spec z x); subst; try reflexivity.
    + inj H1. destruct (A _ _ n H2) as (L & _). lia.
    + inj H2. destruct (A _ _ n H1) as (L & _). lia.
    + exact (C _ _ _ n n0 H1 H2).
  - intros i w H. unfold upd in *. destruct (Nat.eqb_spec i (k_next st)); [subst; exists x; rewrite Nat.eqb_refl; reflexivity|].
    destruct (D _ _ H) as (L & y & N & Y). exists y. destruct (Nat.eqb_spec y x); [contradiction|exact Y].
  - intros y i H. unfold upd in *. destruct (Nat.eqb_spec y x); [discriminate|]. exact (A _ _ n H).
  - intros y w H. unfold upd in H. destruct (Nat.eqb_spec y x); [inj H; exact Bx|]. exact (B _ _ n H).
  - intros y z i H1 H2. unfold upd in *. destruct (Nat.eqb_spec y x), (Nat.eqb_spec z x); subst; try discriminate. exact (C _ _ _ n n0 H1 H2).
  - intros i w H. destruct (D _ _ H) as (L & y & N & Y). exists y. unfold upd. destruct (Nat.eqb_spec y x); [contradiction|exact Y].
Qed.

Lemma heap_set_ok : forall i v w st, kok st -> k_heap st i = Some w -> boxed v = true -> kok (mkK (k_var st) (upd (k_heap st) i (Some v)) (k_next st)).
Proof.
  intros i v w st (A & B & C & D) H Bv. split; [|split; [|split]]; cbn [k_var k_heap k_next]; try assumption.
  - intros y j E. destruct (A _ _ E) as (L & u & Hu & Bu). split; [exact L|]. unfold upd. destruct (Nat.eqb_spec j i); [exists v|exists u]; split; (reflexivity || assumption).
  - intros j u E. unfold upd in E. destruct (Nat.eqb_spec j i); [subst; exact (D _ _ H)|exact (D _ _ E)].
Qed.

Lemma boxed_val : forall st x i, kok st -> k_var st x = CBlk i -> exists v, k_heap st i = Some v /\ val st x = Ret v /\ boxed v = true.
Proof. intros st x i (A & _) E. destruct (A _ _ E) as (_ & v & H & B). exists v. split; [exact H|]. split; [unfold val; rewrite E, H; reflexivity|exact B]. Qed.

(** f keeps boxed values boxed, of the same type *)
Definition keeps (f : value -> res result) : Prop := forall v v' r, f v = (v', r) -> boxed v = true -> boxed v' = true /\ type_of v' = type_of v.

Lemma change_ok : forall x f st st' o, keeps f -> kok st -> change x f st = (st', o) -> kok st'.
Proof.
  intros x f st st' o Kf K H. unfold change in H. destruct (val_ret st x K) as (v & V). rewrite V in H. destruct (f v) as [v' r] eqn:F. inj H.
  destruct (k_var st x) as [w|i] eqn:E.
  - apply place_ok. exact (word_clean _ _ _ K E).
  - destruct (boxed_val _ _ _ K E) as (w & Hw & V' & Bw). assert (w = v) by congruence. subst w.
    apply (heap_set_ok i v' v st K Hw). exact (proj1 (Kf _ _ _ F Bw)).
Qed.

Lemma do_keeps : forall o, (forall v, o <> Assign v) -> keeps (run_op o).
Proof. intros o N v v' r H B. exact (run_boxed _ _ _ _ N H B). Qed.
Lemma sub_keeps : forall a p o, keeps (run (a :: p) o).
Proof. intros a p o v v' r H B. exact (sub_boxed _ _ _ _ _ _ H B). Qed.

Lemma has_boxed : forall t v w, has t v = true -> has t w = true -> boxed v = boxed w.
Proof. intros t v w H1 H2. destruct t, v; try discriminate; destruct w; try discriminate; reflexivity. Qed.
Lemma has_type : forall t v, has t v = true <-> type_of v = t /\ v <> VNull.
Proof. intros t v. split; [destruct t, v; try discriminate; intros _; split; (reflexivity || discriminate)|]. intros [<- N]. destruct v; try reflexivity. exfalso. apply N. reflexivity. Qed.
Lemma boxed_has : forall v, boxed v = true -> has (type_of v) v = true.
Proof. intros []; try discriminate; reflexivity. Qed.

Lemma swap_like : forall x y st, x <> y -> kok st ->
  kok (mkK (upd (upd (k_var st) x (k_var st y)) y (k_var st x)) (k_heap st) (k_next st)).
Proof.
  intros x y st N (A & B & C & D). split; [|split; [|split]]; cbn [k_var k_heap k_next]; unfold upd.
  - intros z i H. destruct (Nat.eqb_spec z y); [exact (A _ _ H)|]. destruct (Nat.eqb_spec z x); exact (A _ _ H).
  - intros z i H. destruct (Nat.eqb_spec z y); [exact (B _ _ H)|]. destruct (Nat.eqb_spec z x); exact (B _ _ H).
  - intros a b i H1 H2. destruct (Nat.eqb_spec a y), (Nat.eqb_spec b y); subst; try reflexivity;
      repeat match goal with H : context [Nat.eqb ?a ?b] |- _ => destruct (Nat.eqb_spec a b); subst end;
      try (assert (E := C _ _ _ H1 H2); congruence); try congruence.
  - intros i v H. destruct (D _ _ H) as (z & Z). destruct (Nat.eq_dec z x) as [->|Nx]; [exists y; rewrite Nat.eqb_refl; exact Z|].
    destruct (Nat.eq_dec z y) as [->|Ny].
    + exists x. destruct (Nat.eqb_spec x y); [contradiction|]. rewrite Nat.eqb_refl. exact Z.
    + exists z. destruct (Nat.eqb_spec z y); [contradiction|]. destruct (Nat.eqb_spec z x); [contradiction|exact Z].
Qed.

Lemma move_ok : forall x y st, x <> y -> clean x st -> kok (mkK (upd (upd (k_var st) x (k_var st y)) y (CWord VNull)) (k_heap st) (k_next st)).
Proof.
  intros x y st N (A & B & C & D). split; [|split; [|split]]; cbn [k_var k_heap k_next]; unfold upd.
  - intros z i H. destruct (Nat.eqb_spec z y); [discriminate|]. destruct (Nat.eqb_spec z x); [apply (A y i); [congruence|exact H]|exact (A _ _ n0 H)].
  - intros z v H. destruct (Nat.eqb_spec z y); [inj H; reflexivity|]. destruct (Nat.eqb_spec z x); [apply (B y v); [congruence|exact H]|exact (B _ _ n0 H)].
  - intros a b i H1 H2. destruct (Nat.eqb_spec a y); [discriminate|]. destruct (Nat.eqb_spec b y); [discriminate|].
    destruct (Nat.eqb_spec a x), (Nat.eqb_spec b x); subst; try reflexivity.
    + exfalso. apply n0. symmetry. apply (C y b i); congruence.
    + exfalso. apply n. apply (C a y i); congruence.
    + exact (C _ _ _ n1 n2 H1 H2).
  - intros i v H. destruct (D _ _ H) as (_ & z & Nz & Z). destruct (Nat.eq_dec z y) as [->|Ny].
    + exists x. destruct (Nat.eqb_spec x y); [contradiction|]. rewrite Nat.eqb_refl. exact Z.
    + exists z. destruct (Nat.eqb_spec z y); [contradiction|]. destruct (Nat.eqb_spec z x); [contradiction|exact Z].
Qed.

Lemma swap_self : forall x st z, upd (upd (k_var st) x (k_var st x)) x (k_var st x) z = k_var st z.
Proof. intros x st z. unfold upd. destruct (Nat.eqb_spec z x); subst; reflexivity. Qed.
Lemma kok_ext : forall f st, (forall z, f z = k_var st z) -> kok st -> kok (mkK f (k_heap st) (k_next st)).
Proof.
  intros f st E (A & B & C & D). split; [|split; [|split]]; cbn [k_var k_heap k_next].
  - intros x i. rewrite E. apply A.
  - intros x v. rewrite E. apply B.
  - intros x y i. rewrite !E. apply C.
  - intros i v H. destruct (D _ _ H) as (x & X). exists x. rewrite E. exact X.
Qed.

Theorem step_kok : forall c st st' o, kok st -> k_step c st = (st', o) -> kok st'.
Proof.
  intros c st st' o K H. destruct c as [x v|x y|x y|x y|x o'|x a p o'|p v]; cbn [k_step] in H.
  - inj H. apply place_ok, drop_clean, K.
  - destruct (Nat.eqb x y); [inj H; exact K|]. destruct (val_ret st y K) as (v & V). rewrite V in H. inj H. apply place_ok, drop_clean, K.
  - destruct (Nat.eqb_spec x y); [inj H; exact K|]. inj H. apply (move_ok x y _ n), drop_clean, K.
  - inj H. destruct (Nat.eq_dec x y) as [->|N]; [apply kok_ext; [intro z; apply swap_self|exact K]|exact (swap_like _ _ _ N K)].
  - destruct o'; try (eapply change_ok; [|exact K|exact H]; apply do_keeps; discriminate). inj H. apply place_ok, drop_clean, K.
  - eapply change_ok; [|exact K|exact H]. apply sub_keeps.
  - destruct p as [x t|i t].
    + destruct (k_var st x) as [w|i] eqn:E; [|inj H; exact K]. destruct (has t w) eqn:H1; cbn [andb] in H; [|inj H; exact K].
      destruct (has t v) eqn:H2; inj H; [|exact K]. assert (Bv : boxed v = false) by (rewrite (has_boxed _ _ _ H2 H1); destruct K as (_ & B & _); exact (B _ _ E)).
      assert (P := place_ok x v st (word_clean _ _ _ K E)). unfold place in P. rewrite Bv in P. exact P.
    + destruct (k_heap st i) as [w|] eqn:E; [|inj H; exact K]. destruct (has t w) eqn:H1; cbn [andb] in H; [|inj H; exact K].
      destruct (has t v) eqn:H2; inj H; [|exact K]. apply (heap_set_ok i v w st K E). rewrite (has_boxed _ _ _ H2 H1).
      assert (K0 := K). destruct K0 as (_ & _ & _ & D). destruct (D _ _ E) as (x & X). destruct (boxed_val _ _ _ K X) as (u & Hu & _ & Bu). congruence.
Qed.

(** ** What the variables hold *)
Lemma drop_other : forall x y st, kok st -> y <> x -> val (drop x st) y = val st y.
Proof.
  intros x y st (A & _ & C & _) N. unfold drop. destruct (k_var st x) as [v|i] eqn:E; [reflexivity|]. unfold val. cbn [k_var k_heap].
  destruct (k_var st y) as [w|j] eqn:F; [reflexivity|]. unfold upd. destruct (Nat.eqb_spec j i); [subst; exfalso; apply N; exact (C _ _ _ F E)|reflexivity].
Qed.
Lemma place_val : forall x v st y, clean x st -> val (place x v st) y = if Nat.eqb y x then Ret v else val st y.
Proof.
  intros x v st y (A & _). unfold place, val. destruct (boxed v); cbn [k_var k_heap]; unfold upd; destruct (Nat.eqb_spec y x); try reflexivity.
  - rewrite Nat.eqb_refl. reflexivity.
  - destruct (k_var st y) as [w|i] eqn:E; [reflexivity|]. destruct (A _ _ n E) as (L & _). destruct (Nat.eqb_spec i (k_next st)); [lia|reflexivity].
Qed.
Lemma heap_set_val : forall x i v w st y, kok st -> k_var st x = CBlk i -> k_heap st i = Some w ->
  val (mkK (k_var st) (upd (k_heap st) i (Some v)) (k_next st)) y = if Nat.eqb y x then Ret v else val st y.
Proof.
  intros x i v w st y (A & _ & C & _) E H. unfold val. cbn [k_var k_heap]. unfold upd. destruct (Nat.eqb_spec y x).
  - subst. rewrite E, Nat.eqb_refl. reflexivity.
  - destruct (k_var st y) as [u|j] eqn:F; [reflexivity|]. destruct (Nat.eqb_spec j i); [subst; exfalso; apply n; exact (C _ _ _ F E)|reflexivity].
Qed.
Lemma change_val : forall x f st st' o v, kok st -> change x f st = (st', o) -> val st x = Ret v -> forall y, val st' y = if Nat.eqb y x then Ret (fst (f v)) else val st y.
Proof.
  intros x f st st' o v K H V y. unfold change in H. rewrite V in H. destruct (f v) as [v' r]. inj H. cbn [fst].
  destruct (k_var st x) as [w|i] eqn:E; [exact (place_val _ _ _ _ (word_clean _ _ _ K E))|].
  destruct (boxed_val _ _ _ K E) as (w & Hw & _). exact (heap_set_val _ _ _ _ _ _ K E Hw).
Qed.

Theorem effects : forall c st st' o vs x t, kok st -> holds st vs -> k_step c st = (st', o) ->
  (forall p v, c = KStore p v -> points st p x t /\ type_of v = t) -> holds st' (effect x c vs).
Proof.
  intros c st st' o vs x0 t0 K Hv H Hs z. assert (Dz := fun x => place_val x).
  assert (P : forall x v, val (place x v (drop x st)) z = Ret (set vs x v z)).
  { intros x v. rewrite place_val by (apply drop_clean, K). unfold set. destruct (Nat.eqb_spec z x); [reflexivity|]. rewrite drop_other by assumption. apply Hv. }
  assert (Ch : forall x f st1 o1, change x f st = (st1, o1) -> val st1 z = Ret (set vs x (fst (f (vs x))) z)).
  { intros x f st1 o1 E. rewrite (change_val _ _ _ _ _ _ K E (Hv x)). unfold set. destruct (Nat.eqb z x); [reflexivity|apply Hv]. }
  destruct c as [x v|x y|x y|x y|x o'|x a p o'|p v]; cbn [k_step effect] in *.
  - inj H. apply P.
  - destruct (Nat.eqb_spec x y).
    + inj H. unfold set. destruct (Nat.eqb_spec z y); subst; apply Hv.
    + rewrite (Hv y) in H. inj H. apply P.
  - destruct (Nat.eqb_spec x y); [inj H; apply Hv|]. inj H. unfold val, set. cbn [k_var k_heap]. unfold upd.
    destruct (Nat.eqb_spec z y); [reflexivity|]. destruct (Nat.eqb_spec z x).
    + fold (val (drop x st) y). rewrite drop_other by congruence. apply Hv.
    + fold (val (drop x st) z). rewrite drop_other by assumption. apply Hv.
  - inj H. unfold val, set. cbn [k_var k_heap]. unfold upd. destruct (Nat.eqb_spec z y); [exact (Hv x)|]. destruct (Nat.eqb_spec z x); [exact (Hv y)|exact (Hv z)].
  - destruct o'; try (exact (Ch _ _ _ _ H)). inj H. apply P.
  - exact (Ch _ _ _ _ H).
  - destruct (Hs p v eq_refl) as [Pt Tv]. destruct p as [x t|i t]; cbn [points] in Pt.
    + destruct Pt as (-> & -> & Nn & w & V & Bw & Tw). unfold val in V. destruct (k_var st x0) as [u|i] eqn:E.
      * inj V. destruct w; try discriminate Bw; destruct v; cbn in Tv; try discriminate Tv; cbn in H; inj H; unfold val, set; cbn [k_var k_heap]; unfold upd;
          destruct (Nat.eqb_spec z x0); subst; try reflexivity; try apply Hv; try (exfalso; apply Nn; reflexivity).
      * destruct (boxed_val _ _ _ K E) as (u & Hu & V' & Bu). rewrite Hu in V. inj V. congruence.
    + destruct Pt as (-> & Px & w & V & Tw). destruct (boxed_val _ _ _ K Px) as (u & Hu & V' & Bu). assert (u = w) by congruence. subst u.
      rewrite Hu in H. assert (Hh : has t0 v = true).
      { rewrite <- Tv. apply has_type. split; [reflexivity|]. intros ->. cbn in Tv. subst t0. destruct w; discriminate. }
      assert (Hw : has t0 w = true) by (rewrite <- Tw; apply boxed_has, Bu).
      rewrite Hw, Hh in H. inj H. rewrite (heap_set_val _ _ _ _ _ _ K Px Hu). unfold set. destruct (Nat.eqb z x0); [reflexivity|apply Hv].
Qed.

(** ** Pointers *)
Lemma word_val : forall st x w, k_var st x = CWord w -> val st x = Ret w.
Proof. intros st x w E. unfold val. rewrite E. reflexivity. Qed.

Theorem empty_kok : kok k_empty.
Proof. repeat split; cbn; intros; try discriminate. inj H. reflexivity. Qed.

Lemma got0 : forall st t x v, kok st -> val st x = Ret v ->
  (type_of v = t /\ t <> TNull -> exists p, k_get t x st = Ret (Some p) /\ points st p x t) /\
  (type_of v <> t \/ t = TNull -> k_get t x st = Ret None).
Proof.
  intros st t x v K V. unfold k_get. rewrite V. cbn [bind]. split.
  - intros [T N]. assert (Hh : has t v = true) by (apply has_type; split; [exact T|intros ->; apply N; symmetry; exact T]). rewrite Hh.
    destruct (k_var st x) as [w|i] eqn:E; eexists; (split; [reflexivity|]); cbn [points].
    + split; [reflexivity|]. split; [reflexivity|]. split; [exact N|]. exists v. split; [exact V|]. split; [|exact T].
      rewrite (word_val _ _ _ E) in V. inj V. destruct K as (_ & B & _). exact (B _ _ E).
    + split; [reflexivity|]. split; [exact E|]. exists v. split; assumption.
  - intro D. destruct (has t v) eqn:Hh; [|reflexivity]. exfalso. apply has_type in Hh. destruct Hh as [T N]. destruct D as [D|D]; [exact (D T)|].
    subst t. destruct v; try discriminate. apply N. reflexivity.
Qed.

Theorem points_read : forall st p x t, kok st -> points st p x t -> k_read p st = val st x.
Proof.
  intros st p x t K P. destruct p as [y u|i u]; cbn [points k_read] in *.
  - destruct P as (-> & -> & N & v & V & B & T). destruct (k_var st x) as [w|i] eqn:E.
    + rewrite (word_val _ _ _ E) in *. inj V. assert (Hh : has (type_of v) v = true) by (apply has_type; split; [reflexivity|intros ->; apply N; reflexivity]). rewrite Hh. reflexivity.
    + destruct (boxed_val _ _ _ K E) as (w & _ & V' & B'). congruence.
  - destruct P as (-> & E & v & V & T). destruct (boxed_val _ _ _ K E) as (w & Hw & V' & B'). assert (w = v) by congruence. subst w.
    rewrite Hw, <- T, (boxed_has _ B'). congruence.
Qed.

(** a pointer that can be read points to the content of exactly one variable *)
Theorem read_points : forall st p v, kok st -> k_read p st = Ret v -> exists x, points st p x (type_of v) /\ val st x = Ret v /\ forall y t, points st p y t -> y = x.
Proof.
  intros st p v K R. destruct p as [x t|i t]; cbn [k_read] in R.
  - destruct (k_var st x) as [w|] eqn:E; [|discriminate]. destruct (has t w) eqn:Hh; [|discriminate]. inj R. apply has_type in Hh. destruct Hh as [T N].
    exists x. assert (V := word_val _ _ _ E). split; [|split; [exact V|]].
    + cbn [points]. split; [reflexivity|]. split; [symmetry; exact T|]. split; [intro T0; apply N; destruct v; try discriminate; reflexivity|].
      exists v. split; [exact V|]. split; [|reflexivity]. destruct K as (_ & B & _). exact (B _ _ E).
    + intros y u P. cbn [points] in P. symmetry. exact (proj1 P).
  - destruct (k_heap st i) as [w|] eqn:E; [|discriminate]. destruct (has t w) eqn:Hh; [|discriminate]. inj R. apply has_type in Hh. destruct Hh as [T N].
    assert (K0 := K). destruct K0 as (_ & _ & C & D). destruct (D _ _ E) as (x & X). exists x. assert (V : val st x = Ret v) by (unfold val; rewrite X, E; reflexivity).
    split; [|split; [exact V|]].
    + cbn [points]. split; [symmetry; exact T|]. split; [exact X|]. exists v. split; [exact V|reflexivity].
    + intros y u P. cbn [points] in P. destruct P as (_ & Y & _). exact (C _ _ _ Y X).
Qed.

Theorem got : forall st t x v, kok st -> val st x = Ret v ->
  (type_of v = t /\ t <> TNull -> exists p, k_get t x st = Ret (Some p) /\ points st p x t /\
    (in_block t -> exists i, p = PBlk i t) /\ (in_word t -> p = PWord x t)) /\
  (type_of v <> t \/ t = TNull -> k_get t x st = Ret None).
Proof.
  intros st t x v K V. destruct (got0 st t x v K V) as [A B]. split; [|exact B]. intro T. destruct (A T) as (p & G & P). exists p. split; [exact G|]. split; [exact P|].
  destruct T as [T _]. destruct p as [y u|i u]; cbn [points] in P.
  - destruct P as (-> & -> & _ & w & W & Bw & Tw). assert (w = v) by congruence. subst w. split; [|reflexivity].
    intros [D|[D|D]]; rewrite D in Tw; destruct v; discriminate.
  - destruct P as (-> & E & _). split; [exists i; reflexivity|]. destruct (boxed_val _ _ _ K E) as (w & _ & W & Bw). assert (w = v) by congruence. subst w.
    intros [D|[D|D]]; rewrite D in T; destruct v; discriminate.
Qed.

Lemma words0 : forall st x t v, kok st -> val st x = Ret v ->
  k_read (PWord x t) st = if has t v && negb (boxed v) then Ret v else UB.
Proof.
  intros st x t v K V. cbn [k_read]. destruct (k_var st x) as [w|i] eqn:E.
  - rewrite (word_val _ _ _ E) in V. inj V. assert (B : boxed v = false) by (destruct K as (_ & B & _); exact (B _ _ E)). rewrite B, Bool.andb_true_r. reflexivity.
  - destruct (boxed_val _ _ _ K E) as (w & _ & V' & B'). assert (w = v) by congruence. subst w. rewrite B', Bool.andb_false_r. reflexivity.
Qed.

Theorem words : forall st x t v, kok st -> val st x = Ret v ->
  (type_of v = t /\ in_word t -> k_read (PWord x t) st = Ret v) /\
  (~ (type_of v = t /\ in_word t) -> k_read (PWord x t) st = UB).
Proof.
  intros st x t v K V. rewrite (words0 st x t v K V). split.
  - intros [<- [D|[D|D]]]; destruct v; try discriminate; reflexivity.
  - intro N. destruct (has t v) eqn:H; [|reflexivity]. destruct (boxed v) eqn:B; [reflexivity|]. exfalso. apply N. apply has_type in H. destruct H as [T X]. split; [exact T|].
    subst t. unfold in_word. destruct v; try discriminate; cbn; tauto.
Qed.

(** ** Blocks *)
Lemma drop_next : forall x st, k_next (drop x st) = k_next st.
Proof. intros x st. unfold drop. destruct (k_var st x); reflexivity. Qed.
Lemma drop_var : forall x st, k_var (drop x st) = k_var st.
Proof. intros x st. unfold drop. destruct (k_var st x); reflexivity. Qed.
Lemma place_next : forall x v st, (k_next st <= k_next (place x v st))%nat.
Proof. intros x v st. unfold place. destruct (boxed v); cbn [k_next]; lia. Qed.
Lemma change_next : forall x f st st' o, change x f st = (st', o) -> (k_next st <= k_next st')%nat.
Proof.
  intros x f st st' o H. unfold change in H. destruct (val st x); try (inj H; lia). destruct (f a) as [v' r]. inj H. destruct (k_var st x); [apply place_next|cbn; lia].
Qed.
Lemma step_next : forall c st st' o, k_step c st = (st', o) -> (k_next st <= k_next st')%nat.
Proof.
  intros c st st' o H. assert (PD : forall x v, (k_next st <= k_next (place x v (drop x st)))%nat) by (intros; rewrite <- (drop_next x st); apply place_next).
  destruct c as [x v|x y|x y|x y|x o'|x a p o'|p v]; cbn [k_step] in H.
  - inj H. apply PD.
  - destruct (Nat.eqb x y); [inj H; lia|]. destruct (val st y); inj H; try lia. apply PD.
  - destruct (Nat.eqb x y); inj H; [lia|]. cbn [k_next]. rewrite drop_next. lia.
  - inj H. cbn. lia.
  - destruct o'; try (exact (change_next _ _ _ _ _ H)). inj H. apply PD.
  - exact (change_next _ _ _ _ _ H).
  - destruct p as [x t|i t].
    + destruct (k_var st x); [destruct (has t v0 && has t v)|]; inj H; cbn; lia.
    + destruct (k_heap st i); [destruct (has t v0 && has t v)|]; inj H; cbn; lia.
Qed.

(** which variable has block i afterwards *)
Lemma place_blk : forall x v st i z, (i < k_next st)%nat -> k_var (place x v st) z = CBlk i -> z <> x /\ k_var st z = CBlk i.
Proof.
  intros x v st i z L H. unfold place in H. destruct (boxed v); cbn [k_var] in H; unfold upd in H; destruct (Nat.eqb_spec z x); try discriminate; try (split; assumption).
  inj H. lia.
Qed.
Lemma place_keep : forall x v st i z, z <> x -> k_var st z = CBlk i -> k_var (place x v st) z = CBlk i.
Proof. intros x v st i z N H. unfold place. destruct (boxed v); cbn [k_var]; unfold upd; destruct (Nat.eqb_spec z x); (contradiction || exact H). Qed.
Lemma change_var : forall x f st st' o y i, kok st -> change x f st = (st', o) -> k_var st y = CBlk i -> k_var st' y = CBlk i.
Proof.
  intros x f st st' o y i K H E. unfold change in H. destruct (val_ret st x K) as (v & V). rewrite V in H. destruct (f v) as [v' r]. inj H.
  destruct (k_var st x) as [w|j] eqn:F; [|exact E]. apply place_keep; [congruence|exact E].
Qed.
Lemma change_var_back : forall x f st st' o y i, kok st -> (i < k_next st)%nat -> change x f st = (st', o) -> k_var st' y = CBlk i -> k_var st y = CBlk i.
Proof.
  intros x f st st' o y i K L H E. unfold change in H. destruct (val_ret st x K) as (v & V). rewrite V in H. destruct (f v) as [v' r]. inj H.
  destruct (k_var st x) as [w|j] eqn:F; [|exact E]. exact (proj2 (place_blk _ _ _ _ _ L E)).
Qed.

Theorem block_goes : forall c st st' o x i, kok st -> k_step c st = (st', o) -> k_var st x = CBlk i ->
  match goes c x with Some y => k_var st' y = CBlk i | None => k_heap st' i = None end.
Proof.
  intros c st st' o x i K H E.
  assert (L : (i < k_next st)%nat) by (destruct K as (A & _); exact (proj1 (A _ _ E))).
  assert (PD : forall y v, st' = place y v (drop y st) -> match (if Nat.eqb x y then None else Some x) with Some y => k_var st' y = CBlk i | None => k_heap st' i = None end).
  { intros y v ->. destruct (Nat.eqb_spec x y).
    - subst. unfold place, drop. rewrite E. destruct (boxed v); cbn [k_heap k_var k_next]; unfold upd.
      + destruct (Nat.eqb_spec i (k_next st)); [lia|]. rewrite Nat.eqb_refl. reflexivity.
      + rewrite Nat.eqb_refl. reflexivity.
    - apply place_keep; [exact n|]. rewrite drop_var. exact E. }
  destruct c as [y v|y z|y z|y z|y o'|y a p o'|p v]; cbn [k_step goes] in *.
  - inj H. eapply PD. reflexivity.
  - destruct (Nat.eqb y z); [inj H; exact E|]. destruct (val_ret st z K) as (v & V). rewrite V in H. inj H. eapply PD. reflexivity.
  - destruct (Nat.eqb_spec y z); [inj H; exact E|]. inj H. cbn [k_var k_heap]. rewrite drop_var. unfold upd. destruct (Nat.eqb_spec x y).
    + subst. unfold drop. rewrite E. cbn [k_heap]. unfold upd. rewrite Nat.eqb_refl. reflexivity.
    + destruct (Nat.eqb_spec x z).
      * subst. destruct (Nat.eqb_spec y z); [contradiction|]. rewrite Nat.eqb_refl. exact E.
      * destruct (Nat.eqb_spec x z); [contradiction|]. destruct (Nat.eqb_spec x y); [contradiction|exact E].
  - inj H. destruct (Nat.eqb_spec x y); [|destruct (Nat.eqb_spec x z)]; cbn [k_var]; unfold upd.
    + subst. rewrite Nat.eqb_refl. exact E.
    + subst. destruct (Nat.eqb_spec y z); [congruence|]. rewrite Nat.eqb_refl. exact E.
    + destruct (Nat.eqb_spec x z); [contradiction|]. destruct (Nat.eqb_spec x y); [contradiction|exact E].
  - destruct o'; try (exact (change_var _ _ _ _ _ _ _ K H E)). inj H. eapply PD. reflexivity.
  - exact (change_var _ _ _ _ _ _ _ K H E).
  - destruct p as [y t|j t].
    + destruct (k_var st y) eqn:F; [destruct (has t v0 && has t v)|]; inj H; try exact E. cbn [k_var]. unfold upd. destruct (Nat.eqb_spec x y); [congruence|exact E].
    + destruct (k_heap st j); [destruct (has t v0 && has t v)|]; inj H; exact E.
Qed.

(** a block keeps its type *)
Lemma change_type : forall x f st st' o i v v', kok st -> keeps f -> (i < k_next st)%nat -> change x f st = (st', o) -> k_heap st i = Some v -> k_heap st' i = Some v' -> type_of v' = type_of v.
Proof.
  intros x f st st' o i v v' K Kf L H E E'. unfold change in H. destruct (val_ret st x K) as (w & V). rewrite V in H. destruct (f w) as [w' r] eqn:F. inj H.
  destruct (k_var st x) as [u|j] eqn:X.
  - unfold place in E'. destruct (boxed w'); cbn [k_heap] in E'; unfold upd in E'; [destruct (Nat.eqb_spec i (k_next st)); [lia|]|]; congruence.
  - cbn [k_heap] in E'. unfold upd in E'. destruct (Nat.eqb_spec i j); [|congruence]. inj E'. destruct (boxed_val _ _ _ K X) as (u & Hu & V' & Bu).
    assert (u = w) by congruence. assert (u = v) by congruence. subst. exact (proj2 (Kf _ _ _ F Bu)).
Qed.
Lemma place_heap : forall x v st i, (i < k_next st)%nat -> k_heap (place x v st) i = k_heap st i.
Proof. intros x v st i L. unfold place. destruct (boxed v); cbn [k_heap]; unfold upd; [destruct (Nat.eqb_spec i (k_next st)); [lia|]|]; reflexivity. Qed.
Lemma drop_heap : forall x st i v, k_heap (drop x st) i = Some v -> k_heap st i = Some v.
Proof. intros x st i v. unfold drop. destruct (k_var st x); [intro H; exact H|]. cbn [k_heap]. unfold upd. destruct (Nat.eqb i i0); [discriminate|intro H; exact H]. Qed.

Lemma block_type : forall c st st' o i v v', kok st -> k_step c st = (st', o) -> k_heap st i = Some v -> k_heap st' i = Some v' -> type_of v' = type_of v.
Proof.
  intros c st st' o i v v' K H E E'. assert (L := heap_low _ _ _ K E).
  assert (PD : forall y w, k_heap (place y w (drop y st)) i = Some v' -> type_of v' = type_of v).
  { intros y w X. rewrite place_heap in X by (rewrite drop_next; exact L). apply drop_heap in X. congruence. }
  destruct c as [y w|y z|y z|y z|y o'|y a p o'|p w]; cbn [k_step] in *.
  - inj H. exact (PD _ _ E').
  - destruct (Nat.eqb y z); [inj H; congruence|]. destruct (val_ret st z K) as (w & V). rewrite V in H. inj H. exact (PD _ _ E').
  - destruct (Nat.eqb y z); [inj H; congruence|]. inj H. cbn [k_heap] in E'. apply drop_heap in E'. congruence.
  - inj H. cbn [k_heap] in E'. congruence.
  - destruct o'; try (eapply change_type; [exact K| |exact L|exact H|exact E|exact E']; apply do_keeps; discriminate). inj H. exact (PD _ _ E').
  - eapply change_type; [exact K| |exact L|exact H|exact E|exact E']. apply sub_keeps.
  - destruct p as [y t|j t].
    + destruct (k_var st y); [destruct (has t v0 && has t w)|]; inj H; cbn [k_heap] in E'; congruence.
    + destruct (k_heap st j) as [u|] eqn:F; [|inj H; congruence]. destruct (has t u) eqn:H1; cbn [andb] in H; [|inj H; congruence]. destruct (has t w) eqn:H2; inj H; [|congruence].
      cbn [k_heap] in E'. unfold upd in E'. destruct (Nat.eqb_spec i j); [|congruence]. inj E'. apply has_type in H1, H2. destruct H1, H2. congruence.
Qed.

Theorem stays : forall c st st' o x i t, kok st -> k_step c st = (st', o) -> points st (PBlk i t) x t ->
  match goes c x with Some y => points st' (PBlk i t) y t | None => k_read (PBlk i t) st' = UB end.
Proof.
  intros c st st' o x i t K H (_ & E & v & V & T). assert (G := block_goes _ _ _ _ _ _ K H E). destruct (goes c x) as [y|].
  - cbn [points]. split; [reflexivity|]. split; [exact G|]. destruct (boxed_val _ _ _ (step_kok _ _ _ _ K H) G) as (w & Hw & W & _). exists w. split; [exact W|].
    destruct (boxed_val _ _ _ K E) as (u & Hu & V' & _). rewrite (block_type _ _ _ _ _ _ _ K H Hu Hw). congruence.
  - cbn [k_read]. rewrite G. reflexivity.
Qed.

(** the whole run, as far as it goes *)
Lemma run_cons : forall c cs st st' rs, k_run (c :: cs) st = (st', rs) -> Forall fine rs ->
  exists st1 r rs', k_step c st = (st1, r) /\ k_run cs st1 = (st', rs') /\ rs = r :: rs' /\ fine r /\ Forall fine rs'.
Proof.
  intros c cs st st' rs H F. cbn [k_run] in H. destruct (k_step c st) as [st1 r]. exists st1, r.
  destruct r; try (inj H; inversion F as [|? ? [X|[? X]]]; discriminate).
  - destruct (k_run cs st1) as [st2 rs']. inj H. exists rs'. inversion F; subst. split; [reflexivity|]. split; [reflexivity|]. split; [reflexivity|]. split; assumption.
  - destruct (k_run cs st1) as [st2 rs']. inj H. exists rs'. inversion F; subst. split; [reflexivity|]. split; [reflexivity|]. split; [reflexivity|]. split; assumption.
Qed.

Theorem run_kok : forall cs st st' rs, kok st -> k_run cs st = (st', rs) -> kok st'.
Proof.
  induction cs as [|c cs IH]; intros st st' rs K H; cbn [k_run] in H; [inj H; exact K|].
  destruct (k_step c st) as [st1 r] eqn:S. assert (K1 := step_kok _ _ _ _ K S).
  destruct r; try (inj H; exact K1); destruct (k_run cs st1) as [st2 rs'] eqn:R; inj H; exact (IH _ _ _ K1 R).
Qed.

Lemma gone_step : forall c st st' o i t, kok st -> kknown st (PBlk i t) -> k_read (PBlk i t) st = UB -> k_step c st = (st', o) ->
  k_read (PBlk i t) st' = UB /\ kknown st' (PBlk i t).
Proof.
  intros c st st' o i t K L R H. cbn [kknown k_read] in *. assert (N := step_next _ _ _ _ H). split; [|lia].
  destruct (k_heap st' i) as [v'|] eqn:E'; [|reflexivity]. destruct (has t v') eqn:Hh; [|reflexivity]. exfalso.
  destruct (k_heap st i) as [v|] eqn:E.
  - destruct (has t v) eqn:Hv; [discriminate|]. apply has_type in Hh. destruct Hh as [T' N']. assert (T := block_type _ _ _ _ _ _ _ K H E E').
    assert (has t v = true); [|congruence]. apply has_type. split; [congruence|]. intros ->. destruct v'; try discriminate. apply N'. reflexivity.
  - assert (K' := step_kok _ _ _ _ K H). destruct K' as (_ & _ & _ & D). destruct (D _ _ E') as (x & X).
    clear Hh R D. revert X E'.
    assert (No : forall y, k_var st y <> CBlk i) by (intros y Y; destruct (boxed_val _ _ _ K Y) as (w & Hw & _); congruence).
    assert (PD : forall y w, k_heap (place y w (drop y st)) i <> Some v').
    { intros y w X. rewrite place_heap in X by (rewrite drop_next; exact L). apply drop_heap in X. congruence. }
    assert (Ch : forall y f st1 o1, change y f st = (st1, o1) -> k_heap st1 i <> Some v').
    { intros y f st1 o1 X Y. unfold change in X. destruct (val st y); try (inj X; congruence). destruct (f a) as [w r]. inj X. destruct (k_var st y) as [u|j] eqn:J.
      - rewrite place_heap in Y by exact L. congruence.
      - cbn [k_heap] in Y. unfold upd in Y. destruct (Nat.eqb_spec i j); [subst; exact (No _ J)|congruence]. }
    intros X E'. destruct c as [y w|y z|y z|y z|y o'|y a p o'|p w]; cbn [k_step] in *.
    + inj H. exact (PD _ _ E').
    + destruct (Nat.eqb y z); [inj H; congruence|]. destruct (val_ret st z K) as (w & V). rewrite V in H. inj H. exact (PD _ _ E').
    + destruct (Nat.eqb y z); [inj H; congruence|]. inj H. cbn [k_heap] in E'. apply drop_heap in E'. congruence.
    + inj H. cbn [k_heap] in E'. congruence.
    + destruct o'; try (exact (Ch _ _ _ _ H E')). inj H. exact (PD _ _ E').
    + exact (Ch _ _ _ _ H E').
    + destruct p as [y u|j u].
      * destruct (k_var st y); [destruct (has u v && has u w)|]; inj H; cbn [k_heap] in E'; congruence.
      * destruct (k_heap st j) as [q|] eqn:F; [|inj H; congruence]. destruct (has u q && has u w); inj H; [|congruence].
        cbn [k_heap] in E'. unfold upd in E'. destruct (Nat.eqb_spec i j); congruence.
Qed.

Theorem gone : forall cs st st' rs i t, kok st -> kknown st (PBlk i t) -> k_read (PBlk i t) st = UB -> k_run cs st = (st', rs) -> k_read (PBlk i t) st' = UB.
Proof.
  induction cs as [|c cs IH]; intros st st' rs i t K L R H; cbn [k_run] in H; [inj H; exact R|].
  destruct (k_step c st) as [st1 r] eqn:S. assert (K1 := step_kok _ _ _ _ K S). destruct (gone_step _ _ _ _ _ _ K L R S) as [R1 L1].
  destruct r; try (inj H; exact R1); destruct (k_run cs st1) as [st2 rs'] eqn:E; inj H; exact (IH _ _ _ _ _ K1 L1 R1 E).
Qed.

Theorem follows : forall cs st st' rs x i t, kok st -> points st (PBlk i t) x t -> k_run cs st = (st', rs) -> Forall fine rs ->
  match goes_all cs x with
  | Some y => points st' (PBlk i t) y t /\ k_read (PBlk i t) st' = val st' y
  | None => k_read (PBlk i t) st' = UB
  end.
Proof.
  induction cs as [|c cs IH]; intros st st' rs x i t K P H F.
  - cbn in H. inj H. cbn [goes_all]. split; [exact P|]. exact (points_read _ _ _ _ K P).
  - destruct (run_cons _ _ _ _ _ H F) as (st1 & r & rs' & S & R & -> & _ & F'). assert (K1 := step_kok _ _ _ _ K S). assert (G := stays _ _ _ _ _ _ _ K S P).
    cbn [goes_all]. destruct (goes c x) as [y|]; [exact (IH _ _ _ _ _ _ K1 G R F')|].
    apply (gone cs st1 st' rs' i t K1); [|exact G|exact R]. cbn [kknown]. destruct P as (_ & E & _). destruct K as (A & _). assert (N := step_next _ _ _ _ S). assert (L := proj1 (A _ _ E)). lia.
Qed.

(** a store through a pointer *)
Theorem stored : forall st p x t v, kok st -> points st p x t -> type_of v = t ->
  exists st', k_step (KStore p v) st = (st', Ret tt) /\ kok st' /\ points st' p x t /\ k_read p st' = Ret v /\ val st' x = Ret v /\
    (forall y, y <> x -> val st' y = val st y) /\
    (forall q u, points st q x u -> k_read q st' = Ret v).
Proof.
  intros st p x t v K P T.
  assert (Nt : t <> TNull).
  { destruct p; cbn [points] in P; [tauto|]. destruct P as (_ & E & w & V & Tw). destruct (boxed_val _ _ _ K E) as (u & _ & V' & B). assert (u = w) by congruence. subst. destruct w; discriminate. }
  assert (Hv : has t v = true) by (apply has_type; split; [exact T|intros ->; apply Nt; symmetry; exact T]).
  assert (S : exists st', k_step (KStore p v) st = (st', Ret tt)).
  { assert (R := points_read _ _ _ _ K P). destruct (val_ret st x K) as (w & V). rewrite V in R. destruct p as [y u|i u]; cbn [k_read k_step] in *.
    - destruct P as (-> & -> & _). destruct (k_var st x); [|discriminate]. destruct (has t v0); [|discriminate]. rewrite Hv. eexists. reflexivity.
    - destruct P as (-> & _). destruct (k_heap st i); [|discriminate]. destruct (has t v0); [|discriminate]. rewrite Hv. eexists. reflexivity. }
  destruct S as (st' & S). exists st'. assert (K' := step_kok _ _ _ _ K S).
  set (vs := fun z => match val st z with Ret w => w | _ => VNull end).
  assert (Hs : holds st vs) by (intro z; unfold vs; destruct (val_ret st z K) as (w & ->); reflexivity).
  assert (Ef : holds st' (effect x (KStore p v) vs)) by (apply (effects _ _ _ _ _ x t K Hs S); intros p0 v0 X; inj X; split; [exact P|reflexivity]).
  assert (Vx : val st' x = Ret v) by (rewrite (Ef x); cbn; unfold set; rewrite Nat.eqb_refl; reflexivity).
  assert (Pt : forall q u, points st q x u -> points st' q x u).
  { intros q u Q. assert (u = t).
    { destruct q, p; cbn [points] in P, Q; destruct P as (? & P), Q as (? & Q); repeat match goal with H : exists _, _ |- _ => destruct H | H : _ /\ _ |- _ => destruct H end; congruence. }
    subst u. destruct q as [z u|j u].
    - cbn [points] in *. destruct Q as (-> & -> & N & w & V & B & Tw). split; [reflexivity|]. split; [reflexivity|]. split; [exact N|]. exists v. split; [exact Vx|]. split; [|exact T].
      assert (Hw : has t w = true) by (apply has_type; split; [exact Tw|intros ->; apply N; symmetry; exact Tw]). rewrite (has_boxed _ _ _ Hv Hw). exact B.
    - assert (u = t) by (destruct Q; assumption). subst u. exact (stays _ _ _ _ _ _ _ K S Q). }
  split; [exact S|]. split; [exact K'|]. split; [exact (Pt _ _ P)|]. split; [rewrite (points_read _ _ _ _ K' (Pt _ _ P)); exact Vx|]. split; [exact Vx|]. split.
  - intros y N. rewrite (Ef y). cbn. unfold set. destruct (Nat.eqb_spec y x); [contradiction|]. symmetry. apply Hs.
  - intros q u Q. rewrite (points_read _ _ _ _ K' (Pt _ _ Q)). exact Vx.
Qed.

Theorem outcomes : forall c st st' o vs, kok st -> holds st vs -> k_step c st = (st', o) ->
  (forall p v, c <> KStore p v) -> o = answer c vs.
Proof.
  intros c st st' o vs K Hv H N.
  assert (Ch : forall x f st1 o1, change x f st = (st1, o1) -> o1 = let* _ := snd (f (vs x)) in Ret tt).
  { intros x f st1 o1 E. unfold change in E. rewrite (Hv x) in E. destruct (f (vs x)). inj E. reflexivity. }
  destruct c as [x v|x y|x y|x y|x o'|x a p o'|p v]; cbn [k_step answer] in *.
  - inj H. reflexivity.
  - destruct (Nat.eqb x y); [inj H; reflexivity|]. rewrite (Hv y) in H. inj H. reflexivity.
  - destruct (Nat.eqb x y); inj H; reflexivity.
  - inj H. reflexivity.
  - destruct o'; try (exact (Ch _ _ _ _ H)). inj H. reflexivity.
  - exact (Ch _ _ _ _ H).
  - exfalso. exact (N _ _ eq_refl).
Qed.

Lemma same_variable : ~ (forall cs st st' rs x t p v, kok st -> k_get t x st = Ret (Some p) ->
  k_run cs st = (st', rs) -> k_read p st' = Ret v -> val st' x = Ret v).
Proof.
  intro H. set (s0 := fst (k_run [KSet 0 (VStr []); KSet 1 (VInt 5)] k_empty)).
  assert (K : kok s0) by (exact (run_kok [KSet 0 (VStr []); KSet 1 (VInt 5)] k_empty s0 [Ret tt; Ret tt] empty_kok eq_refl)).
  assert (X := H [KSwap 0 1] s0 (fst (k_run [KSwap 0 1] s0)) [Ret tt] 0%nat TString (PBlk 0 TString) (VStr []) K eq_refl eq_refl eq_refl).
  vm_compute in X. discriminate X.
Qed.

Theorem program : forall cs st vs, kok st -> holds st vs -> Forall storeless cs -> Forall fine (answers cs vs) ->
  exists st', k_run cs st = (st', answers cs vs) /\ kok st' /\ holds st' (effect_all cs vs).
Proof.
  induction cs as [|c cs IH]; intros st vs K Hv Sl F.
  - exists st. split; [reflexivity|]. split; assumption.
  - cbn [answers effect_all] in *. inversion Sl as [|? ? S1 S2]; subst. inversion F as [|? ? F1 F2]; subst.
    destruct (k_step c st) as [st1 r] eqn:S.
    assert (Ns : forall p v, c <> KStore p v) by (intros p v ->; exact S1).
    assert (R := outcomes _ _ _ _ _ K Hv S Ns). assert (K1 := step_kok _ _ _ _ K S).
    assert (H1 : holds st1 (effect 0 c vs)) by (apply (effects _ _ _ _ _ 0%nat TNull K Hv S); intros p v X; exfalso; exact (Ns _ _ X)).
    destruct (IH st1 _ K1 H1 S2 F2) as (st' & E & K' & H'). exists st'. split; [|split; assumption].
    cbn [k_run]. rewrite S, E, <- R. rewrite <- R in F1. destruct F1 as [->|(e & ->)]; reflexivity.
Qed.
