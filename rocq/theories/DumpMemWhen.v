(** When the serializer asks for memory. *)
From Coq Require Import Lia ZifyBool ZifyNat ZifyN.
From Verif Require Import Base Stream Encoding Value Token FloatFmt Message Parser DumpText Feeds SpecGrammar SpecDump Serializer Target SpecTarget TargetProofs TargetMain DumpMem DumpMemProofs SpecDumpMem DumpMemEnds.
Open Scope N_scope.

Section When.
Context {T : Type}.
Variables (take : T -> call -> T * bool) (deny : nat -> bool) (cf : scfg).
Notation dst := (dst (T := T)).
Notation dres := (dres (T := T)).
Notation tst := (tst (T := T)).
Notation tres := (tres (T := T)).
Hypothesis Pr : s_pretty cf = true -> 0 < s_step cf.

(** no indentation to keep *)
Definition bare : Prop := s_ichar cf = 0 \/ s_step cf = 0.
Definition lvl (d : nat) (g : tst) : Prop :=
  t_ilen g = (if s_ichar cf =? 0 then 0 else s_step cf * 4) /\ (bare \/ (t_depth g = N.of_nat d /\ (d <= 4)%nat)).
Definition fits (d : nat) (v : value) : Prop := bare \/ (d + height v <= 4)%nat.

Definition lands (n : nat) (P : tst -> Prop) (X : dres) (Y : tres) : Prop :=
  (X = ((fst Y, n), snd Y) /\ (forall e, snd Y <> Throw e) /\ (snd Y = Ret tt -> P (fst Y))) \/
  (exists msg c, In msg ["unexpected character"; "encoding failed with codepoint"]%string /\ snd Y = Throw (ESer (with_code msg c)) /\ X = d_fail deny msg c (fst Y, n)).

Lemma fail_throws : forall msg c (g : tst) n k, dthen (d_fail deny msg c (g, n)) k = d_fail deny msg c (g, n).
Proof.
  intros msg c g n k. destruct (fail_ends deny msg c g n) as (n' & r & -> & [->|(m & _ & ->)]); reflexivity.
Qed.
Lemma lands_then : forall n P Q X Y k k', lands n P X Y -> (forall g, P g -> lands n Q (k (g, n)) (k' g)) -> lands n Q (dthen X k) (tthen Y k').
Proof.
  intros n P Q X [g r] k k' [(-> & N & H)|(msg & c & I & E & ->)] K; cbn [fst snd] in *.
  - destruct r as [[]|e| | |]; cbn [dthen tthen]; [apply K, H; reflexivity| | | |]; left; (split; [reflexivity|]); (split; [exact N|]); discriminate.
  - subst r. cbn [tthen]. right. exists msg, c. cbn [fst snd]. split; [exact I|]. split; [reflexivity|apply fail_throws].
Qed.
Lemma lands_weak : forall n (P Q : tst -> Prop) X Y, (forall g, P g -> Q g) -> lands n P X Y -> lands n Q X Y.
Proof. intros n P Q X Y W [(E & N & H)|H]; [left; auto|right; exact H]. Qed.
Lemma lands_ret : forall n (P : tst -> Prop) g, P g -> lands n P (dret (g, n)) (tret g).
Proof. intros n P g H. left. split; [reflexivity|]. split; [discriminate|auto]. Qed.
Lemma lands_stop : forall n (P : tst -> Prop) g r, r <> Ret tt -> (forall e, r <> Throw e) -> lands n P ((g, n), r) (g, r).
Proof. intros n P g r R N. left. split; [reflexivity|]. split; [exact N|]. intros E. contradiction. Qed.

(** what does not touch the indentation *)
Definition still (g g' : tst) : Prop := t_ilen g' = t_ilen g /\ t_depth g' = t_depth g.
Lemma lvl_still : forall d g g', still g g' -> lvl d g -> lvl d g'.
Proof. intros d g g' [A B] [C D]. split; [rewrite A; exact C|]. rewrite B. exact D. Qed.
Lemma still_refl : forall g, still g g.
Proof. split; reflexivity. Qed.
Lemma still_nl : forall g, still g (t_output_newline take cf g).
Proof. intros g. unfold t_output_newline. destruct (s_pretty cf); split; reflexivity. Qed.

Lemma ind_write_ends : forall k g, (exists g', t_ind_write take cf k g = (g', Ret tt) /\ still g g') \/ t_ind_write take cf k g = (g, UB).
Proof.
  intros k g. unfold t_ind_write. destruct (k <=? t_ilen g); [left; eexists; split; [reflexivity|split; reflexivity]|].
  destruct (k =? t_ilen g + 1); [left; eexists; split; [reflexivity|split; reflexivity]|right; reflexivity].
Qed.
Lemma lands_ind_write : forall n k d g, lvl d g -> lands n (lvl d) (quietly (t_ind_write take cf k) (g, n)) (t_ind_write take cf k g).
Proof.
  intros n k d g H. unfold quietly. cbn [fst snd]. destruct (ind_write_ends k g) as [(g' & -> & S)| ->].
  - apply lands_ret. eapply lvl_still; eassumption.
  - apply lands_stop; discriminate.
Qed.
Lemma lands_indent : forall n d g, lvl d g -> lands n (lvl d) (quietly (t_output_indent take cf) (g, n)) (t_output_indent take cf g).
Proof.
  intros n d g H. unfold quietly. cbn [fst snd]. unfold t_output_indent. destruct (s_pretty cf); [|apply lands_ret; exact H]. destruct (_ && _ && _); [|apply lands_ret; exact H].
  exact (lands_ind_write n (t_depth g * s_step cf) d g H).
Qed.

Lemma reserve_fits : forall len (g : tst) n, t_ilen g = (if s_ichar cf =? 0 then 0 else s_step cf * 4) -> (s_ichar cf = 0 \/ len <= s_step cf * 4) ->
  d_ind_reserve deny cf len (g, n) = dret (g, n) /\ t_ind_reserve cf len g = g.
Proof.
  clear Pr. intros len g n I L. unfold d_ind_reserve, t_ind_reserve. cbn [fst]. rewrite I. destruct (s_ichar cf =? 0) eqn:E; [split; reflexivity|].
  replace (s_step cf * 4 <? len) with false; [split; reflexivity|]. symmetry. apply N.ltb_ge. destruct L; [lia|assumption].
Qed.
Lemma u16_small : forall d, (d <= 5)%nat -> u16 (N.of_nat d) = N.of_nat d.
Proof. clear Pr. intros d H. unfold u16. rewrite N.mod_small; [reflexivity|]. apply N.le_lt_trans with 5; [lia|reflexivity]. Qed.
Lemma lands_inc : forall n d g, lvl d g -> (bare \/ (S d <= 4)%nat) -> lands n (lvl (S d)) (d_ind_inc deny cf (g, n)) (tret (t_ind_inc cf g)).
Proof.
  intros n d g [L D] B. unfold d_ind_inc, t_ind_inc. cbn [fst snd plainly].
  set (g1 := mkT _ _ _ (u16 (t_depth g + 1)) _). assert (L1 : t_ilen g1 = (if s_ichar cf =? 0 then 0 else s_step cf * 4)) by exact L.
  assert (E : bare \/ u16 (t_depth g + 1) = N.of_nat (S d)).
  { destruct B as [B|B]; [left; exact B|]. destruct D as [D|[D _]]; [left; exact D|right]. rewrite D. replace (N.of_nat d + 1) with (N.of_nat (S d)) by lia. apply u16_small. lia. }
  change (lands n (lvl (S d)) (d_ind_reserve deny cf (u16 (t_depth g + 1) * s_step cf) (g1, n)) (tret (t_ind_reserve cf (u16 (t_depth g + 1) * s_step cf) g1))).
  destruct (reserve_fits (u16 (t_depth g + 1) * s_step cf) g1 n L1) as [-> ->].
  { destruct E as [[E|E]|E]; [left; exact E|right; rewrite E; lia|]. destruct B as [[B|B]|B]; [left; exact B|right; rewrite B; lia|]. right. rewrite E. nia. }
  apply lands_ret. split; [exact L1|]. destruct E as [E|E]; [left; exact E|]. destruct B as [B|B]; [left; exact B|]. right. split; [exact E|exact B].
Qed.
Lemma lvl_dec : forall d g, lvl (S d) g -> lvl d (t_ind_dec g).
Proof.
  intros d g [L D]. split; [exact L|]. destruct D as [D|[D B]]; [left; exact D|right]. split; [|lia]. cbn. rewrite D. unfold u16.
  replace (N.of_nat (S d) + 65535) with (N.of_nat d + 1 * 65536) by lia. rewrite N.mod_add by discriminate. apply u16_small. lia.
Qed.
Lemma lands_indent_n : forall n d g, lvl d g -> lands n (lvl d) (d_output_indent_n take deny cf 1 (g, n)) (t_output_indent_n take cf 1 g).
Proof.
  intros n d g H. unfold d_output_indent_n, t_output_indent_n. pose proof (lands_ret n (lvl d) g H) as R. pose proof (lands_ind_write n 1 d g H) as W.
  assert (Q : s_pretty cf = true -> d_ind_reserve deny cf 1 (g, n) = dret (g, n) /\ t_ind_reserve cf 1 g = g).
  { intros P. apply reserve_fits; [exact (proj1 H)|]. right. specialize (Pr P). lia. }
  destruct (s_pretty cf); [|exact R]. destruct (Q eq_refl) as [-> ->]. exact W.
Qed.

Definition opens (t : token) : bool := match t with Tbegin_arr | Tbegin_obj => true | _ => false end.
Definition closes (t : token) : bool := match t with Tend_arr | Tend_obj => true | _ => false end.
Lemma lands_next : forall t n d d' g, (if closes t then lvl (S d) g else lvl d g) -> d' = (if opens t then S d else d) -> (opens t = true -> bare \/ (S d <= 4)%nat) ->
  lands n (lvl d') (d_next take deny cf t (g, n)) (t_next take cf t g).
Proof.
  intros t n d d' g H -> B. unfold d_next, t_next. cbn [fst]. set (g1 := if t_began g then _ else g).
  match goal with |- context [t_last (fst ?x)] => assert (E : x = (g1, n)) by (subst g1; destruct (t_began g); [destruct (starts_value t)|]; reflexivity); rewrite E end.
  cbn [fst]. clear E.
  assert (S1 : still g g1).
  { subst g1. destruct (t_began g); [|apply still_refl]. destruct (starts_value t); [|split; reflexivity]. exact (still_nl (t_set_began g false)). }
  assert (H1 : if closes t then lvl (S d) g1 else lvl d g1) by (destruct (closes t); eapply lvl_still; eassumption). clearbody g1. clear g H S1.
  apply (lands_then n (lvl (if closes t then S d else d))).
  - destruct (_ && _); [apply lands_indent|apply lands_ret]; destruct (closes t); exact H1.
  - clear g1 H1. intros g H. apply (lands_then n (lvl (if opens t then S d else d))).
    + destruct t; cbn [opens closes] in *; try (apply lands_ret; (eapply lvl_still; [|exact H]); (split; reflexivity)).
      * apply lands_inc; [eapply lvl_still; [|exact H]; split; reflexivity|auto].
      * apply (lands_then n (lvl d)); [|intros g1 H1; apply lands_ret; eapply lvl_still; [|exact H1]; split; reflexivity].
        apply lands_indent. eapply lvl_still; [apply still_nl|]. apply lvl_dec. exact H.
      * apply lands_inc; [eapply lvl_still; [|exact H]; split; reflexivity|auto].
      * apply (lands_then n (lvl d)); [|intros g1 H1; apply lands_ret; eapply lvl_still; [|exact H1]; split; reflexivity].
        apply lands_indent. eapply lvl_still; [apply still_nl|]. apply lvl_dec. exact H.
      * apply lands_indent_n. eapply lvl_still; [|exact H]. split; reflexivity.
      * apply lands_ret. eapply lvl_still; [apply still_nl|]. eapply lvl_still; [|exact H]. split; reflexivity.
    + intros g1 H1. apply lands_ret. eapply lvl_still; [|exact H1]. split; reflexivity.
Qed.

Lemma lands_chars : forall fuel n d i cur g, lvl d g -> lands n (lvl d) (d_put_chars take deny cf fuel i cur (g, n)) (t_put_chars take cf fuel i cur g).
Proof.
  induction fuel as [|fuel IH]; intros n d i cur g H; cbn [d_put_chars t_put_chars]; [apply lands_stop; discriminate|].
  destruct (decode (val_enc cf) (val_ck cf) i cur) as [[ok cp] i']. destruct (negb ok); [apply lands_ret; exact H|].
  destruct (negb (is_good i')); [right; eexists _, _; (split; [|split; reflexivity]); cbn; auto|]. destruct (short_escape cp) as [e|].
  - apply IH. eapply lvl_still; [|exact H]. split; reflexivity.
  - cbn [plainly fst snd]. destruct (ts_fail _); [right; eexists _, _; (split; [|split; reflexivity]); cbn; auto|]. apply IH. eapply lvl_still; [|exact H]. split; reflexivity.
Qed.
Lemma lands_string : forall x n d g, lvl d g -> lands n (lvl d) (d_put_string take deny cf x (g, n)) (t_put_string take cf x g).
Proof.
  intros x n d g H. unfold d_put_string, t_put_string. apply (lands_then n (lvl d)).
  - apply lands_chars. eapply lvl_still; [|exact H]. split; reflexivity.
  - intros g1 H1. apply lands_ret. eapply lvl_still; [|exact H1]. split; reflexivity.
Qed.
Lemma lands_float : forall f n d g, lvl d g -> lands n (lvl d) (quietly (t_put_float take cf f) (g, n)) (t_put_float take cf f g).
Proof.
  intros f n d g H. unfold quietly, t_put_float. cbn [fst snd]. destruct (f64_integral f).
  - assert (E : (exists z, f64_to_int64 f = Ret z) \/ f64_to_int64 f = UB).
    { unfold f64_to_int64, chk64. destruct (f64_trunc f) as [z|]; [|right; reflexivity]. destruct (in_int64 z); [left; eexists; reflexivity|right; reflexivity]. }
    destruct E as [[z ->]| ->]; [|apply lands_stop; discriminate]. apply lands_ret. eapply lvl_still; [|exact H]. split; reflexivity.
  - apply lands_ret. eapply lvl_still; [|exact H]. split; reflexivity.
Qed.

Definition s_ok (v : value) : Prop := forall n d g, lvl d g -> fits d v -> lands n (lvl d) (d_do_dump take deny cf v (g, n)) (t_do_dump take cf v g).
Lemma lands_sep : forall n d g t, opens t = false -> closes t = false -> lvl d g -> lands n (lvl d) (d_next take deny cf t (g, n)) (t_next take cf t g).
Proof. intros n d g t O C H. apply (lands_next t n d); [rewrite C; exact H|rewrite O; reflexivity|rewrite O; discriminate]. Qed.
Lemma lands_arr : forall l, Forall s_ok l -> forall n d g, lvl d g -> Forall (fits d) l -> lands n (lvl d) (d_arr_loop take deny cf l (g, n)) (t_arr_loop take cf l g).
Proof.
  intros l F. induction F as [|v l Hv F IH]; intros n d g H Fi; cbn [t_arr_loop d_arr_loop]; [apply lands_ret; exact H|]. fold (t_arr_loop take cf) (d_arr_loop take deny cf).
  inversion Fi as [|x y F1 F2]; subst. apply (lands_then n (lvl d)); [apply Hv; assumption|]. intros g1 H1. destruct l; [apply lands_ret; exact H1|].
  apply (lands_then n (lvl d)); [apply lands_sep; auto|]. intros g2 H2. apply IH; assumption.
Qed.
Lemma lands_obj : forall l, Forall (fun p => s_ok (snd p)) l -> forall n d g, lvl d g -> Forall (fun p => fits d (snd p)) l -> lands n (lvl d) (d_obj_loop take deny cf l (g, n)) (t_obj_loop take cf l g).
Proof.
  intros l F. induction F as [|[k v] l Hv F IH]; intros n d g H Fi; cbn [t_obj_loop d_obj_loop]; [apply lands_ret; exact H|]. fold (t_obj_loop take cf) (d_obj_loop take deny cf).
  inversion Fi as [|x y F1 F2]; subst. cbn [snd] in *. apply (lands_then n (lvl d)); [apply lands_sep; auto|]. intros g1 H1.
  apply (lands_then n (lvl d)); [apply lands_string; exact H1|]. intros g2 H2. apply (lands_then n (lvl d)); [apply lands_sep; auto|]. intros g3 H3.
  apply (lands_then n (lvl d)); [apply Hv; assumption|]. intros g4 H4. destruct l; [apply lands_ret; exact H4|].
  apply (lands_then n (lvl d)); [apply lands_sep; auto|]. intros g5 H5. apply IH; assumption.
Qed.
Lemma max_in : forall A (f : A -> nat) l x, In x l -> (f x <= fold_right Nat.max 0 (map f l))%nat.
Proof. intros A f l x. induction l as [|y l IH]; [intros []|]. intros [->|H]; cbn; [lia|]. specialize (IH H). lia. Qed.
Lemma fits_arr : forall d l, fits d (VArr l) -> Forall (fits (S d)) l.
Proof.
  intros d l F. apply Forall_forall. intros v I. destruct F as [F|F]; [left; exact F|right]. cbn [height] in F. pose proof (max_in _ height l v I). lia.
Qed.
Lemma fits_obj : forall d l, fits d (VObj l) -> Forall (fun p => fits (S d) (snd p)) l.
Proof.
  intros d l F. apply Forall_forall. intros v I. destruct F as [F|F]; [left; exact F|right]. cbn [height] in F. pose proof (max_in _ (fun p => height (snd p)) l v I). cbn in *. lia.
Qed.
Lemma fits_open : forall d v, fits d v -> (1 <= height v)%nat -> bare \/ (S d <= 4)%nat.
Proof. intros d v [F|F] H; [left; exact F|right; lia]. Qed.

Lemma lands_dump : forall v, s_ok v.
Proof.
  apply value_rect2.
  - intros n d g H F. apply lands_sep; auto.
  - intros z n d g H F. cbn [d_do_dump t_do_dump]. apply (lands_then n (lvl d)); [apply lands_sep; auto|]. intros g1 H1. apply lands_ret. eapply lvl_still; [|exact H1]. split; reflexivity.
  - intros f n d g H F. cbn [d_do_dump t_do_dump]. apply (lands_then n (lvl d)); [apply lands_sep; auto|]. intros g1 H1. apply lands_float. exact H1.
  - intros x n d g H F. cbn [d_do_dump t_do_dump]. apply (lands_then n (lvl d)); [apply lands_sep; auto|]. intros g1 H1. apply lands_string. exact H1.
  - intros [|] n d g H F; apply lands_sep; auto.
  - intros l F n d g H Fi. cbn [d_do_dump t_do_dump]. fold (t_arr_loop take cf) (d_arr_loop take deny cf).
    apply (lands_then n (lvl (S d))); [apply (lands_next Tbegin_arr n d); [exact H|reflexivity|intros _; eapply fits_open; [exact Fi|cbn; lia]]|]. intros g1 H1.
    destruct l as [|v l]; [apply (lands_next Tend_arr n d); [exact H1|reflexivity|discriminate]|].
    apply (lands_then n (lvl (S d))); [apply lands_arr; [exact F|exact H1|apply fits_arr; exact Fi]|]. intros g2 H2.
    apply (lands_next Tend_arr n d); [exact H2|reflexivity|discriminate].
  - intros l F n d g H Fi. cbn [d_do_dump t_do_dump]. fold (t_obj_loop take cf) (d_obj_loop take deny cf).
    apply (lands_then n (lvl (S d))); [apply (lands_next Tbegin_obj n d); [exact H|reflexivity|intros _; eapply fits_open; [exact Fi|cbn; lia]]|]. intros g1 H1.
    destruct l as [|v l]; [apply (lands_next Tend_obj n d); [exact H1|reflexivity|discriminate]|].
    apply (lands_then n (lvl (S d))); [apply lands_obj; [exact F|exact H1|apply fits_obj; exact Fi]|]. intros g2 H2.
    apply (lands_next Tend_obj n d); [exact H2|reflexivity|discriminate].
Qed.
Lemma lvl_init : forall t, lvl 0 (t_init cf t).
Proof. intros t. split; [reflexivity|]. right. split; [reflexivity|lia]. Qed.
Lemma lands_run : forall t n v, fits 0 v -> lands n (lvl 0) (d_run take deny cf t n v) (t_run take cf t v).
Proof.
  intros t n v F. unfold d_run, t_run. apply (lands_then n (lvl 0)); [apply lands_dump; [apply lvl_init|exact F]|]. intros g H. apply lands_sep; auto.
Qed.
End When.

(** ** Deeper *)
Section Deep.
Context {T : Type}.
Variables (take : T -> call -> T * bool) (cf : scfg).
Hypothesis Pr : s_pretty cf = true -> 0 < s_step cf.
Hypothesis Ch : s_ichar cf <> 0.
Hypothesis St : 0 < s_step cf.
Notation all := (fun _ : nat => true).
Notation lvl := (lvl cf (T := T)).
Notation lands := (lands all).

Definition ends (r : outcome unit) : Prop := match r with Ret _ | Throw _ => True | _ => False end.
Lemma ends_then : forall (Y : tres (T := T)) k, ends (snd (tthen Y k)) -> ends (snd Y).
Proof. intros [g r] k H. destruct r; try exact Logic.I; exact H. Qed.
Lemma fail_alloc : forall msg c (g : tst (T := T)) n, d_fail all msg c (g, n) = ((g, S n), Throw EAlloc).
Proof. reflexivity. Qed.

Lemma lands_go : forall n d X Y k k', lands n (lvl d) X Y -> ends (snd (tthen Y k')) -> (forall g, lvl d g -> ends (snd (k' g)) -> snd (k (g, n)) = Throw EAlloc) ->
  snd (dthen X k) = Throw EAlloc.
Proof.
  intros n d X [g r] k k' [(-> & N & H)|(msg & c & I & E & ->)] En K; cbn [fst snd] in *.
  - destruct r as [[]|e| | |]; cbn [tthen dthen snd] in *; try contradiction; [apply K; [apply H; reflexivity|exact En]|]. destruct (N e). reflexivity.
  - subst r. rewrite fail_alloc. reflexivity.
Qed.
Lemma alloc_then : forall (X : dres (T := T)) k, snd X = Throw EAlloc -> snd (dthen X k) = Throw EAlloc.
Proof. intros [[g n] r] k H. cbn [snd] in H. subst r. reflexivity. Qed.

Lemma bare_not : ~ bare cf.
Proof. intros [H|H]; [contradiction|]. rewrite H in St. discriminate. Qed.
Lemma open_deep : forall t n g, opens t = true -> lvl 4 g -> ends (snd (t_next take cf t g)) -> snd (d_next take all cf t (g, n)) = Throw EAlloc.
Proof.
  intros t n g O H En. unfold d_next, t_next in *. cbn [fst]. set (g1 := if t_began g then _ else g) in *.
  match goal with |- context [t_last (fst ?x)] => assert (E : x = (g1, n)) by (subst g1; destruct (t_began g); [destruct (starts_value t)|]; reflexivity); rewrite E end.
  cbn [fst]. clear E.
  assert (S1 : still g g1).
  { subst g1. destruct (t_began g); [|apply still_refl]. destruct (starts_value t); [|split; reflexivity]. exact (still_nl take cf Pr (t_set_began g false)). }
  assert (H1 : lvl 4 g1) by (eapply lvl_still; eassumption). clearbody g1. clear g H S1.
  match type of En with ends (snd (tthen ?a _)) => apply (lands_go n 4 _ a _ _) with (2 := En) end.
  - destruct (_ && _); [apply lands_indent|apply lands_ret]; solve [exact H1|exact Pr|auto].
  - clear g1 H1 En. intros g [L D] _. apply alloc_then. destruct D as [D|[D _]]; [destruct (bare_not D)|].
    assert (A : forall g2 : tst (T := T), still g g2 -> snd (d_ind_inc all cf (g2, n)) = Throw EAlloc).
    { intros g2 [A1 A2]. unfold d_ind_inc, plainly, d_ind_reserve. cbn [fst snd t_ilen]. rewrite A1, L, A2, D.
      destruct (N.eqb_spec (s_ichar cf) 0) as [E|E]; [contradiction|]. change (u16 (N.of_nat 4 + 1)) with 5.
      replace (s_step cf * 4 <? 5 * s_step cf) with true; [reflexivity|]. symmetry. apply N.ltb_lt. lia. }
    destruct t; try discriminate O; apply A; split; reflexivity.
Qed.

Definition deep_ok (v : value) : Prop := forall n d g, lvl d g -> (d <= 4)%nat -> (4 < d + height v)%nat -> ends (snd (t_do_dump take cf v g)) ->
  snd (d_do_dump take all cf v (g, n)) = Throw EAlloc.
Lemma deep_arr : forall l, Forall deep_ok l -> forall n d g, lvl d g -> (d <= 4)%nat -> (4 < d + fold_right Nat.max 0 (map height l))%nat ->
  ends (snd (t_arr_loop take cf l g)) -> snd (d_arr_loop take all cf l (g, n)) = Throw EAlloc.
Proof.
  intros l F. induction F as [|v l Hv F IH]; intros n d g H D4 M En; cbn [t_arr_loop d_arr_loop map fold_right] in *; [lia|]. fold (t_arr_loop take cf) (d_arr_loop take all cf) in *.
  destruct (Nat.leb_spec (d + height v) 4) as [Hs|Hd].
  - match type of En with ends (snd (tthen ?a _)) => apply (lands_go n d _ a _ _) with (2 := En) end.
    { apply lands_dump; [exact Pr|exact H|right; exact Hs]. }
    clear En. intros g1 H1 En. destruct l as [|w l]; [cbn in M; lia|].
    match type of En with ends (snd (tthen ?a _)) => apply (lands_go n d _ a _ _) with (2 := En) end.
    { apply lands_sep; solve [auto]. }
    clear En. intros g2 H2 En. apply (IH n d); try assumption. lia.
  - apply alloc_then. apply (Hv n d); try assumption. apply ends_then in En. exact En.
Qed.
Lemma deep_obj : forall l, Forall (fun p => deep_ok (snd p)) l -> forall n d g, lvl d g -> (d <= 4)%nat -> (4 < d + fold_right Nat.max 0 (map (fun p => height (snd p)) l))%nat ->
  ends (snd (t_obj_loop take cf l g)) -> snd (d_obj_loop take all cf l (g, n)) = Throw EAlloc.
Proof.
  intros l F. induction F as [|[k v] l Hv F IH]; intros n d g H D4 M En; cbn [t_obj_loop d_obj_loop map fold_right snd] in *; [lia|]. fold (t_obj_loop take cf) (d_obj_loop take all cf) in *.
  match type of En with ends (snd (tthen ?a _)) => apply (lands_go n d _ a _ _) with (2 := En) end; [apply lands_sep; auto|]. clear g H En. intros g H En.
  match type of En with ends (snd (tthen ?a _)) => apply (lands_go n d _ a _ _) with (2 := En) end; [apply lands_string; auto|]. clear g H En. intros g H En.
  match type of En with ends (snd (tthen ?a _)) => apply (lands_go n d _ a _ _) with (2 := En) end; [apply lands_sep; auto|]. clear g H En. intros g H En.
  destruct (Nat.leb_spec (d + height v) 4) as [Hs|Hd].
  - match type of En with ends (snd (tthen ?a _)) => apply (lands_go n d _ a _ _) with (2 := En) end.
    { apply lands_dump; [exact Pr|exact H|right; exact Hs]. }
    clear En. intros g1 H1 En. destruct l as [|w l]; [cbn in M; lia|].
    match type of En with ends (snd (tthen ?a _)) => apply (lands_go n d _ a _ _) with (2 := En) end.
    { apply lands_sep; solve [auto]. }
    clear En. intros g2 H2 En. apply (IH n d); try assumption. lia.
  - apply alloc_then. apply (Hv n d); try assumption. apply ends_then in En. exact En.
Qed.
Lemma deep_dump : forall v, deep_ok v.
Proof.
  apply value_rect2; try (intros; intros n d g H D4 M En; cbn [height] in M; lia).
  - intros l F n d g H D4 M En. cbn [d_do_dump t_do_dump height] in *. fold (t_arr_loop take cf) (d_arr_loop take all cf) in *.
    destruct (Nat.eq_dec d 4) as [->|D].
    { apply alloc_then. apply open_deep; [reflexivity|exact H|]. apply ends_then in En. exact En. }
    match type of En with ends (snd (tthen ?a _)) => apply (lands_go n (S d) _ a _ _) with (2 := En) end.
    { apply (lands_next take all cf Pr Tbegin_arr n d); [exact H|reflexivity|]. intros _. right. lia. }
    clear En. intros g1 H1 En. destruct l as [|v l]; [cbn in M; lia|]. apply alloc_then. apply (deep_arr _ F n (S d)); [exact H1|lia|lia|]. apply ends_then in En. exact En.
  - intros l F n d g H D4 M En. cbn [d_do_dump t_do_dump height] in *. fold (t_obj_loop take cf) (d_obj_loop take all cf) in *.
    destruct (Nat.eq_dec d 4) as [->|D].
    { apply alloc_then. apply open_deep; [reflexivity|exact H|]. apply ends_then in En. exact En. }
    match type of En with ends (snd (tthen ?a _)) => apply (lands_go n (S d) _ a _ _) with (2 := En) end.
    { apply (lands_next take all cf Pr Tbegin_obj n d); [exact H|reflexivity|]. intros _. right. lia. }
    clear En. intros g1 H1 En. destruct l as [|v l]; [cbn in M; lia|]. apply alloc_then. apply (deep_obj _ F n (S d)); [exact H1|lia|lia|]. apply ends_then in En. exact En.
Qed.
Lemma deep_run : forall t n v, (4 < height v)%nat -> ends (snd (t_run take cf t v)) -> snd (d_run take all cf t n v) = Throw EAlloc.
Proof.
  intros t n v M En. unfold d_run, t_run in *. apply alloc_then. apply (deep_dump v n 0%nat); [apply lvl_init; first [exact take|exact Pr|exact (fun _ => true)]|lia|exact M|]. apply ends_then in En. exact En.
Qed.
End Deep.
