(** Proofs about iterators. *)
From Coq Require Import Lia ZifyBool ZifyNat ZifyN.
From Verif Require Import Base Value ValueOps Iterator SpecGrammar SpecText ObjFacts SpecValue ValueProofs SpecIter.

Lemma skipn_here : forall A (l1 l2 : list A), skipn (length l1) (l1 ++ l2) = l2.
Proof. induction l1; intros; [reflexivity|]. cbn [length app skipn]. auto. Qed.
Lemma skipn_mid : forall A (l1 l2 : list A) y, skipn (S (length l1)) (l1 ++ y :: l2) = l2.
Proof. induction l1; intros; [reflexivity|]. cbn [length app skipn] in *. auto. Qed.
Lemma firstn_here : forall A (l1 l2 : list A), firstn (length l1) (l1 ++ l2) = l1.
Proof. induction l1; intros; [reflexivity|]. cbn [length app firstn]. f_equal. auto. Qed.
Lemma firstn_mid : forall A (l1 l2 : list A) y, firstn (S (length l1)) (l1 ++ y :: l2) = l1 ++ [y].
Proof. induction l1; intros; [reflexivity|]. cbn [length app firstn] in *. f_equal. auto. Qed.

Section It.
Variable mem : addr -> value.

Local Notation at_pos := (at_pos mem).

Lemma elements_size : forall v es, elements v es -> N.of_nat (length es) = v_size v.
Proof. intros v es H. inversion H; subst; cbn [v_size length]; unfold len; rewrite ?map_length; reflexivity. Qed.

Lemma elements_ex : forall v, exists es, elements v es.
Proof. intros []; eexists; constructor. Qed.

Lemma elements_det : forall v es es', elements v es -> elements v es' -> es = es'.
Proof. intros v es es' H H'. inversion H; subst; inversion H'; subst; reflexivity. Qed.

Lemma begin_pos : forall a, exists it, v_begin mem a = Ret it /\ at_pos a 0 it.
Proof.
  intro a. unfold v_begin, set_begin, check_data, at_pos, it_new. cbn [it_val bind].
  destruct (mem a); eexists; split; reflexivity || split; reflexivity.
Qed.

Lemma end_pos : forall a, exists it, v_end mem a = Ret it /\ at_pos a (N.to_nat (v_size (mem a))) it.
Proof.
  intro a. unfold v_end, set_end, check_data, at_pos, it_new. cbn [it_val bind].
  destruct (mem a); eexists; (split; [reflexivity|]); (split; [reflexivity|]); try reflexivity;
    cbn [v_size it_obj it_arr set_obj set_arr]; unfold len; rewrite Nat2N.id; reflexivity.
Qed.

Lemma eq_pos : forall a n m it jt, at_pos a n it -> at_pos a m jt ->
  (type_of (mem a) = TNull -> n = m) -> it_eq mem it jt = Ret (Nat.eqb n m).
Proof.
  intros a n m it jt [V P] [V' P'] Hn. unfold it_eq. rewrite V, V', N.eqb_refl.
  destruct (mem a); rewrite P, P'; try reflexivity; cbn [type_of] in Hn;
    try (rewrite (Hn eq_refl), Nat.eqb_refl; reflexivity);
    f_equal; destruct (Nat.eqb_spec n m); destruct (Z.eqb_spec (Z.of_nat n) (Z.of_nat m)); lia || reflexivity.
Qed.

Lemma eq_other : forall it jt, it_val it <> it_val jt -> it_eq mem it jt = Ret false.
Proof.
  intros it jt H. unfold it_eq. destruct (it_val it) as [a|]; [|reflexivity].
  destruct (it_val jt) as [b|]; [|reflexivity]. destruct (N.eqb_spec a b); [congruence|reflexivity].
Qed.

(** within the range of positions a scalar's counter never overflows *)
Lemma step_pos : forall a n it off, at_pos a n it -> (0 <= Z.of_nat n + off <= Z.of_N (v_size (mem a)))%Z ->
  exists jt, it_step mem off it = Ret jt /\ at_pos a (Z.to_nat (Z.of_nat n + off)) jt.
Proof.
  intros a n it off [V P] H. unfold it_step, check_data, at_pos. rewrite V. cbn [bind].
  assert (C : v_size (mem a) = 1 -> chk64 (Z.of_nat n + off) = Ret (Z.of_nat n + off)%Z).
  { intro E. unfold chk64, in_int64, int64_min, int64_max. rewrite E in H.
    replace (_ && _)%bool with true; [reflexivity|]. symmetry. apply andb_true_intro. lia. }
  destruct (mem a); rewrite ?P; cbn [v_size] in *; unfold len in *; cbn [advance];
    try (rewrite C by reflexivity; cbn [bind]; eexists; split; [reflexivity|];
         split; [assumption|]; cbn [set_prim it_prim]; lia).
  - eexists. split; [reflexivity|]. split; assumption.
  - replace (_ && _)%bool with true by lia. cbn [bind]. eexists. split; [reflexivity|]. split; [assumption|reflexivity].
  - replace (_ && _)%bool with true by lia. cbn [bind]. eexists. split; [reflexivity|]. split; [assumption|reflexivity].
Qed.

Lemma incr_pos : forall a n it, at_pos a n it -> N.of_nat n < v_size (mem a) ->
  exists jt, it_incr mem it = Ret jt /\ at_pos a (S n) jt.
Proof.
  intros a n it H L. destruct (step_pos a n it 1 H) as (jt & E & P); [lia|]. exists jt. split; [exact E|].
  replace (S n) with (Z.to_nat (Z.of_nat n + 1)) by lia. assumption.
Qed.

Lemma decr_pos : forall a n it, at_pos a (S n) it -> N.of_nat n < v_size (mem a) ->
  exists jt, it_decr mem it = Ret jt /\ at_pos a n jt.
Proof.
  intros a n it H L. destruct (step_pos a (S n) it (-1) H) as (jt & E & P); [lia|]. exists jt. split; [exact E|].
  replace n with (Z.to_nat (Z.of_nat (S n) + -1)) by lia. assumption.
Qed.

(** moving an iterator of a container outside its range *)
Lemma step_out : forall a n it off, at_pos a n it -> container (mem a) ->
  (Z.of_nat n + off < 0 \/ Z.of_N (v_size (mem a)) < Z.of_nat n + off)%Z -> it_step mem off it = UB.
Proof.
  intros a n it off [V P] [T|T] H; unfold it_step, check_data; rewrite V; cbn [bind];
    destruct (mem a); try discriminate; rewrite P; cbn [v_size] in H; unfold len in H; cbn [advance];
    replace (_ && _)%bool with false by lia; reflexivity.
Qed.

Lemma nth_map : forall A B (f : A -> B) l n y, nth_error (map f l) n = Some y -> exists x, nth_error l n = Some x /\ y = f x.
Proof.
  induction l as [|x l IH]; intros [|n] y H; cbn [map nth_error] in *; try discriminate.
  - exists x. split; congruence.
  - apply IH. assumption.
Qed.

Lemma read_pos : forall a n it es k x, ordered (mem a) -> at_pos a n it -> elements (mem a) es -> nth_error es n = Some (k, x) ->
  it_read mem it = Ret x /\
  match k with
  | Some k => it_key mem it = Ret k /\ it_value mem it = Ret [AtKey k]
  | None => it_key mem it = Throw no_key /\
            (type_of (mem a) = TArray -> it_value mem it = Ret [AtIdx (N.of_nat n)]) /\
            (type_of (mem a) <> TArray -> it_value mem it = Ret [])
  end.
Proof.
  intros a n it es k x Ho [V P] He Hn.
  assert (S1 : forall v, (exists z, v = VInt z) \/ (exists f, v = VFloat f) \/ (exists s, v = VStr s) \/ (exists b, v = VBool b) ->
    mem a = v -> es = [(None, v)] -> it_prim it = Z.of_nat n -> it_read mem it = Ret x /\
    match k with
    | Some k => it_key mem it = Ret k /\ it_value mem it = Ret [AtKey k]
    | None => it_key mem it = Throw no_key /\
            (type_of (mem a) = TArray -> it_value mem it = Ret [AtIdx (N.of_nat n)]) /\
            (type_of (mem a) <> TArray -> it_value mem it = Ret [])
    end).
  { intros v Hv E Ees Hp. rewrite Ees in Hn. destruct n as [|[|n]]; try discriminate. cbn [nth_error] in Hn.
    injection Hn as <- <-. unfold it_read, it_key, it_value, check_data, check_iterator. rewrite V. cbn [bind]. rewrite E.
    destruct Hv as [[? ->]|[[? ->]|[[? ->]|[? ->]]]]; rewrite Hp; cbn [bind Z.eqb Z.of_nat via fst snd type_of];
      (split; [reflexivity|]; split; [reflexivity|]; split; [discriminate|reflexivity]). }
  destruct (mem a) as [|z|f|s|l|m|b] eqn:E; inversion He; subst.
  - destruct n; discriminate.
  - apply (S1 (VInt z)); eauto 10.
  - apply (S1 (VFloat f)); eauto 10.
  - apply (S1 (VStr s)); eauto 10.
  - clear S1. apply nth_map in Hn. destruct Hn as (y & Hn & Hy). injection Hy as -> ->.
    assert (L : (n < length l)%nat) by (apply nth_error_Some; congruence).
    unfold it_read, it_key, it_value, check_data, check_iterator. rewrite V. cbn [bind]. rewrite E, P. cbn [pos_eq bind].
    destruct (Nat.eqb_spec n (length l)); [lia|]. cbn [bind]. rewrite Hn. cbn [bind via via1]. 
    unfold via_at_idx, in_elem, len. rewrite Nat2N.id, Hn. destruct (N.leb_spec (N.of_nat (length l)) (N.of_nat n)); [lia|].
    split; [reflexivity|]. split; [reflexivity|]. split; [reflexivity|]. cbn [type_of]. congruence.
  - clear S1. apply nth_map in Hn. destruct Hn as ([k' y] & Hn & Hy). cbn [fst snd] in Hy. injection Hy as -> ->.
    assert (L : (n < length m)%nat) by (apply nth_error_Some; congruence).
    unfold it_read, it_key, it_value, check_data, check_iterator. rewrite V. cbn [bind]. rewrite E, P. cbn [pos_eq bind].
    destruct (Nat.eqb_spec n (length m)); [lia|]. cbn [bind]. rewrite Hn. cbn [bind via via1].
    inversion Ho; subst. unfold via_at_key, in_member.
    assert (F : obj_find k' m = Some y) by (apply find_in; [assumption|]; eapply nth_error_In; eassumption).
    rewrite F. split; [reflexivity|]. split; reflexivity.
  - apply (S1 (VBool b)); eauto 10.
Qed.

(** at the end (and for a null value everywhere) access throws *)
Lemma read_end : forall a n it es, at_pos a n it -> elements (mem a) es -> n = length es ->
  exists e, out_of_range (mem a) e /\ it_read mem it = Throw e /\ it_key mem it = Throw e /\ it_value mem it = Throw e.
Proof.
  intros a n it es [V P] He ->. unfold it_read, it_key, it_value, check_data, check_iterator. rewrite V. cbn [bind].
  destruct (mem a) eqn:E; inversion He; subst; cbn [length] in P; rewrite ?map_length in P; rewrite ?P;
    cbn [pos_eq bind]; rewrite ?Nat.eqb_refl; cbn [bind];
    (eexists; split; [first [constructor; fail|apply or_scalar; split; [intros [X|X]; discriminate|discriminate]]|]; repeat split).
Qed.

Lemma walk_pos : forall a n m it, at_pos a m it -> N.of_nat (m + n) <= v_size (mem a) ->
  exists jt, walk n (it_incr mem) it = Ret jt /\ at_pos a (m + n) jt.
Proof.
  intros a n. induction n as [|n IH]; intros m it P L; cbn [walk].
  - exists it. rewrite Nat.add_0_r. auto.
  - destruct (incr_pos a m it P) as (jt & E & P'); [lia|]. rewrite E. cbn [bind].
    destruct (IH (S m) jt P') as (kt & E' & P2); [lia|]. exists kt. split; [assumption|].
    rewrite Nat.add_succ_r. assumption.
Qed.

Lemma walk_back : forall a n m it, at_pos a (n + m) it -> N.of_nat (n + m) <= v_size (mem a) ->
  exists jt, walk n (it_decr mem) it = Ret jt /\ at_pos a m jt.
Proof.
  intros a n. induction n as [|n IH]; intros m it P L; cbn [walk].
  - exists it. auto.
  - destruct (decr_pos a (n + m) it P) as (jt & E & P'); [lia|]. rewrite E. cbn [bind]. apply IH; [assumption|lia].
Qed.

Lemma size_null : forall a, type_of (mem a) = TNull -> v_size (mem a) = 0.
Proof. intros a H. destruct (mem a); try discriminate. reflexivity. Qed.

(** ** Forward *)
Lemma forward : forall a es n, ordered (mem a) -> elements (mem a) es -> (n <= length es)%nat ->
  exists b e it, v_begin mem a = Ret b /\ v_end mem a = Ret e /\ walk n (it_incr mem) b = Ret it /\
  match nth_error es n with
  | Some (k, x) =>
      it_eq mem it e = Ret false /\ it_read mem it = Ret x /\
      match k with
      | Some k => it_key mem it = Ret k /\ it_value mem it = Ret [AtKey k]
      | None => it_key mem it = Throw no_key /\
                (type_of (mem a) = TArray -> it_value mem it = Ret [AtIdx (N.of_nat n)]) /\
                (type_of (mem a) <> TArray -> it_value mem it = Ret [])
      end
  | None => it_eq mem it e = Ret true
  end.
Proof.
  intros a es n Ho He L. destruct (begin_pos a) as (b & Eb & Pb). destruct (end_pos a) as (e & Ee & Pe).
  pose proof (elements_size _ _ He) as Hs.
  destruct (walk_pos a n 0 b Pb) as (it & Ei & Pi); [lia|].
  exists b, e, it. split; [assumption|]. split; [assumption|]. split; [assumption|]. cbn [Nat.add] in Pi.
  assert (Q : it_eq mem it e = Ret (Nat.eqb n (N.to_nat (v_size (mem a))))).
  { eapply eq_pos; [eassumption|eassumption|]. intro T. apply size_null in T. lia. }
  destruct (nth_error es n) as [[k x]|] eqn:E.
  - split.
    + rewrite Q. assert (n < length es)%nat by (apply nth_error_Some; congruence). f_equal. apply Nat.eqb_neq. lia.
    + eapply read_pos; eassumption.
  - rewrite Q. apply nth_error_None in E. f_equal. apply Nat.eqb_eq. lia.
Qed.

(** ** Reverse *)
Lemma backward : forall a es n, ordered (mem a) -> elements (mem a) es -> (n <= length es)%nat ->
  exists b e it, v_rbegin mem a = Ret b /\ v_rend mem a = Ret e /\ walk n (rit_incr mem) b = Ret it /\
  match nth_error (rev es) n with
  | Some (k, x) =>
      it_eq mem it e = Ret false /\ rit_read mem it = Ret x /\
      match k with Some k => rit_key mem it = Ret k | None => rit_key mem it = Throw no_key end
  | None => it_eq mem it e = Ret true
  end.
Proof.
  intros a es n Ho He L. destruct (begin_pos a) as (e & Ee & Pe). destruct (end_pos a) as (b & Eb & Pb).
  pose proof (elements_size _ _ He) as Hs. replace (N.to_nat (v_size (mem a))) with (n + (length es - n))%nat in Pb by lia.
  destruct (walk_back a n (length es - n) b Pb) as (it & Ei & Pi); [lia|].
  exists b, e, it. split; [assumption|]. split; [assumption|]. split; [assumption|].
  assert (Q : it_eq mem it e = Ret (Nat.eqb (length es - n) 0)).
  { eapply eq_pos; [eassumption|eassumption|]. intro T. apply size_null in T. lia. }
  destruct (nth_error (rev es) n) as [[k x]|] eqn:E.
  - assert (Ln : (n < length es)%nat) by (rewrite <- (rev_length es); apply nth_error_Some; congruence).
    assert (E2 : nth_error es (length es - S n) = Some (k, x)).
    { rewrite <- E. rewrite (nth_error_nth' es (None, VNull)) by lia.
      rewrite (nth_error_nth' (rev es) (None, VNull)) by (rewrite rev_length; lia). f_equal. symmetry. apply rev_nth. lia. }
    split; [rewrite Q; f_equal; apply Nat.eqb_neq; lia|].
    replace (length es - n)%nat with (S (length es - S n)) in Pi by lia.
    destruct (decr_pos a (length es - S n) it Pi) as (p & Ep & Pp); [lia|].
    unfold rit_read, rit_key. rewrite Ep. cbn [bind].
    destruct (read_pos a _ p es k x Ho Pp He E2) as [R1 R2]. split; [assumption|]. destruct k; apply R2.
  - rewrite Q. apply nth_error_None in E. rewrite rev_length in E. f_equal. apply Nat.eqb_eq. lia.
Qed.

(** ** Loops *)
Lemma loop_fwd : forall a es, ordered (mem a) -> elements (mem a) es ->
  forall b e, v_begin mem a = Ret b -> v_end mem a = Ret e ->
  forall fuel, (length es < fuel)%nat -> loop mem fuel (it_incr mem) (it_read mem) b e = Ret (map snd es).
Proof.
  intros a es Ho He b e Eb Ee. destruct (begin_pos a) as (b' & Eb' & Pb). destruct (end_pos a) as (e' & Ee' & Pe).
  rewrite Eb in Eb'. injection Eb' as <-. rewrite Ee in Ee'. injection Ee' as <-.
  pose proof (elements_size _ _ He) as Hs.
  assert (G : forall fuel n it, at_pos a n it -> (n <= length es)%nat -> (length es - n < fuel)%nat ->
             loop mem fuel (it_incr mem) (it_read mem) it e = Ret (map snd (skipn n es))).
  { induction fuel as [|fuel IH]; intros n it P L F; [lia|]. cbn [loop].
    rewrite (eq_pos a n (N.to_nat (v_size (mem a))) it e P Pe) by (intro T; apply size_null in T; lia). cbn [bind].
    destruct (Nat.eqb_spec n (N.to_nat (v_size (mem a)))) as [D|D].
    - rewrite skipn_all2 by lia. reflexivity.
    - destruct (nth_error es n) as [[k x]|] eqn:E; [|apply nth_error_None in E; lia].
      destruct (read_pos a n it es k x Ho P He E) as [R _]. rewrite R. cbn [bind].
      destruct (incr_pos a n it P) as (jt & Ej & Pj); [lia|]. rewrite Ej. cbn [bind].
      rewrite (IH (S n) jt Pj) by lia. cbn [bind]. f_equal.
      apply nth_error_split in E. destruct E as (l1 & l2 & -> & <-).
      rewrite skipn_here, skipn_mid. reflexivity. }
  intros fuel F. rewrite (G fuel 0%nat b Pb) by lia. reflexivity.
Qed.

Lemma loop_bwd : forall a es, ordered (mem a) -> elements (mem a) es ->
  forall b e, v_rbegin mem a = Ret b -> v_rend mem a = Ret e ->
  forall fuel, (length es < fuel)%nat -> loop mem fuel (rit_incr mem) (rit_read mem) b e = Ret (map snd (rev es)).
Proof.
  intros a es Ho He b e Eb Ee. destruct (begin_pos a) as (e' & Ee' & Pe). destruct (end_pos a) as (b' & Eb' & Pb).
  unfold v_rbegin in Eb. unfold v_rend in Ee.
  rewrite Eb in Eb'. injection Eb' as <-. rewrite Ee in Ee'. injection Ee' as <-.
  pose proof (elements_size _ _ He) as Hs.
  assert (G : forall fuel n it, at_pos a n it -> (n <= length es)%nat -> (n < fuel)%nat ->
             loop mem fuel (rit_incr mem) (rit_read mem) it e = Ret (map snd (rev (firstn n es)))).
  { induction fuel as [|fuel IH]; intros n it P L F; [lia|]. cbn [loop].
    rewrite (eq_pos a n 0 it e P Pe) by (intro T; apply size_null in T; lia). cbn [bind].
    destruct n as [|n]; cbn [Nat.eqb]; [reflexivity|].
    destruct (nth_error es n) as [[k x]|] eqn:E; [|apply nth_error_None in E; lia].
    destruct (decr_pos a n it P) as (p & Ep & Pp); [lia|].
    unfold rit_read at 1, rit_incr at 1. rewrite Ep. cbn [bind].
    destruct (read_pos a n p es k x Ho Pp He E) as [R _]. rewrite R. cbn [bind].
    rewrite (IH n p Pp) by lia. cbn [bind]. f_equal.
    apply nth_error_split in E. destruct E as (l1 & l2 & -> & <-).
    rewrite firstn_here, firstn_mid, rev_app_distr. reflexivity. }
  intros fuel F. rewrite (G fuel (length es) b) by (try lia; replace (length es) with (N.to_nat (v_size (mem a))) by lia; assumption).
  rewrite firstn_all. reflexivity.
Qed.

Lemma distance_size : forall a b e, v_begin mem a = Ret b -> v_end mem a = Ret e ->
  forall fuel, (N.to_nat (v_size (mem a)) < fuel)%nat -> distance mem fuel b e = Ret (v_size (mem a)).
Proof.
  intros a b e Eb Ee. destruct (begin_pos a) as (b' & Eb' & Pb). destruct (end_pos a) as (e' & Ee' & Pe).
  rewrite Eb in Eb'. injection Eb' as <-. rewrite Ee in Ee'. injection Ee' as <-.
  assert (G : forall fuel n it, at_pos a n it -> N.of_nat n <= v_size (mem a) -> (N.to_nat (v_size (mem a)) - n < fuel)%nat ->
             distance mem fuel it e = Ret (v_size (mem a) - N.of_nat n)).
  { induction fuel as [|fuel IH]; intros n it P L F; [lia|]. cbn [distance].
    rewrite (eq_pos a n (N.to_nat (v_size (mem a))) it e P Pe) by (intro T; apply size_null in T; lia). cbn [bind].
    destruct (Nat.eqb_spec n (N.to_nat (v_size (mem a)))) as [D|D].
    - f_equal. lia.
    - destruct (incr_pos a n it P) as (jt & Ej & Pj); [lia|]. rewrite Ej. cbn [bind].
      rewrite (IH (S n) jt Pj) by lia. cbn [bind]. f_equal. lia. }
  intros fuel F. rewrite (G fuel 0%nat b Pb) by lia. f_equal. lia.
Qed.

(** ** find *)
Lemma find_pos_nth : forall A k (m : list (str * A)),
  match obj_find k m with
  | Some x => nth_error m (find_pos k m) = Some (k, x)
  | None => find_pos k m = length m
  end.
Proof.
  intros A k m. induction m as [|[k' v'] m IH]; cbn [obj_find find_pos length]; [reflexivity|].
  destruct (str_eqb k k') eqn:E.
  - apply str_eqb_iff in E. subst. reflexivity.
  - destruct (obj_find k m); cbn [nth_error]; [assumption|congruence].
Qed.

Lemma find_iter : forall a k, ordered (mem a) ->
  exists it e, v_find mem a k = Ret it /\ v_end mem a = Ret e /\
  ((v_count k (mem a) = 1 /\ it_eq mem it e = Ret false /\ it_key mem it = Ret k /\
    exists x, it_read mem it = Ret x /\ snd (via_at_key k (fun x => (x, Ret x)) (mem a)) = Ret x)
   \/ (v_count k (mem a) = 0 /\ it_eq mem it e = Ret true /\
       exists e', bad_subscript (AtKey k) (mem a) e' /\ snd (via_at_key k (fun x => (x, Ret x)) (mem a)) = Throw e')).
Proof.
  intros a k Ho. destruct (end_pos a) as (e & Ee & Pe).
  assert (N1 : type_of (mem a) <> TObject -> exists it e, v_find mem a k = Ret it /\ v_end mem a = Ret e /\
    v_count k (mem a) = 0 /\ it_eq mem it e = Ret true /\
       exists e', bad_subscript (AtKey k) (mem a) e' /\ snd (via_at_key k (fun x => (x, Ret x)) (mem a)) = Throw e').
  { intro T. exists e, e. split.
    - unfold v_find. destruct (mem a); try assumption. cbn [type_of] in T. congruence.
    - split; [assumption|]. split; [destruct (mem a); reflexivity || (cbn [type_of] in T; congruence)|]. split.
      + rewrite (eq_pos a _ _ e e Pe Pe) by reflexivity. rewrite Nat.eqb_refl. reflexivity.
      + exists (EKey "operator[] called on a non-object object"). split; [apply bs_at_key; assumption|].
        destruct (mem a); try reflexivity. cbn [type_of] in T. congruence. }
  destruct (mem a) as [|z|f|s|l|m|b] eqn:E;
    try (destruct N1 as (it & e' & H1 & H2 & H3); [discriminate|]; exists it, e'; split; [assumption|]; split; [assumption|]; right; exact H3).
  clear N1. unfold v_find. rewrite E. exists (set_obj (it_new a) (find_pos k m)), e. split; [reflexivity|]. split; [assumption|].
  assert (P : at_pos a (find_pos k m) (set_obj (it_new a) (find_pos k m))).
  { split; [reflexivity|]. rewrite E. reflexivity. }
  pose proof (find_pos_nth _ k m) as F.
  assert (Q : it_eq mem (set_obj (it_new a) (find_pos k m)) e = Ret (Nat.eqb (find_pos k m) (length m))).
  { erewrite eq_pos; [|exact P|exact Pe|intro T; rewrite E in T; discriminate]. cbn [v_size]. unfold len.
    rewrite Nat2N.id. reflexivity. }
  rewrite Q. cbn [v_count]. unfold via_at_key, in_member. destruct (obj_find k m) as [x|] eqn:Ef.
  - left. split; [reflexivity|].
    assert (L : (find_pos k m < length m)%nat) by (apply nth_error_Some; congruence).
    split; [f_equal; apply Nat.eqb_neq; lia|].
    assert (Hn : nth_error (map (fun p => (Some (fst p), snd p)) m) (find_pos k m) = Some (Some k, x)).
    { erewrite map_nth_error by exact F. reflexivity. }
    assert (Ho' : ordered (mem a)) by (rewrite E; assumption).
    assert (He : elements (mem a) (map (fun p => (Some (fst p), snd p)) m)) by (rewrite E; constructor).
    destruct (read_pos a _ _ _ _ _ Ho' P He Hn) as (R & K & _). split; [assumption|].
    exists x. split; [assumption|]. reflexivity.
  - right. split; [reflexivity|]. split; [rewrite F, Nat.eqb_refl; reflexivity|].
    eexists. split; [|reflexivity]. apply bs_at_key_range. apply find_no. assumption.
Qed.

(** ** Arithmetic, comparison *)
Lemma obj_arith : forall a it, it_val it = Some a -> type_of (mem a) = TObject ->
  (forall off, it_add mem off it = Throw no_offset) /\
  (forall off, (off <> -9223372036854775808)%Z -> (-9223372036854775808 <= off <= 9223372036854775807)%Z -> it_sub mem off it = Throw no_offset) /\
  (forall jt, it_val jt = Some a -> it_lt mem it jt = Throw no_order /\ it_diff mem it jt = Throw no_distance).
Proof.
  intros a it V T. assert (A : forall off, it_add mem off it = Throw no_offset).
  { intro off. unfold it_add, check_data. rewrite V. cbn [bind]. destruct (mem a); try discriminate.
    reflexivity. }
  split; [assumption|]. split.
  - intros off H1 H2. unfold it_sub, chk64, in_int64, int64_min, int64_max. replace (_ && _)%bool with true by lia. apply A.
  - intros jt Hj. unfold it_lt, it_diff, check_data. rewrite V, Hj. cbn [bind]. rewrite N.eqb_refl. cbn [negb].
    destruct (mem a); try discriminate. split; reflexivity.
Qed.

Lemma cross : forall it jt a b, it_val it = Some a -> it_val jt = Some b -> a <> b ->
  it_eq mem it jt = Ret false /\ it_lt mem it jt = Throw no_order_across /\ it_diff mem it jt = Throw no_distance_across.
Proof.
  intros it jt a b V V' N. split; [apply eq_other; congruence|]. apply N.eqb_neq in N.
  split; unfold it_lt, it_diff, check_data; rewrite V, V'; cbn [bind]; rewrite N; reflexivity.
Qed.

Lemma empty_it : forall it, it_val it = None ->
  it_read mem it = Throw no_value /\ it_value mem it = Throw no_value /\ it_key mem it = Throw no_value /\
  it_incr mem it = Throw no_value /\ it_decr mem it = Throw no_value /\ (forall off, it_add mem off it = Throw no_value) /\
  (forall jt, it_eq mem it jt = Ret false /\ it_lt mem it jt = Throw no_value /\ it_diff mem it jt = Throw no_value) /\
  (forall jt, it_eq mem jt it = Ret false /\ it_lt mem jt it = Throw no_value /\ it_diff mem jt it = Throw no_value).
Proof.
  intros it V. unfold it_read, it_value, it_key, it_incr, it_decr, it_step, it_add, it_eq, it_lt, it_diff, check_data. rewrite V. cbn [bind].
  repeat split; try (destruct (it_val jt); reflexivity).
Qed.

Lemma incr_decr : forall a n it, at_pos a n it -> N.of_nat n < v_size (mem a) ->
  exists jt, it_incr mem it = Ret jt /\ it_decr mem jt = Ret it.
Proof.
  intros a n it [V P] L. unfold it_incr, it_decr, it_step, check_data. rewrite V. cbn [bind].
  destruct it as [iv ia io ip]. cbn [it_val it_arr it_obj it_prim] in *. subst iv.
  destruct (mem a) eqn:E; cbn [v_size] in L; unfold len in L; try lia;
    try (subst ip; assert (n = O) by lia; subst n; eexists; split; [reflexivity|]; unfold set_prim; cbn [it_val bind]; rewrite E; reflexivity).
  - subst ia. cbn [advance]. replace (_ && _)%bool with true by lia. cbn [bind]. eexists. split; [reflexivity|].
    unfold set_arr. cbn [it_val it_arr it_obj it_prim bind]. rewrite E. cbn [advance].
    replace (_ && _)%bool with true by lia. cbn [bind]. do 3 f_equal. lia.
  - subst io. cbn [advance]. replace (_ && _)%bool with true by lia. cbn [bind]. eexists. split; [reflexivity|].
    unfold set_obj. cbn [it_val it_arr it_obj it_prim bind]. rewrite E. cbn [advance].
    replace (_ && _)%bool with true by lia. cbn [bind]. do 3 f_equal. lia.
Qed.

Lemma arr_arith : forall a n m it jt, type_of (mem a) = TArray -> at_pos a n it -> at_pos a m jt ->
  it_diff mem it jt = Ret (Z.of_nat n - Z.of_nat m)%Z /\ it_lt mem it jt = Ret (Nat.ltb n m) /\
  (forall off, ((0 <= Z.of_nat n + off <= Z.of_N (v_size (mem a)))%Z ->
      exists kt, it_add mem off it = Ret kt /\ at_pos a (Z.to_nat (Z.of_nat n + off)) kt) /\
    (~ (0 <= Z.of_nat n + off <= Z.of_N (v_size (mem a)))%Z -> it_add mem off it = UB)).
Proof.
  intros a n m it jt T P P'.
  assert (S1 : forall off, it_add mem off it = it_step mem off it).
  { intro off. unfold it_add, it_step. destruct P as [V _]. unfold check_data. rewrite V. cbn [bind].
    destruct (mem a); try discriminate. reflexivity. }
  split; [|split].
  - destruct P as [V P]. destruct P' as [V' P']. unfold it_diff, check_data. rewrite V, V'. cbn [bind]. rewrite N.eqb_refl. cbn [negb].
    destruct (mem a); try discriminate. rewrite P, P'. reflexivity.
  - destruct P as [V P]. destruct P' as [V' P']. unfold it_lt, check_data. rewrite V, V'. cbn [bind]. rewrite N.eqb_refl. cbn [negb].
    destruct (mem a); try discriminate. rewrite P, P'. reflexivity.
  - intro off. rewrite S1. split; intro H.
    + apply step_pos; assumption.
    + eapply step_out; [eassumption|left; assumption|lia].
Qed.

Lemma arr_sub : forall a n it off, type_of (mem a) = TArray -> at_pos a n it -> (-9223372036854775808 < off <= 9223372036854775807)%Z ->
  ((0 <= Z.of_nat n - off <= Z.of_N (v_size (mem a)))%Z ->
      exists kt, it_sub mem off it = Ret kt /\ at_pos a (Z.to_nat (Z.of_nat n - off)) kt) /\
  (~ (0 <= Z.of_nat n - off <= Z.of_N (v_size (mem a)))%Z -> it_sub mem off it = UB).
Proof.
  intros a n it off T P H. unfold it_sub, chk64, in_int64, int64_min, int64_max. replace (_ && _)%bool with true by lia. cbn [bind].
  destruct (arr_arith a n n it it T P P) as (_ & _ & X). destruct (X (- off)%Z) as [X1 X2].
  replace (Z.of_nat n + - off)%Z with (Z.of_nat n - off)%Z in * by lia. split; assumption.
Qed.
Lemma arr_order : forall a n m it jt, type_of (mem a) = TArray -> at_pos a n it -> at_pos a m jt ->
  it_eq mem it jt = Ret (Nat.eqb n m) /\ it_ne mem it jt = Ret (negb (Nat.eqb n m)) /\
  it_lt mem it jt = Ret (Nat.ltb n m) /\ it_gt mem it jt = Ret (Nat.ltb m n) /\
  it_le mem it jt = Ret (Nat.leb n m) /\ it_ge mem it jt = Ret (Nat.leb m n).
Proof.
  intros a n m it jt T P P'. destruct (arr_arith a n m it jt T P P') as (_ & L & _). destruct (arr_arith a m n jt it T P' P) as (_ & G & _).
  assert (E : it_eq mem it jt = Ret (Nat.eqb n m)).
  { destruct P as [V P]. destruct P' as [V' P']. unfold it_eq. rewrite V, V', N.eqb_refl. destruct (mem a); try discriminate. rewrite P, P'. reflexivity. }
  unfold it_ne, it_gt, it_ge, it_le. rewrite E, L, G. cbn [bind]. repeat split; f_equal; lia.
Qed.
(** an iterator of a scalar is a counter that can be moved freely *)
Lemma scalar_arith : forall a it jt, scalar (mem a) -> it_val it = Some a -> it_val jt = Some a ->
  it_diff mem it jt = Throw no_distance /\ it_lt mem it jt = Ret (it_prim it <? it_prim jt)%Z /\
  forall off, (int64_min <= it_prim it + off <= int64_max)%Z -> it_add mem off it = Ret (set_prim it (it_prim it + off)).
Proof.
  intros a it jt [C Nn] V V'. unfold it_diff, it_lt, it_add, check_data. rewrite V, V'. cbn [bind]. rewrite N.eqb_refl. cbn [negb].
  destruct (mem a) eqn:Ev; try (exfalso; apply C; try rewrite Ev; unfold container; (left; reflexivity) || (right; reflexivity)); try (exfalso; apply Nn; try rewrite Ev; reflexivity);
    (split; [reflexivity|]; split; [reflexivity|];
     intros off B; unfold chk64, in_int64, int64_min, int64_max in *; replace (_ && _)%bool with true by lia; reflexivity).
Qed.
Lemma key_not_object : forall a n it, type_of (mem a) <> TObject -> at_pos a n it -> N.of_nat n < v_size (mem a) -> it_key mem it = Throw no_key.
Proof.
  intros a n it T [V P] L. unfold it_key, check_data, check_iterator. rewrite V. cbn [bind].
  destruct (mem a) eqn:E; try (exfalso; apply T; try rewrite E; reflexivity); rewrite ?P; cbn [v_size pos_eq bind] in *;
    try (exfalso; lia); try (replace (Z.of_nat n =? 0)%Z with true by lia; reflexivity).
  unfold len in L. destruct (Nat.eqb_spec n (length l)); [lia|]. reflexivity.
Qed.

(** ** Erasing *)
Lemma erase_it_scalar : forall a it, ~ container (mem a) ->
  v_erase_it mem a it = (mem a, Throw no_erase) /\ forall jt, v_erase_range mem a it jt = (mem a, Throw no_erase).
Proof.
  intros a it H. unfold v_erase_it, v_erase_range. destruct (end_pos a) as (e & -> & _). unfold container in H.
  destruct (mem a); try (exfalso; apply H; cbn [type_of]; tauto); split; reflexivity.
Qed.

Lemma erase_it_pos : forall a n it es, container (mem a) -> at_pos a n it -> elements (mem a) es ->
  ((n < length es)%nat -> exists v' es' jt, v_erase_it mem a it = (v', Ret jt) /\ type_of v' = type_of (mem a) /\
     elements v' es' /\ es' = firstn n es ++ skipn (S n) es /\ it_val jt = Some a /\
     (type_of v' = TArray -> it_arr jt = Some n) /\ (type_of v' = TObject -> it_obj jt = Some n)) /\
  ((length es <= n)%nat -> snd (v_erase_it mem a it) = UB).
Proof.
  intros a n it es C [V P] He. unfold v_erase_it. destruct (end_pos a) as (e & -> & Pe).
  assert (O : own a it = true) by (unfold own; rewrite V; apply N.eqb_refl).
  assert (R : forall A (l : list A) k, remove_nth k l = firstn k l ++ skipn (S k) l).
  { induction l as [|y l IH]; intros [|k]; cbn [remove_nth firstn skipn app]; try reflexivity. rewrite IH. reflexivity. }
  destruct Pe as [Ve _].
  destruct (mem a) as [| | | |l|m|] eqn:E; try (destruct C; discriminate); inversion He; subst; rewrite O, P, map_length; split; intro L.
  - destruct (Nat.ltb_spec n (length l)); [|lia]. do 3 eexists. split; [reflexivity|]. split; [reflexivity|].
    split; [constructor|]. split; [rewrite R, map_app, firstn_map, skipn_map; reflexivity|]. split; [assumption|].
    split; [reflexivity|discriminate].
  - destruct (Nat.ltb_spec n (length l)); [lia|reflexivity].
  - destruct (Nat.ltb_spec n (length m)); [|lia]. do 3 eexists. split; [reflexivity|]. split; [reflexivity|].
    split; [constructor|]. split; [rewrite R, map_app, firstn_map, skipn_map; reflexivity|]. split; [assumption|].
    split; [discriminate|reflexivity].
  - destruct (Nat.ltb_spec n (length m)); [lia|reflexivity].
Qed.

Lemma erase_range_pos : forall a n m it jt es, container (mem a) -> at_pos a n it -> at_pos a m jt -> elements (mem a) es ->
  ((n <= m <= length es)%nat -> exists v' es' kt, v_erase_range mem a it jt = (v', Ret kt) /\ type_of v' = type_of (mem a) /\
     elements v' es' /\ es' = firstn n es ++ skipn m es /\ it_val kt = Some a /\
     (type_of v' = TArray -> it_arr kt = Some n) /\ (type_of v' = TObject -> it_obj kt = Some n)) /\
  (~ (n <= m <= length es)%nat -> snd (v_erase_range mem a it jt) = UB).
Proof.
  intros a n m it jt es C [V P] [V' P'] He. unfold v_erase_range. destruct (end_pos a) as (e & -> & Pe).
  assert (O : own a it && own a jt = true) by (unfold own; rewrite V, V', N.eqb_refl; reflexivity).
  destruct Pe as [Ve _].
  destruct (mem a) as [| | | |l|mm|] eqn:E; try (destruct C; discriminate); inversion He; subst; rewrite O, P, P', map_length; split; intro L.
  - replace (Nat.leb n m && Nat.leb m (length l))%bool with true by (symmetry; apply andb_true_intro; split; apply Nat.leb_le; lia).
    do 3 eexists. split; [reflexivity|]. split; [reflexivity|].
    split; [constructor|]. split; [rewrite map_app, firstn_map, skipn_map; reflexivity|]. split; [assumption|].
    split; [reflexivity|discriminate].
  - destruct (Nat.leb_spec n m); destruct (Nat.leb_spec m (length l)); try lia; reflexivity.
  - replace (Nat.leb n m && Nat.leb m (length mm))%bool with true by (symmetry; apply andb_true_intro; split; apply Nat.leb_le; lia).
    do 3 eexists. split; [reflexivity|]. split; [reflexivity|].
    split; [constructor|]. split; [rewrite map_app, firstn_map, skipn_map; reflexivity|]. split; [assumption|].
    split; [discriminate|reflexivity].
  - destruct (Nat.leb_spec n m); destruct (Nat.leb_spec m (length mm)); try lia; reflexivity.
Qed.

Lemma sub_sorted : forall A (m : list (str * A)) i j, (i <= j)%nat -> sorted m -> sorted (firstn i m ++ skipn j m).
Proof.
  intros A m i j L H. revert i j L. induction H as [|k v m F S IH]; intros i j L.
  - destruct i, j; constructor.
  - destruct i as [|i].
    + cbn [firstn app]. destruct j as [|j]; [constructor; assumption|]. cbn [skipn]. apply (IH 0%nat j). lia.
    + destruct j as [|j]; [lia|]. cbn [firstn skipn app]. constructor.
      * rewrite Forall_forall in *. intros p Hp. apply F. apply in_app_or in Hp. destruct Hp as [Hp|Hp];
          [rewrite <- (firstn_skipn i m); apply in_or_app; left; assumption|rewrite <- (firstn_skipn j m); apply in_or_app; right; assumption].
      * apply IH. lia.
Qed.

Lemma in_cut : forall A (l : list A) i j x, In x (firstn i l ++ skipn j l) -> In x l.
Proof.
  intros A l i j x H. apply in_app_or in H. destruct H as [H|H].
  - rewrite <- (firstn_skipn i l). apply in_or_app. auto.
  - rewrite <- (firstn_skipn j l). apply in_or_app. auto.
Qed.

Lemma remove_cut : forall A (l : list A) k, remove_nth k l = firstn k l ++ skipn (S k) l.
Proof. induction l as [|y l IH]; intros [|k]; cbn [remove_nth firstn skipn app]; try reflexivity. rewrite IH. reflexivity. Qed.

Lemma erase_it_ordered : forall a it jt, ordered (mem a) -> ordered (fst (v_erase_it mem a it)) /\ ordered (fst (v_erase_range mem a it jt)).
Proof.
  intros a it jt H. unfold v_erase_it, v_erase_range. destruct (end_pos a) as (e & -> & _).
  destruct (mem a) as [| | | |l|m|] eqn:E; try (split; exact H).
  - split.
    + destruct (own a it); [|exact H]. destruct (it_arr it) as [i|]; [|exact H]. destruct (Nat.ltb i (length l)); [|exact H].
      cbn [fst]. inversion H; subst. constructor. intros x Hx. apply in_remove in Hx. auto.
    + destruct (own a it && own a jt); [|exact H]. destruct (it_arr it) as [i|]; [|exact H]. destruct (it_arr jt) as [j|]; [|exact H].
      destruct (Nat.leb i j && Nat.leb j (length l)); [|exact H]. cbn [fst]. inversion H; subst. constructor.
      intros x Hx. apply in_cut in Hx. auto.
  - inversion H; subst. split.
    + destruct (own a it); [|exact H]. destruct (it_obj it) as [i|]; [|exact H]. destruct (Nat.ltb i (length m)); [|exact H].
      cbn [fst]. rewrite remove_cut. constructor; [apply sub_sorted; [lia|assumption]|]. intros k x Hx. apply in_cut in Hx. eauto.
    + destruct (own a it && own a jt); [|exact H]. destruct (it_obj it) as [i|]; [|exact H]. destruct (it_obj jt) as [j|]; [|exact H].
      destruct (Nat.leb_spec i j); [|exact H]. destruct (Nat.leb j (length m)); [|exact H]. cbn [fst andb].
      constructor; [apply sub_sorted; [lia|assumption]|]. intros k x Hx. apply in_cut in Hx. eauto.
Qed.
End It.

(** ** Iterators kept while the value changes its type *)
Definition made (mem : addr -> value) (a : addr) (it : iter) : Prop := v_begin mem a = Ret it \/ v_end mem a = Ret it.

Lemma made_parts : forall mem a it, made mem a it -> it_val it = Some a /\
  (type_of (mem a) <> TArray -> it_arr it = None) /\ (type_of (mem a) <> TObject -> it_obj it = None) /\
  (container (mem a) \/ type_of (mem a) = TNull -> it_prim it = 0%Z).
Proof.
  intros mem a it [H|H]; unfold v_begin, v_end, set_begin, set_end, check_data, it_new in H; cbn [it_val bind] in H;
    destruct (mem a); injection H as <-; cbn; repeat split; try congruence; intros [[X|X]|X]; discriminate.
Qed.

Lemma retyped : forall mem mem' a it, made mem a it -> container (mem' a) -> type_of (mem' a) <> type_of (mem a) ->
  it_read mem' it = UB /\ it_value mem' it = UB /\ it_key mem' it = UB /\ it_incr mem' it = UB /\ it_decr mem' it = UB /\
  (forall jt, it_val jt = Some a -> it_eq mem' it jt = UB).
Proof.
  intros mem mem' a it M C T. destruct (made_parts _ _ _ M) as (V & Pa & Po & _).
  assert (forall jt, it_val jt = Some a -> it_eq mem' it jt = UB) as Q.
  { intros jt J. unfold it_eq. rewrite V, J, N.eqb_refl. destruct C as [C|C]; destruct (mem' a); try discriminate; cbn [type_of] in T.
    - rewrite Pa by congruence. reflexivity.
    - rewrite Po by congruence. reflexivity. }
  repeat split; [| | | | |exact Q]; unfold it_read, it_value, it_key, it_incr, it_decr, it_step, check_data, check_iterator; rewrite V; cbn [bind];
    destruct C as [C|C]; destruct (mem' a); try discriminate; cbn [type_of] in T;
    first [rewrite Pa by congruence|rewrite Po by congruence]; reflexivity.
Qed.

Lemma retyped_scalar : forall mem mem' a it, made mem a it -> container (mem a) \/ type_of (mem a) = TNull -> scalar (mem' a) -> it_read mem' it = Ret (mem' a).
Proof.
  intros mem mem' a it M C [S N]. destruct (made_parts _ _ _ M) as (V & _ & _ & P). specialize (P C).
  unfold it_read, it_value, check_data, check_iterator. rewrite V. cbn [bind]. unfold container in S.
  destruct (mem' a); cbn in *; rewrite ?P; try reflexivity; exfalso; tauto.
Qed.
