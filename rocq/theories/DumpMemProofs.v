(** The serializer with and without memory, side by side. *)
From Coq Require Import Lia ZifyBool ZifyNat ZifyN.
From Verif Require Import Base Stream Encoding Value Token FloatFmt Message Parser DumpText Feeds SpecGrammar SpecDump Serializer Target SpecTarget TargetProofs TargetMain DumpMem.
Open Scope N_scope.

(** ** Nothing refused *)
Section Calm.
Context {T : Type}.
Variables (take : T -> call -> T * bool) (deny : nat -> bool) (cf : scfg).
Notation dst := (dst (T := T)).
Notation dres := (dres (T := T)).

Definition calm (n n' : nat) : Prop := forall k, (n <= k < n')%nat -> deny k = false.
Definition esim (n : nat) (X : dres) (Y : tres (T := T)) : Prop :=
  (n <= snd (fst X))%nat /\ (calm n (snd (fst X)) -> (fst (fst X), snd X) = Y).

Lemma esim_then : forall n X Y k k', esim n X Y -> (forall g m, esim m (k (g, m)) (k' g)) -> esim n (dthen X k) (tthen Y k').
Proof.
  intros n X Y k k' [L H] K.
  assert (D : (exists g m, X = ((g, m), Ret tt)) \/ (dthen X k = X /\ (calm n (snd (fst X)) -> tthen Y k' = Y))).
  { destruct X as [[g m] r]. cbn [fst snd] in *. destruct r as [[]| | | |]; [left; eauto| | | |]; right; (split; [reflexivity|]); intros C; rewrite <- (H C); reflexivity. }
  destruct D as [(g & m & ->)|[-> D]].
  - destruct (K g m) as [L2 H2]. cbn [dthen fst snd] in *. split; [lia|]. intros C.
    rewrite <- H; [|intros j J; apply C; lia]. cbn [tthen]. apply H2. intros j J. apply C. lia.
  - split; [exact L|]. intros C. rewrite (D C). apply H. exact C.
Qed.
Lemma esim_quietly : forall f s, esim (snd s) (quietly f s) (f (fst s)).
Proof. intros f [g n]. unfold quietly. cbn [fst snd]. destruct (f g) as [g' r]. split; cbn; [lia|reflexivity]. Qed.
Lemma esim_plainly : forall f s, esim (snd s) (dret (plainly f s)) (tret (f (fst s))).
Proof. intros f [g n]. split; cbn; [lia|reflexivity]. Qed.
Lemma esim_ret : forall g n, esim n (dret (g, n)) (tret g).
Proof. intros. split; cbn; [lia|reflexivity]. Qed.
Lemma esim_request : forall g n, esim n (request deny (g, n)) (tret g).
Proof. intros. unfold request. split; cbn; [lia|]. intros C. rewrite (C n); [reflexivity|lia]. Qed.

Lemma esim_reserve : forall len g n, esim n (d_ind_reserve deny cf len (g, n)) (tret (t_ind_reserve cf len g)).
Proof.
  intros len g n. unfold d_ind_reserve. cbn [fst].
  destruct (s_ichar cf =? 0) eqn:E1; [replace (t_ind_reserve cf len g) with g by (unfold t_ind_reserve; rewrite E1; reflexivity); apply esim_ret|].
  destruct (t_ilen g <? len) eqn:E2; [|replace (t_ind_reserve cf len g) with g by (unfold t_ind_reserve; rewrite E1, E2; reflexivity); apply esim_ret].
  change (tret (t_ind_reserve cf len g)) with (tthen (tret g) (fun g => tret (t_ind_reserve cf len g))).
  apply esim_then; [apply esim_request|]. intros g1 m. apply (esim_plainly (t_ind_reserve cf len) (g1, m)).
Qed.
Lemma esim_inc : forall g n, esim n (d_ind_inc deny cf (g, n)) (tret (t_ind_inc cf g)).
Proof. intros. apply esim_reserve. Qed.
Lemma esim_indent_n : forall k g n, esim n (d_output_indent_n take deny cf k (g, n)) (t_output_indent_n take cf k g).
Proof.
  intros k g n. unfold d_output_indent_n, t_output_indent_n. destruct (s_pretty cf); [|apply esim_ret].
  change (t_ind_write take cf k (t_ind_reserve cf k g)) with (tthen (tret (t_ind_reserve cf k g)) (t_ind_write take cf k)).
  apply esim_then; [apply esim_reserve|]. intros g1 m. apply (esim_quietly (t_ind_write take cf k) (g1, m)).
Qed.

Lemma esim_next : forall t g n, esim n (d_next take deny cf t (g, n)) (t_next take cf t g).
Proof.
  intros t g n. unfold d_next, t_next. cbn [fst]. set (g1 := if t_began g then _ else g).
  match goal with |- context [t_last (fst ?x)] => assert (E : x = (g1, n)) by (subst g1; destruct (t_began g); [destruct (starts_value t)|]; reflexivity); rewrite E end.
  cbn [fst]. clear E. clearbody g1. apply esim_then.
  - destruct (_ && _); [apply (esim_quietly (t_output_indent take cf) (g1, n))|apply esim_ret].
  - clear. intros g n. apply esim_then.
    + destruct t; try apply esim_ret; try apply (esim_plainly _ (g, n)).
      * apply esim_inc.
      * apply esim_then; [apply (esim_quietly (t_output_indent take cf) (_, n))|]. intros g1 m. apply (esim_plainly _ (g1, m)).
      * apply esim_inc.
      * apply esim_then; [apply (esim_quietly (t_output_indent take cf) (_, n))|]. intros g1 m. apply (esim_plainly _ (g1, m)).
      * apply esim_indent_n.
    + intros g1 m. apply (esim_plainly (fun g => t_set_last g t) (g1, m)).
Qed.

Lemma piled_all : forall l n, (n <= snd (piled deny l n) <= n + length l)%nat /\ (calm n (snd (piled deny l n)) -> piled deny l n = (String.concat "" l, n + length l)%nat).
Proof.
  induction l as [|x l IH]; intros n; cbn [piled]; [cbn; split; [lia|intros; f_equal; lia]|].
  destruct (deny n) eqn:D.
  - cbn [snd length]. split; [lia|]. intros C. rewrite (C n) in D; [discriminate|lia].
  - destruct (IH (S n)) as [L H]. destruct (piled deny l (S n)) as [m n'] eqn:P. cbn [snd length] in *. split; [lia|]. intros C.
    assert (E : (m, n') = (String.concat "" l, (S n + length l)%nat)) by (apply H; intros k K; apply C; lia).
    injection E as -> ->. f_equal; [|lia]. destruct l; cbn; [|reflexivity].
    clear. induction x as [|a x IH]; cbn; [reflexivity|rewrite IH; reflexivity].
Qed.
Lemma bytes_app : forall a b, bytes (a ++ b) = (bytes a ++ bytes b)%string.
Proof. induction a as [|x a IH]; intros b; cbn; [reflexivity|rewrite IH; reflexivity]. Qed.
Lemma pieces_code : forall msg c, String.concat "" (code_pieces msg c) = with_code msg c.
Proof.
  intros msg c. unfold code_pieces, with_code, json_hex. cbn [String.concat].
  change (c_bslash :: c_u :: pad_left 4 c_0 (hex_digits c)) with ([c_bslash] ++ [c_u] ++ pad_left 4 c_0 (hex_digits c)).
  rewrite !bytes_app. repeat rewrite <- append_assoc || cbn [String.append]. reflexivity.
Qed.
Lemma esim_fail : forall msg c g n, esim n (d_fail deny msg c (g, n)) (g, Throw (ESer (with_code msg c))).
Proof.
  intros msg c g n. unfold d_fail. change (g, Throw (ESer (with_code msg c))) with (tthen (tret g) (fun g => (g, @Throw unit (ESer (with_code msg c))))).
  apply esim_then; [apply esim_request|]. clear g n. intros g n. cbn [snd fst].
  destruct (piled_all (code_pieces msg c) n) as [L H]. destruct (piled deny (code_pieces msg c) n) as [m n'] eqn:P. cbn [snd] in *.
  assert (X : esim n' (dthen (request deny (g, n')) (fun s => dthen (request deny s) (fun s => (s, Throw (ESer m))))) (g, Throw (ESer m))).
  { change (g, @Throw unit (ESer m)) with (tthen (tret g) (fun g => tthen (tret g) (fun g => (g, @Throw unit (ESer m))))).
    apply esim_then; [apply esim_request|]. intros g1 m1. apply esim_then; [apply esim_request|]. intros g2 m2. split; cbn; [lia|reflexivity]. }
  destruct X as [XL X]. split; [lia|]. intros C. rewrite X; [|intros k K; apply C; lia].
  assert (E : (m, n') = (String.concat "" (code_pieces msg c), (n + length (code_pieces msg c))%nat)) by (apply H; intros k K; apply C; lia).
  injection E as -> _. rewrite <- pieces_code. reflexivity.
Qed.

Lemma esim_chars : forall fuel i cur g n, esim n (d_put_chars take deny cf fuel i cur (g, n)) (t_put_chars take cf fuel i cur g).
Proof.
  induction fuel as [|fuel IH]; intros i cur g n; cbn [d_put_chars t_put_chars]; [split; cbn; [lia|reflexivity]|].
  destruct (decode (val_enc cf) (val_ck cf) i cur) as [[ok cp] i']. destruct (negb ok); [apply esim_ret|].
  destruct (negb (is_good i')); [apply esim_fail|]. destruct (short_escape cp) as [e|]; [apply IH|]. cbn [plainly fst snd].
  destruct (ts_fail _); [apply esim_fail|apply IH].
Qed.
Lemma esim_string : forall x g n, esim n (d_put_string take deny cf x (g, n)) (t_put_string take cf x g).
Proof.
  intros x g n. unfold d_put_string, t_put_string. apply esim_then; [apply esim_chars|]. intros g1 m. apply (esim_plainly _ (g1, m)).
Qed.

Definition d_arr_loop : list value -> dst -> dres :=
  fix elems (l : list value) (s : dst) : dres :=
             match l with
             | [] => dret s
             | v :: l' =>
                 dthen (d_do_dump take deny cf v s) (fun s =>
                 match l' with
                 | [] => dret s
                 | _ => dthen (d_next take deny cf Tval_sep s) (fun s => elems l' s)
                 end)
             end.
Definition d_obj_loop : list (str * value) -> dst -> dres :=
  fix members (m : list (str * value)) (s : dst) : dres :=
             match m with
             | [] => dret s
             | (k, v) :: m' =>
                 dthen (d_next take deny cf Tstring s) (fun s =>
                 dthen (d_put_string take deny cf k s) (fun s =>
                 dthen (d_next take deny cf Tname_sep s) (fun s =>
                 dthen (d_do_dump take deny cf v s) (fun s =>
                 match m' with
                 | [] => dret s
                 | _ => dthen (d_next take deny cf Tval_sep s) (fun s => members m' s)
                 end))))
             end.

Definition e_ok (v : value) : Prop := forall g n, esim n (d_do_dump take deny cf v (g, n)) (t_do_dump take cf v g).
Lemma esim_arr : forall l, Forall e_ok l -> forall g n, esim n (d_arr_loop l (g, n)) (t_arr_loop take cf l g).
Proof.
  intros l F. induction F as [|v l Hv F IH]; intros g n; cbn [t_arr_loop d_arr_loop]; [apply esim_ret|]. fold (t_arr_loop take cf) d_arr_loop.
  apply esim_then; [apply Hv|]. intros g1 m. destruct l; [apply esim_ret|]. apply esim_then; [apply esim_next|exact IH].
Qed.
Lemma esim_obj : forall l, Forall (fun p => e_ok (snd p)) l -> forall g n, esim n (d_obj_loop l (g, n)) (t_obj_loop take cf l g).
Proof.
  intros l F. induction F as [|[k v] l Hv F IH]; intros g n; cbn [t_obj_loop d_obj_loop]; [apply esim_ret|]. fold (t_obj_loop take cf) d_obj_loop.
  apply esim_then; [apply esim_next|]. intros g1 n1. apply esim_then; [apply esim_string|]. intros g2 n2. apply esim_then; [apply esim_next|]. intros g3 n3.
  apply esim_then; [apply Hv|]. intros g4 n4. destruct l; [apply esim_ret|]. apply esim_then; [apply esim_next|exact IH].
Qed.
Lemma esim_dump : forall v, e_ok v.
Proof.
  apply value_rect2.
  - intros g n. apply esim_next.
  - intros z g n. cbn [d_do_dump t_do_dump]. apply esim_then; [apply esim_next|]. intros g1 m. apply (esim_plainly _ (g1, m)).
  - intros f g n. cbn [d_do_dump t_do_dump]. apply esim_then; [apply esim_next|]. intros g1 m. apply (esim_quietly _ (g1, m)).
  - intros x g n. cbn [d_do_dump t_do_dump]. apply esim_then; [apply esim_next|]. intros g1 m. apply esim_string.
  - intros [|] g n; apply esim_next.
  - intros l F g n. cbn [d_do_dump t_do_dump]. fold (t_arr_loop take cf) d_arr_loop. apply esim_then; [apply esim_next|]. intros g1 n1.
    destruct l as [|v l]; [apply esim_next|]. apply esim_then; [apply esim_arr; exact F|]. intros. apply esim_next.
  - intros l F g n. cbn [d_do_dump t_do_dump]. fold (t_obj_loop take cf) d_obj_loop. apply esim_then; [apply esim_next|]. intros g1 n1.
    destruct l as [|v l]; [apply esim_next|]. apply esim_then; [apply esim_obj; exact F|]. intros. apply esim_next.
Qed.

Definition d_run (t : T) (n : nat) (v : value) : dres := dthen (d_do_dump take deny cf v (t_init cf t, n)) (d_next take deny cf Teoi).
Lemma esim_run : forall t n v, esim n (d_run t n v) (t_run take cf t v).
Proof. intros. apply esim_then; [apply esim_dump|]. intros. apply esim_next. Qed.

Lemma d_handle_calm : forall h n r, deny n = false -> d_handle deny h n r = handle h r.
Proof. intros h n r D. unfold d_handle. destruct h, r; try reflexivity. rewrite D, andb_false_r. reflexivity. Qed.
Lemma dump_enough : forall h t0 n v t n' rm, d_dump_to take deny cf h t0 n v = ((t, n'), rm) -> (forall k, (n <= k <= n')%nat -> deny k = false) ->
  t_dump_to take cf h t0 v = (t, rm).
Proof.
  intros h t0 n v t n' rm H C. unfold d_dump_to in H. change (dthen _ _) with (d_run t0 n v) in H. destruct (esim_run t0 n v) as [L E].
  destruct (d_run t0 n v) as [[g n1] r]. injection H as <- <- <-. cbn [fst snd] in *. unfold t_dump_to. change (tthen _ _) with (t_run take cf t0 v).
  rewrite <- E; [|intros k K; apply C; lia]. rewrite d_handle_calm; [reflexivity|apply C; lia].
Qed.
End Calm.
