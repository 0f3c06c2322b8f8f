(** The serializer on an arbitrary target compared with the one on a string. *)
From Coq Require Import Lia ZifyBool ZifyNat ZifyN.
From Verif Require Import Base Stream Encoding Value Token FloatFmt Parser DumpText Feeds SpecGrammar SpecDump Serializer Target SpecTarget.
Open Scope N_scope.

(** ** The string target only grows *)
Definition grows (o o' : ostream) : Prop := exists w, os_units o' = os_units o ++ w.
Lemma grows_refl : forall o, grows o o.
Proof. intros o. exists []. rewrite app_nil_r. reflexivity. Qed.
Lemma grows_trans : forall a b c, grows a b -> grows b c -> grows a c.
Proof. intros a b c [w E] [w' E']. exists (w ++ w'). rewrite E', E, app_assoc. reflexivity. Qed.
Lemma grows_put : forall ck o u, grows o (os_put ck o u).
Proof.
  intros ck o u. unfold os_put. destruct (os_fail o); [apply grows_refl|]. destruct (_ =? _)%Z; [exists []; rewrite app_nil_r; reflexivity|exists [u]; reflexivity].
Qed.
Lemma grows_write : forall o l, grows o (os_write o l).
Proof. intros o l. unfold os_write. destruct (os_fail o); [apply grows_refl|]. exists l. reflexivity. Qed.
Lemma grows_setfail : forall o, grows o (os_setfail o).
Proof. intros o. exists []. rewrite app_nil_r. reflexivity. Qed.

Ltac gr := repeat first [apply grows_refl | apply grows_put | apply grows_write | apply grows_setfail |
  eapply grows_trans; [|apply grows_put] | eapply grows_trans; [|apply grows_write] ].
Lemma grows_encode : forall e ck o cp, grows o (encode e ck o cp).
Proof.
  intros e ck o cp. destruct e; cbn [encode].
  - unfold ignore_encode. gr.
  - unfold utf8_encode. destruct (cp <? 128); [gr|]. destruct (cp <=? 2047); [gr|]. destruct (cp <=? 65535); [gr|]. destruct (cp <=? 1114111); gr.
  - unfold utf16_encode. destruct (cp <=? 65535); [gr|]. destruct (cp <=? 1114111); [|gr]. destruct (encode_surrogates cp). gr.
  - unfold utf32_encode. eapply grows_trans; [|apply grows_put]. destruct (1114111 <? cp); gr.
Qed.
Lemma grows_default : forall cf cp o, grows o (put_default cf cp o).
Proof.
  intros cf cp o. unfold put_default. destruct (_ || _); [|apply grows_encode]. destruct (cp <=? 65535); [gr|]. destruct (encode_surrogates cp). gr.
Qed.

Definition grow (r : sst * outcome unit) (s : sst) : Prop := grows (s_os s) (s_os (fst r)).
Lemma grow_then : forall r k s, grow r s -> (forall s1, grow (k s1) s1) -> grow (sthen r k) s.
Proof. intros [s1 [a|e| | |]] k s H K; cbn [sthen]; try exact H. eapply grows_trans; [exact H|apply K]. Qed.
Lemma grow_ret : forall s0 s, grows (s_os s) (s_os s0) -> grow (sret s0) s.
Proof. intros s0 s H. exact H. Qed.

Section Plain.
Variable cf : scfg.
Lemma grow_reserve : forall n s, s_os (ind_reserve cf n s) = s_os s.
Proof. intros n s. unfold ind_reserve. destruct (s_ichar cf =? 0); [reflexivity|]. destruct (s_ilen s <? n); reflexivity. Qed.
Lemma grow_ind_write : forall n s, grow (ind_write cf n s) s.
Proof.
  intros n s. unfold ind_write. destruct (n <=? s_ilen s); [apply grow_ret; cbn; gr|]. destruct (n =? s_ilen s + 1); [apply grow_ret; cbn; gr|apply grows_refl].
Qed.
Lemma grow_indent : forall s, grow (output_indent cf s) s.
Proof.
  intros s. unfold output_indent. destruct (s_pretty cf); [|apply grows_refl]. destruct (_ && _); [apply grow_ind_write|apply grows_refl].
Qed.
Lemma grow_indent_n : forall n s, grow (output_indent_n cf n s) s.
Proof.
  intros n s. unfold output_indent_n. destruct (s_pretty cf); [|apply grows_refl]. unfold grow. rewrite <- (grow_reserve n s). apply grow_ind_write.
Qed.
Lemma grow_nl : forall s, grows (s_os s) (s_os (output_newline cf s)).
Proof. intros s. unfold output_newline. destruct (s_pretty cf); cbn; gr. Qed.
Lemma grow_inc : forall s, s_os (ind_inc cf s) = s_os s.
Proof. intros s. unfold ind_inc. rewrite grow_reserve. reflexivity. Qed.

Lemma grow_next : forall t s, grow (next cf t s) s.
Proof.
  intros t s. unfold next. set (s1 := if s_began s then _ else _).
  assert (H1 : grows (s_os s) (s_os s1)).
  { subst s1. destruct (s_began s); [|apply grows_refl]. destruct (starts_value t); [|apply grows_refl]. apply (grow_nl (set_began s false)). }
  clearbody s1. unfold grow. eapply grows_trans; [exact H1|]. apply grow_then.
  - destruct (_ && _); [apply grow_indent|apply grows_refl].
  - intros s2. apply grow_then.
    + destruct t; first
        [ apply grow_ret; rewrite grow_inc; cbn; gr; fail
        | apply grow_then; [eapply grows_trans; [|apply grow_indent]; apply (grow_nl (ind_dec s2))|intros s3; apply grow_ret; cbn; gr]; fail
        | apply grow_ret; eapply grows_trans; [|apply grow_nl]; cbn; gr; fail
        | apply grow_ret; cbn; gr; fail
        | eapply grows_trans; [|apply grow_indent_n]; cbn; gr ].
    + intros s3. apply grows_refl.
Qed.

Lemma grow_chars : forall fuel i cur s, grow (put_chars cf fuel i cur s) s.
Proof.
  induction fuel as [|fuel IH]; intros i cur s; cbn [put_chars]; [apply grows_refl|].
  destruct (decode (val_enc cf) (val_ck cf) i cur) as [[ok cp] i']. destruct (negb ok); [apply grows_refl|]. destruct (negb (is_good i')); [apply grows_refl|].
  destruct (short_escape cp) as [e|].
  - eapply grows_trans; [|apply IH]. cbn. gr.
  - destruct (os_fail _); [cbn; apply grows_default|]. eapply grows_trans; [|apply IH]. cbn. apply grows_default.
Qed.
Lemma grow_string : forall x s, grow (put_string cf x s) s.
Proof.
  intros x s. unfold put_string. apply grow_then.
  - eapply grows_trans; [|apply grow_chars]. cbn. gr.
  - intros s1. apply grow_ret. cbn. gr.
Qed.
Lemma grow_float : forall f s, grow (put_float cf f s) s.
Proof.
  intros f s. unfold put_float. destruct (f64_integral f); [|apply grow_ret; cbn; gr].
  destruct (f64_to_int64 f); try apply grows_refl. apply grow_ret. cbn. gr.
Qed.

Definition arr_loop : list value -> sst -> sres :=
  fix elems (l : list value) (s : sst) : sres :=
             match l with
             | [] => sret s
             | v :: l' =>
                 do* s := do_dump cf v s in
                 match l' with
                 | [] => sret s
                 | _ => do* s := next cf Tval_sep s in elems l' s
                 end
             end.
Definition obj_loop : list (str * value) -> sst -> sres :=
  fix members (m : list (str * value)) (s : sst) : sres :=
             match m with
             | [] => sret s
             | (k, v) :: m' =>
                 do* s := next cf Tstring s in
                 do* s := put_string cf k s in
                 do* s := next cf Tname_sep s in
                 do* s := do_dump cf v s in
                 match m' with
                 | [] => sret s
                 | _ => do* s := next cf Tval_sep s in members m' s
                 end
             end.

Lemma grow_arr : forall l, Forall (fun v => forall s, grow (do_dump cf v s) s) l -> forall s, grow (arr_loop l s) s.
Proof.
  intros l F. induction F as [|v l Hv F IH]; intros s; cbn [arr_loop]; [apply grows_refl|]. fold arr_loop.
  apply grow_then; [apply Hv|]. intros s1. destruct l; [apply grows_refl|]. apply grow_then; [apply grow_next|exact IH].
Qed.
Lemma grow_obj : forall m, Forall (fun p => forall s, grow (do_dump cf (snd p) s) s) m -> forall s, grow (obj_loop m s) s.
Proof.
  intros m F. induction F as [|[k v] m Hv F IH]; intros s; cbn [obj_loop]; [apply grows_refl|]. fold obj_loop.
  apply grow_then; [apply grow_next|]. intros s1. apply grow_then; [apply grow_string|]. intros s2. apply grow_then; [apply grow_next|]. intros s3.
  apply grow_then; [apply Hv|]. intros s4. destruct m; [apply grows_refl|]. apply grow_then; [apply grow_next|exact IH].
Qed.
Lemma grow_dump : forall v s, grow (do_dump cf v s) s.
Proof.
  apply (value_rect2 (fun v => forall s, grow (do_dump cf v s) s)).
  - intros s. apply grow_next.
  - intros z s. cbn [do_dump]. apply grow_then; [apply grow_next|]. intros s1. apply grow_ret. cbn. gr.
  - intros f s. cbn [do_dump]. apply grow_then; [apply grow_next|apply grow_float].
  - intros x s. cbn [do_dump]. apply grow_then; [apply grow_next|apply grow_string].
  - intros [|] s; apply grow_next.
  - intros l F s. cbn [do_dump]. fold arr_loop. apply grow_then; [apply grow_next|]. intros s1. destruct l as [|v l]; [apply grow_next|].
    apply grow_then; [apply grow_arr; exact F|]. intros s2. apply grow_next.
  - intros m F s. cbn [do_dump]. fold obj_loop. apply grow_then; [apply grow_next|]. intros s1. destruct m as [|p m]; [apply grow_next|].
    apply grow_then; [apply grow_obj; exact F|]. intros s2. apply grow_next.
Qed.
End Plain.

(** ** Two runs side by side *)
Section Sim.
Context {T : Type}.
Variables (take : T -> call -> T * bool) (cf : scfg) (J E : tstream (T := T) -> ostream -> Prop).
Hypothesis HP : forall o p u, J o p -> J (ts_put take (out_ck cf) o u) (os_put (out_ck cf) p u).
Hypothesis HW : forall o p l, J o p -> J (ts_write take o l) (os_write p l).
Hypothesis HS : forall o p, J o p -> J (ts_setfail o) (os_setfail p).
Hypothesis HE : forall o p p', E o p -> grows p p' -> E o p'.

Definition same (g : tst (T := T)) (s : sst) : Prop :=
  t_began g = s_began s /\ t_last g = s_last s /\ t_depth g = s_depth s /\ t_ilen g = s_ilen s.
Definition I g s : Prop := same g s /\ J (t_os g) (s_os s).
(** the same outcome, or the first run has noticed the failure *)
Definition rsim (X : tres (T := T)) (Y : sres) : Prop :=
  (I (fst X) (fst Y) /\ snd X = snd Y) \/ (cannot_encode (snd X) /\ E (t_os (fst X)) (s_os (fst Y))).

Lemma rsim_then : forall X Y k k', rsim X Y -> (forall g s, I g s -> rsim (k g) (k' s)) -> (forall s, grow (k' s) s) ->
  rsim (tthen X k) (sthen Y k').
Proof.
  intros [g r] [s r'] k k' [[H R]|[R H]] K G; cbn [fst snd] in *.
  - subst r'. destruct r; cbn [tthen sthen]; try (left; split; [exact H|reflexivity]). apply K. exact H.
  - destruct R as [c0 ->]. cbn [tthen]. right. cbn [fst snd]. split; [eexists; reflexivity|]. destruct r'; cbn [sthen fst]; try exact H. eapply HE; [exact H|apply G].
Qed.
Lemma rsim_ret : forall g s, I g s -> rsim (tret g) (sret s).
Proof. intros g s H. left. split; [exact H|reflexivity]. Qed.
Lemma rsim_stop : forall g s r, I g s -> rsim (g, r) (s, r).
Proof. intros g s r H. left. split; [exact H|reflexivity]. Qed.

Lemma I_put : forall g s c, I g s -> I (t_output1 take cf c g) (output1 cf c s).
Proof. intros g s c [H1 H2]. split; [exact H1|]. cbn. apply HP. exact H2. Qed.
Lemma I_write : forall g s l, I g s -> I (t_output take l g) (output l s).
Proof. intros g s l [H1 H2]. split; [exact H1|]. cbn. apply HW. exact H2. Qed.
Lemma I_nl : forall g s, I g s -> I (t_output_newline take cf g) (output_newline cf s).
Proof. intros g s H. unfold t_output_newline, output_newline. destruct (s_pretty cf); [apply I_put|]; exact H. Qed.
Lemma I_began : forall g s b, I g s -> I (t_set_began g b) (set_began s b).
Proof. intros g s b [(B & L & D & N) H2]. split; [|exact H2]. repeat split; assumption. Qed.
Lemma I_last : forall g s t, I g s -> I (t_set_last g t) (set_last s t).
Proof. intros g s t [(B & L & D & N) H2]. split; [|exact H2]. repeat split; assumption. Qed.
Lemma I_reserve : forall g s n, I g s -> I (t_ind_reserve cf n g) (ind_reserve cf n s).
Proof.
  intros g s n [(B & L & D & N) H2]. unfold t_ind_reserve, ind_reserve. rewrite N. destruct (s_ichar cf =? 0); [split; [repeat split|]; assumption|].
  destruct (s_ilen s <? n); (split; [repeat split|]); assumption || reflexivity.
Qed.
Lemma I_inc : forall g s, I g s -> I (t_ind_inc cf g) (ind_inc cf s).
Proof.
  intros g s [(B & L & D & N) H2]. unfold t_ind_inc, ind_inc. rewrite D. apply I_reserve. split; [repeat split|]; assumption || reflexivity.
Qed.
Lemma I_dec : forall g s, I g s -> I (t_ind_dec g) (ind_dec s).
Proof. intros g s [(B & L & D & N) H2]. unfold t_ind_dec, ind_dec. rewrite D. split; [repeat split|]; assumption || reflexivity. Qed.

Lemma R_ind_write : forall g s n, I g s -> rsim (t_ind_write take cf n g) (ind_write cf n s).
Proof.
  intros g s n H. pose proof H as [(B & L & D & N) H2]. unfold t_ind_write, ind_write. rewrite N.
  destruct (n <=? s_ilen s); [apply rsim_ret, (I_write _ _ _ H)|]. destruct (n =? s_ilen s + 1); [apply rsim_ret, (I_write _ _ _ H)|apply rsim_stop; exact H].
Qed.
Lemma R_indent : forall g s, I g s -> rsim (t_output_indent take cf g) (output_indent cf s).
Proof.
  intros g s H. pose proof H as [(B & L & D & N) H2]. unfold t_output_indent, output_indent. rewrite D. destruct (s_pretty cf); [|apply rsim_ret; exact H].
  destruct (_ && _); [apply R_ind_write|apply rsim_ret]; exact H.
Qed.
Lemma R_indent_n : forall g s n, I g s -> rsim (t_output_indent_n take cf n g) (output_indent_n cf n s).
Proof.
  intros g s n H. unfold t_output_indent_n, output_indent_n. destruct (s_pretty cf); [|apply rsim_ret; exact H]. apply R_ind_write, I_reserve. exact H.
Qed.

Lemma R_next : forall t g s, I g s -> rsim (t_next take cf t g) (next cf t s).
Proof.
  intros t g s H. unfold t_next, next. set (g1 := if t_began g then _ else _). set (s1 := if s_began s then _ else _).
  assert (H1 : I g1 s1).
  { subst g1 s1. pose proof H as [(B & _) _]. rewrite B. destruct (s_began s); [|exact H]. destruct (starts_value t); [apply I_nl|]; apply I_began; exact H. }
  clearbody g1 s1. clear g s H. pose proof H1 as [(_ & L & _) _]. rewrite L. apply rsim_then.
  - destruct (_ && _); [apply R_indent|apply rsim_ret]; exact H1.
  - intros g s H. apply rsim_then.
    + destruct t; first
        [ apply rsim_ret, I_inc, I_began, I_put; exact H
        | apply rsim_then; [apply R_indent, I_nl, I_dec; exact H|intros; apply rsim_ret, I_put; assumption|intros; apply grow_ret; cbn; gr]
        | apply rsim_ret, I_nl, I_put; exact H
        | apply rsim_ret, I_write; exact H
        | apply rsim_ret; exact H
        | apply R_indent_n, I_put; exact H ].
    + intros. apply rsim_ret, I_last. assumption.
    + intros. apply grows_refl.
  - intros s. apply grow_then.
    + destruct t; first
        [ apply grow_ret; rewrite grow_inc; cbn; gr; fail
        | apply grow_then; [eapply grows_trans; [|apply grow_indent]; apply (grow_nl cf (ind_dec s))|intros; apply grow_ret; cbn; gr]; fail
        | apply grow_ret; eapply grows_trans; [|apply grow_nl]; cbn; gr; fail
        | apply grow_ret; cbn; gr; fail
        | eapply grows_trans; [|apply grow_indent_n]; cbn; gr ].
    + intros. apply grows_refl.
Qed.

Lemma R_float : forall f g s, I g s -> rsim (t_put_float take cf f g) (put_float cf f s).
Proof.
  intros f g s H. unfold t_put_float, put_float. destruct (f64_integral f); [|apply rsim_ret, I_write; exact H].
  destruct (f64_to_int64 f); try (apply rsim_stop; exact H). apply rsim_ret, I_write, I_write. exact H.
Qed.

Lemma J_encode : forall e o p cp, J o p -> J (t_encode take e (out_ck cf) o cp) (encode e (out_ck cf) p cp).
Proof.
  intros e o p cp H. destruct e; cbn [t_encode encode].
  - apply HP. exact H.
  - unfold utf8_encode. destruct (cp <? 128); [apply HP; exact H|]. destruct (cp <=? 2047); [apply HP, HP; exact H|].
    destruct (cp <=? 65535); [apply HP, HP, HP; exact H|]. destruct (cp <=? 1114111); [apply HP, HP, HP, HP; exact H|apply HS; exact H].
  - unfold utf16_encode. destruct (cp <=? 65535); [apply HP; exact H|]. destruct (cp <=? 1114111); [|apply HS; exact H].
    destruct (encode_surrogates cp). apply HP, HP. exact H.
  - unfold utf32_encode. apply HP. destruct (1114111 <? cp); [apply HS|]; exact H.
Qed.
Lemma J_default : forall cp o p, J o p -> J (t_put_default take cf cp o) (put_default cf cp p).
Proof.
  intros cp o p H. unfold t_put_default, put_default. destruct (_ || _); [|apply J_encode; exact H].
  destruct (cp <=? 65535); [apply HW; exact H|]. destruct (encode_surrogates cp). apply HW, HW. exact H.
Qed.

(** strings and keys for which the runs agree *)
Definition fine (x : str) : Prop := forall fuel cur g s, I g s ->
  rsim (t_put_chars take cf fuel (is_open (IStr x)) cur g) (put_chars cf fuel (is_open (IStr x)) cur s).
Lemma R_string : forall x g s, fine x -> I g s -> rsim (t_put_string take cf x g) (put_string cf x s).
Proof.
  intros x g s F H. unfold t_put_string, put_string. apply rsim_then.
  - apply F, I_put. exact H.
  - intros. apply rsim_ret, I_put. assumption.
  - intros. apply grow_ret. cbn. gr.
Qed.

Definition t_arr_loop : list value -> tst -> tres :=
  fix elems (l : list value) (s : tst) : tres :=
             match l with
             | [] => tret s
             | v :: l' =>
                 tthen (t_do_dump take cf v s) (fun s =>
                 match l' with
                 | [] => tret s
                 | _ => tthen (t_next take cf Tval_sep s) (fun s => elems l' s)
                 end)
             end.
Definition t_obj_loop : list (str * value) -> tst -> tres :=
  fix members (m : list (str * value)) (s : tst) : tres :=
             match m with
             | [] => tret s
             | (k, v) :: m' =>
                 tthen (t_next take cf Tstring s) (fun s =>
                 tthen (t_put_string take cf k s) (fun s =>
                 tthen (t_next take cf Tname_sep s) (fun s =>
                 tthen (t_do_dump take cf v s) (fun s =>
                 match m' with
                 | [] => tret s
                 | _ => tthen (t_next take cf Tval_sep s) (fun s => members m' s)
                 end))))
             end.

Definition fine_leaf (l : leaf) : Prop := match l with LStr x => fine x | LFloat _ => True end.
Definition follows (v : value) : Prop := Forall fine_leaf (leaves v) -> forall g s, I g s -> rsim (t_do_dump take cf v g) (do_dump cf v s).

Lemma grow_rest : forall l (l' : list value) s, grow (match l' with [] => sret s | _ => sthen (next cf Tval_sep s) (fun s => arr_loop cf l s) end) s.
Proof.
  intros l l' s. destruct l'; [apply grows_refl|]. apply grow_then; [apply grow_next|]. intros. apply grow_arr. apply Forall_forall. intros. apply grow_dump.
Qed.
Lemma grow_mrest : forall m (m' : list (str * value)) s, grow (match m' with [] => sret s | _ => sthen (next cf Tval_sep s) (fun s => obj_loop cf m s) end) s.
Proof.
  intros l l' s. destruct l'; [apply grows_refl|]. apply grow_then; [apply grow_next|]. intros. apply grow_obj. apply Forall_forall. intros. apply grow_dump.
Qed.

Lemma R_arr : forall l, Forall follows l -> Forall fine_leaf (concat (map leaves l)) -> forall g s, I g s -> rsim (t_arr_loop l g) (arr_loop cf l s).
Proof.
  intros l F. induction F as [|v l Hv F IH]; intros Fi g s H; cbn [t_arr_loop arr_loop]; [apply rsim_ret; exact H|]. fold t_arr_loop (arr_loop cf).
  cbn [map concat] in Fi. apply Forall_app in Fi. destruct Fi as [F1 F2]. apply rsim_then; [apply Hv; assumption| |intros; apply grow_rest].
  intros g1 s1 H1. destruct l; [apply rsim_ret; exact H1|]. apply rsim_then; [apply R_next; exact H1|exact (IH F2)|].
  intros. apply grow_arr. apply Forall_forall. intros. apply grow_dump.
Qed.
Lemma R_obj : forall m, Forall (fun p => follows (snd p)) m -> Forall fine_leaf (concat (map (fun p => LStr (fst p) :: leaves (snd p)) m)) ->
  forall g s, I g s -> rsim (t_obj_loop m g) (obj_loop cf m s).
Proof.
  intros m F. induction F as [|[k v] m Hv F IH]; intros Fi g s H; cbn [t_obj_loop obj_loop]; [apply rsim_ret; exact H|]. fold t_obj_loop (obj_loop cf).
  cbn [map concat fst snd] in Fi, Hv. rewrite <- app_comm_cons in Fi. inversion Fi as [|x y Fk Fi']; subst. apply Forall_app in Fi'. destruct Fi' as [F1 F2].
  assert (Gr : forall s, grow (sthen (do_dump cf v s) (fun s => match m with [] => sret s | _ => sthen (next cf Tval_sep s) (fun s => obj_loop cf m s) end)) s).
  { intros. apply grow_then; [apply grow_dump|]. intros. apply grow_mrest. }
  apply rsim_then; [apply R_next; exact H| |intros; apply grow_then; [apply grow_string|intros; apply grow_then; [apply grow_next|exact Gr]]].
  intros g1 s1 H1. apply rsim_then; [apply R_string; assumption| |intros; apply grow_then; [apply grow_next|exact Gr]].
  intros g2 s2 H2. apply rsim_then; [apply R_next; exact H2| |exact Gr].
  intros g3 s3 H3. apply rsim_then; [apply Hv; assumption| |intros; apply grow_mrest].
  intros g4 s4 H4. destruct m; [apply rsim_ret; exact H4|]. apply rsim_then; [apply R_next; exact H4|exact (IH F2)|].
  intros. apply grow_obj. apply Forall_forall. intros. apply grow_dump.
Qed.

Lemma R_dump : forall v, follows v.
Proof.
  apply value_rect2.
  - intros _ g s H. apply R_next. exact H.
  - intros z _ g s H. cbn [t_do_dump do_dump]. apply rsim_then; [apply R_next; exact H|intros; apply rsim_ret, I_write; assumption|].
    intros. apply grow_ret. cbn. gr.
  - intros f _ g s H. cbn [t_do_dump do_dump]. apply rsim_then; [apply R_next; exact H|intros; apply R_float; assumption|apply grow_float].
  - intros x F g s H. cbn [t_do_dump do_dump]. inversion F; subst. apply rsim_then; [apply R_next; exact H|intros; apply R_string; assumption|apply grow_string].
  - intros [|] _ g s H; apply R_next; exact H.
  - intros l F Fi g s H. cbn [t_do_dump do_dump]. fold t_arr_loop (arr_loop cf). cbn [leaves] in Fi.
    apply rsim_then; [apply R_next; exact H| |].
    + intros g1 s1 H1. destruct l as [|v l]; [apply R_next; exact H1|]. apply rsim_then; [apply R_arr; assumption|intros; apply R_next; assumption|apply grow_next].
    + intros. destruct l as [|v l]; [apply grow_next|]. apply grow_then; [apply grow_arr; apply Forall_forall; intros; apply grow_dump|intros; apply grow_next].
  - intros m F Fi g s H. cbn [t_do_dump do_dump]. fold t_obj_loop (obj_loop cf). cbn [leaves] in Fi.
    apply rsim_then; [apply R_next; exact H| |].
    + intros g1 s1 H1. destruct m as [|p m]; [apply R_next; exact H1|]. apply rsim_then; [apply R_obj; assumption|intros; apply R_next; assumption|apply grow_next].
    + intros. destruct m as [|p m]; [apply grow_next|]. apply grow_then; [apply grow_obj; apply Forall_forall; intros; apply grow_dump|intros; apply grow_next].
Qed.

Definition t_init (t : T) : tst := mkT (mkTs t false) false Tuninit 0 (if s_ichar cf =? 0 then 0 else s_step cf * 4).
Definition t_run (t : T) (v : value) : tres := tthen (t_do_dump take cf v (t_init t)) (t_next take cf Teoi).
Definition run (v : value) : sres := sthen (do_dump cf v (init_sst cf (mkOs [] false))) (next cf Teoi).
Lemma R_run : forall t v, Forall fine_leaf (leaves v) -> J (mkTs t false) (mkOs [] false) -> rsim (t_run t v) (run v).
Proof.
  intros t v F H. unfold t_run, run. apply rsim_then; [apply R_dump; [exact F|]|intros; apply R_next; assumption|apply grow_next].
  split; [repeat split|exact H].
Qed.
End Sim.
