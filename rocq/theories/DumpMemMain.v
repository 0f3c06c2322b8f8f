(** Dumping when memory runs out: the results. *)
From Coq Require Import Lia ZifyBool ZifyNat ZifyN.
From Verif Require Import Base Stream Encoding Value Token FloatFmt Message Parser DumpText Feeds SpecGrammar SpecDump Serializer Options Target SpecTarget TargetProofs TargetMain DumpMem DumpMemProofs SpecDumpMem DumpMemEnds DumpMemWhen OptionsProofs.
Open Scope N_scope.

Definition regular (cf : scfg) : Prop := s_pretty cf = true -> 0 < s_step cf.

Section Main.
Context {T : Type}.
Variables (take : T -> call -> T * bool) (cf : scfg).
Hypothesis Pr : regular cf.

Lemma t_dump_run : forall h t v, t_dump_to take cf h t v = (ts_buf (t_os (fst (t_run take cf t v))), handle h (snd (t_run take cf t v))).
Proof. intros h t v. unfold t_dump_to. change (tthen _ _) with (t_run take cf t v). destruct (t_run take cf t v). reflexivity. Qed.
Lemma d_dump_run : forall deny h t n v, d_dump_to take deny cf h t n v =
  let '((g, n), r) := d_run take deny cf t n v in (ts_buf (t_os g), n, d_handle deny h n r).
Proof. reflexivity. Qed.

Lemma dump_shallow : forall deny h t n v t', s_ichar cf = 0 \/ s_step cf = 0 \/ (height v <= 4)%nat ->
  t_dump_to take cf HNone t v = (t', (Ret tt, ""%string)) -> d_dump_to take deny cf h t n v = (t', n, (Ret tt, ""%string)).
Proof.
  intros deny h t n v t' F H. rewrite t_dump_run in H. rewrite d_dump_run.
  assert (R : snd (t_run take cf t v) = Ret tt) by (destruct (snd (t_run take cf t v)) as [[]| | | |]; try discriminate H; reflexivity).
  assert (F' : fits cf 0 v) by (destruct F as [F|[F|F]]; [left; left; exact F|left; right; exact F|right; exact F]).
  destruct (lands_run take deny cf Pr t n v F') as [(-> & _ & _)|(msg & c & _ & E & _)]; [|rewrite R in E; discriminate].
  rewrite R in *. inversion H. destruct h; reflexivity.
Qed.
Lemma dump_deep : forall t n v t', s_ichar cf <> 0 -> 0 < s_step cf -> (4 < height v)%nat ->
  t_dump_to take cf HNone t v = (t', (Ret tt, ""%string)) -> fst (snd (d_dump_to take (fun _ => true) cf HNone t n v)) = Throw EAlloc.
Proof.
  intros t n v t' C S M H. rewrite t_dump_run in H. rewrite d_dump_run.
  assert (R : snd (t_run take cf t v) = Ret tt) by (destruct (snd (t_run take cf t v)) as [[]| | | |]; try discriminate H; reflexivity).
  pose proof (deep_run take cf Pr C S t n v M) as D. rewrite R in D. specialize (D Logic.I). destruct (d_run take _ cf t n v) as [[g m] r]. cbn [snd] in D. subst r. reflexivity.
Qed.
Lemma dump_when : forall t n v t', t_dump_to take cf HNone t v = (t', (Ret tt, ""%string)) ->
  ((exists deny, d_dump_to take deny cf HNone t n v <> (t', n, (Ret tt, ""%string))) <-> s_ichar cf <> 0 /\ 0 < s_step cf /\ (4 < height v)%nat).
Proof.
  intros t n v t' H. split.
  - intros [deny N].
    destruct (N.eq_dec (s_ichar cf) 0) as [E|E1]; [destruct N; apply dump_shallow; [left; exact E|exact H]|].
    destruct (N.eq_dec (s_step cf) 0) as [E|E2]; [destruct N; apply dump_shallow; [right; left; exact E|exact H]|].
    destruct (Nat.leb_spec (height v) 4) as [E|E3]; [destruct N; apply dump_shallow; [right; right; exact E|exact H]|]. split; [exact E1|]. split; [lia|exact E3].
  - intros (C & S & M). exists (fun _ => true). intros E. pose proof (dump_deep t n v t' C S M H) as D. rewrite E in D. discriminate D.
Qed.

(** the message *)
Lemma piled_to : forall l k n, piled (fun i => Nat.eqb i (n + k)) l n = (String.concat "" (firstn k l), n + Nat.min (S k) (length l))%nat.
Proof.
  induction l as [|x l IH]; intros k n; cbn [piled]; [rewrite firstn_nil; cbn [length]; rewrite Nat.min_0_r, Nat.add_0_r; reflexivity|].
  destruct k as [|k].
  - rewrite Nat.add_0_r, Nat.eqb_refl. cbn [length firstn String.concat]. f_equal. lia.
  - replace (Nat.eqb n (n + S k)) with false by lia. replace (n + S k)%nat with (S n + k)%nat by lia. rewrite IH. f_equal; [|cbn [length]; lia].
    cbn [firstn String.concat]. destruct (firstn k l); [cbn; clear; induction x as [|a x IH]; cbn; [reflexivity|rewrite IH; reflexivity]|reflexivity].
Qed.
Lemma fail_reach : forall msg c m (g : tst (T := T)) n, clip m msg c -> exists deny n', d_fail deny msg c (g, n) = ((g, n'), Throw (ESer m)).
Proof.
  intros msg c m g n [k ->].
  assert (K : exists k', (k' <= 6)%nat /\ firstn k (code_pieces msg c) = firstn k' (code_pieces msg c)).
  { destruct (Nat.leb_spec k 6); [exists k; auto|]. exists 6%nat. split; [lia|]. rewrite !firstn_all2 by (cbn; lia). reflexivity. }
  destruct K as (k' & L & E). change (firstn k _) with (firstn k (code_pieces msg c)). rewrite E.
  exists (fun i => Nat.eqb i (if (k' =? 6)%nat then n + 100 else S n + k')%nat). unfold d_fail, request. cbn [fst snd].
  replace (Nat.eqb n _) with false by (destruct (Nat.eqb_spec k' 6); lia). cbn [dthen fst snd].
  destruct (Nat.eqb_spec k' 6) as [->|N].
  - replace (n + 100)%nat with (S n + 99)%nat by lia. rewrite piled_to. change (length (code_pieces msg c)) with 6%nat. change (Nat.min 100 6) with 6%nat.
    replace (Nat.eqb (S n + 6) (S n + 99)) with false by lia. cbn [dthen fst snd]. replace (Nat.eqb (S (S n + 6)) (S n + 99)) with false by lia. cbn [dthen].
    rewrite (firstn_all2 (n := 99)) by (cbn; lia). rewrite (firstn_all2 (n := 6)) by (cbn; lia). eexists. reflexivity.
  - rewrite piled_to. change (length (code_pieces msg c)) with 6%nat. replace (Nat.min (S k') 6) with (S k') by lia.
    replace (Nat.eqb (S n + S k') (S n + k')) with false by lia. cbn [dthen fst snd]. replace (Nat.eqb (S (S n + S k')) (S n + k')) with false by lia. cbn [dthen]. eexists. reflexivity.
Qed.
Lemma app_same : forall (a b c d : string), String.length a = String.length c -> (a ++ b = c ++ d)%string -> a = c /\ b = d.
Proof.
  induction a as [|x a IH]; intros b [|y c] d L E; try discriminate L; cbn in *; [auto|]. inversion E as [[E1 E2]]. subst. inversion L as [L'].
  destruct (IH b c d L' E2) as [-> ->]. auto.
Qed.
Lemma app_last : forall (a b : string) x y, (a ++ String x "" = b ++ String y "")%string -> a = b.
Proof.
  induction a as [|u a IH]; intros [|w b] x y E; cbn in E; [reflexivity| | |].
  - inversion E as [[E1 E2]]. destruct b; discriminate E2.
  - inversion E as [[E1 E2]]. destruct a; discriminate E2.
  - inversion E as [[E1 E2]]. f_equal. eapply IH. exact E2.
Qed.
Lemma same_code : forall msg c msg' c', In msg ["unexpected character"; "encoding failed with codepoint"]%string -> In msg' ["unexpected character"; "encoding failed with codepoint"]%string ->
  with_code msg c = with_code msg' c' -> code_pieces msg c = code_pieces msg' c'.
Proof.
  intros msg c msg' c' I I' E. unfold with_code in E. unfold code_pieces. set (x := bytes (pad_left 4 c_0 (hex_digits c))) in *. set (y := bytes (pad_left 4 c_0 (hex_digits c'))) in *.
  assert (Em : msg = msg') by (destruct I as [<-|[<-|[]]]; destruct I' as [<-|[<-|[]]]; try reflexivity; discriminate E).
  subst msg'. apply app_same in E; [|reflexivity]. destruct E as [_ E]. apply app_same in E; [|reflexivity]. destruct E as [_ E].
  apply app_last in E. change (bytes (json_hex 4 c)) with (bytes [c_bslash; c_u] ++ x)%string in E. change (bytes (json_hex 4 c')) with (bytes [c_bslash; c_u] ++ y)%string in E.
  apply app_same in E; [|reflexivity]. destruct E as [_ ->]. reflexivity.
Qed.
Lemma dump_message : forall t n v t' e s, s_ichar cf = 0 \/ s_step cf = 0 \/ (height v <= 4)%nat ->
  t_dump_to take cf HNone t v = (t', (Throw e, s)) ->
  exists msg c, In msg ["unexpected character"; "encoding failed with codepoint"]%string /\ e = ESer (with_code msg c) /\
    forall r, (exists deny, fst (snd (d_dump_to take deny cf HNone t n v)) = r) <-> r = Throw EAlloc \/ exists m, clip m msg c /\ r = Throw (ESer m).
Proof.
  intros t n v t' e s F H. rewrite t_dump_run in H.
  assert (R : snd (t_run take cf t v) = Throw e) by (destruct (snd (t_run take cf t v)) as [[]| | | |]; inversion H; reflexivity).
  assert (F' : fits cf 0 v) by (destruct F as [F|[F|F]]; [left; left; exact F|left; right; exact F|right; exact F]).
  assert (L : forall deny, exists msg c, In msg ["unexpected character"; "encoding failed with codepoint"]%string /\ e = ESer (with_code msg c) /\
              d_run take deny cf t n v = d_fail deny msg c (fst (t_run take cf t v), n)).
  { intros deny. destruct (lands_run take deny cf Pr t n v F') as [(_ & N & _)|(msg & c & I & E & X)]; [destruct (N _ R)|]. exists msg, c. rewrite R in E. inversion E. auto. }
  destruct (L (fun _ => true)) as (msg & c & I & E & _). exists msg, c. split; [exact I|]. split; [exact E|].
  assert (L' : forall deny, d_run take deny cf t n v = d_fail deny msg c (fst (t_run take cf t v), n)).
  { intros deny. destruct (L deny) as (msg' & c' & I' & E' & ->). unfold d_fail. rewrite (same_code msg' c' msg c I' I); [reflexivity|]. rewrite E in E'. inversion E'. reflexivity. }
  assert (D : forall deny, fst (snd (d_dump_to take deny cf HNone t n v)) = snd (d_fail deny msg c (fst (t_run take cf t v), n))).
  { intros deny. rewrite d_dump_run, L'. destruct (d_fail deny msg c _) as [[g m] r]. cbn [fst snd]. destruct r; reflexivity. }
  intros r. split.
  - intros [deny <-]. rewrite D. destruct (fail_ends deny msg c (fst (t_run take cf t v)) n) as (n' & r & -> & [->|(m & C & ->)]); cbn [snd]; [left; reflexivity|right; eauto].
  - intros [->|(m & C & ->)].
    + exists (fun _ => true). rewrite D. reflexivity.
    + destruct (fail_reach msg c m (fst (t_run take cf t v)) n C) as (deny & n' & X). exists deny. rewrite D, X. reflexivity.
Qed.
End Main.

(** ** The call on a stream *)
Lemma denied_none : forall deny n k, (forall i, deny i = false) -> denied deny n k = false.
Proof.
  intros deny n k H. unfold denied. destruct (existsb deny (seq n k)) eqn:E; [|reflexivity]. apply existsb_exists in E. destruct E as (x & _ & E). rewrite H in E. discriminate E.
Qed.
Lemma stream_enough : forall T (take : T -> call -> T * bool) deny dflt vck ock opts o v, (forall k, deny k = false) ->
  d_dump take deny dflt vck ock opts o v =
  let '(cf, h) := serializer_of dflt vck ock (u_fmt o) opts in
  let '(t, r) := t_dump_to take cf h (u_buf o) v in
  (mkU t (u_good o) (mkFmt 0 (f_fill (u_fmt o)) (f_prec (u_fmt o)) (f_ff (u_fmt o))), r).
Proof.
  intros T take deny dflt vck ock opts o v H. unfold d_dump. rewrite !denied_none by exact H. destruct (serializer_of dflt vck ock (u_fmt o) opts) as [cf h].
  match goal with |- context [d_dump_to take deny cf h (u_buf o) ?n v] => destruct (d_dump_to take deny cf h (u_buf o) n v) as [[t n'] r] eqn:E end.
  rewrite (dump_enough _ _ _ _ _ _ _ _ _ _ E); [reflexivity|]. intros. apply H.
Qed.
Lemma stream_ends : forall T (take : T -> call -> T * bool) deny dflt vck ock opts o v o' rm, d_dump take deny dflt vck ock opts o v = (o', rm) ->
  u_good o' = u_good o /\ f_fill (u_fmt o') = f_fill (u_fmt o) /\ f_prec (u_fmt o') = f_prec (u_fmt o) /\ f_ff (u_fmt o') = f_ff (u_fmt o) /\
  ((f_width (u_fmt o') = f_width (u_fmt o) /\ u_buf o' = u_buf o /\ rm = (Throw EAlloc, ""%string) /\ exists k, deny k = true) \/
   f_width (u_fmt o') = 0%Z /\
   ((u_buf o' = u_buf o /\ rm = (Throw EAlloc, ""%string) /\ exists k, deny k = true) \/
    let '(cf, h) := serializer_of dflt vck ock (u_fmt o) opts in
    let '(out, (r0, _)) := dump_to cf HNone (mkOs [] false) v in
    exists cs b rest, gets take (u_buf o) cs (u_buf o') b /\ out = calls_text ock cs ++ rest /\ may_say h b rest r0 rm)).
Proof.
  assert (Dn : forall deny n k, denied deny n k = true -> exists i : nat, deny i = true).
  { intros deny n k H. apply existsb_exists in H. destruct H as (x & _ & E). eauto. }
  intros T take deny dflt vck ock opts o v o' rm H. unfold d_dump in H.
  destruct (denied deny 0 _) eqn:D1; [inversion H; subst; apply Dn in D1; repeat (split; [reflexivity|]); left; repeat (split; [reflexivity|]); exact D1|].
  destruct (denied deny _ (opt_asks opts)) eqn:D2; [inversion H; subst; apply Dn in D2; cbn; repeat (split; [reflexivity|]); right; split; [reflexivity|]; left; repeat (split; [reflexivity|]); exact D2|].
  pose proof (OptionsProofs.serializer_says dflt vck ock (u_fmt o) opts) as S. destruct (serializer_of dflt vck ock (u_fmt o) opts) as [cf h].
  destruct S as (_ & _ & _ & _ & _ & _ & _ & <-).
  match type of H with context [d_dump_to take deny cf h (u_buf o) ?n v] => destruct (dump_ends take deny cf (u_buf o) h n v) as (t & n' & cs & b & rest & rm' & E & G & K) end.
  rewrite E in H. inversion H; subst. cbn [u_good u_fmt u_buf f_width f_fill f_prec f_ff]. repeat (split; [reflexivity|]). right. split; [reflexivity|]. right.
  destruct (dump_to cf HNone (mkOs [] false) v) as [out [r0 m0]]. destruct K as [K1 K2]. exists cs, b, rest. auto.
Qed.

(** ** A new string *)
Lemma gets_room : forall ck full a cs z b, gets (room_take ck full) a cs z b ->
  exists rest, fst a ++ calls_text ck cs = fst z ++ rest /\ (b = true -> rest = []) /\ ((forall k, full k = false) -> b = true).
Proof.
  intros ck full a cs z b H. induction H as [t|t c t' E|t c t1 cs t' b E H (rest & I1 & I2 & I3)].
  - exists []. split; [reflexivity|]. auto.
  - unfold room_take in E. exists (call_text ck c). unfold calls_text. cbn [map concat]. rewrite app_nil_r. change (match c with Put u => _ | Write l => l end) with (call_text ck c) in E.
    destruct (call_text ck c); [discriminate E|]. destruct (full (snd t)) eqn:F; inversion E; subst. cbn [fst]. split; [reflexivity|]. split; [discriminate|]. intros N. rewrite N in F. discriminate F.
  - exists rest. split; [|auto]. unfold room_take in E. change (match c with Put u => _ | Write l => l end) with (call_text ck c) in E.
    change (calls_text ck (c :: cs)) with (call_text ck c ++ calls_text ck cs). rewrite app_assoc.
    destruct (call_text ck c) eqn:C; [inversion E; subst; rewrite app_nil_r; exact I1|]. destruct (full (snd t)); inversion E; subst. exact I1.
Qed.
Lemma new_string : forall full deny dflt vck ock opts v s m, dump_new full deny dflt vck ock opts v = (Ret s, m) ->
  let '(cf, h) := serializer_of dflt vck ock fmt_default opts in
  let '(out, (r0, _)) := dump_to cf HNone (mkOs [] false) v in
  exists rest, out = s ++ rest /\ (h = HNone -> r0 = Ret tt) /\ (h = HNone -> (forall k, full k = false) -> rest = []).
Proof.
  intros full deny dflt vck ock opts v s m H. unfold dump_new in H. destruct (d_dump _ deny dflt vck ock opts _ v) as [o' [r m']] eqn:E.
  apply stream_ends in E. destruct E as (_ & _ & _ & _ & E). destruct r as [[]|e| | |]; try discriminate H. cbn [bind] in H. inversion H; subst.
  destruct E as [(_ & _ & X & _)|(_ & [(_ & X & _)|E])]; try discriminate X. cbn [u_fmt u_buf] in E.
  destruct (serializer_of dflt vck ock fmt_default opts) as [cf h]. destruct (dump_to cf HNone (mkOs [] false) v) as [out [r0 m0]].
  destruct E as (cs & b & rest & G & O & x & M & Hx). destruct (gets_room _ _ _ _ _ _ G) as (more & T1 & T2 & T3). cbn [fst app] in T1.
  exists (more ++ rest). split; [rewrite O, T1, app_assoc; reflexivity|].
  assert (N : h = HNone -> x = Ret tt).
  { intros ->. destruct Hx as [Hx|(_ & X & _)]; [|discriminate X]. destruct x as [[]| | | |]; inversion Hx; reflexivity. }
  split.
  - intros Z. specialize (N Z). subst x. inversion M; subst; reflexivity.
  - intros Z F. specialize (N Z). subst x. rewrite (T2 (T3 F)). inversion M; subst. rewrite H0 by (apply T3; exact F). reflexivity.
Qed.
Lemma width_kept : forall T (take : T -> call -> T * bool) deny dflt vck ock opts o v,
  f_width (u_fmt (fst (d_dump take deny dflt vck ock opts o v))) <> 0%Z <->
  f_width (u_fmt o) <> 0%Z /\ (deny 0%nat = true \/ (f_fill (u_fmt o) <> 0 /\ (f_width (u_fmt o) mod 256 <> 0)%Z /\ deny 1%nat = true)).
Proof.
  intros T take deny dflt vck ock opts o v. unfold d_dump. set (k := ind_asks _ _).
  assert (D : denied deny 0 (S k) = true <-> deny 0%nat = true \/ (f_fill (u_fmt o) <> 0 /\ (f_width (u_fmt o) mod 256 <> 0)%Z /\ deny 1%nat = true)).
  { subst k. unfold denied, ind_asks. pose proof (Z.mod_pos_bound (f_width (u_fmt o)) 256 ltac:(lia)) as B.
    destruct (N.eqb_spec (f_fill (u_fmt o)) 0) as [F|F]; cbn [orb seq existsb]; [rewrite orb_false_r; tauto|].
    destruct (N.eqb_spec (Z.to_N (f_width (u_fmt o) mod 256)) 0) as [W|W]; cbn [seq existsb]; rewrite orb_false_r; [split; [auto|intros [?|(_ & ? & _)]; [assumption|lia]]|].
    destruct (deny 0%nat); cbn [orb]; [tauto|]. split; [intros; right; repeat split; [assumption|lia|assumption]|intros [?|(_ & _ & ?)]; [discriminate|assumption]]. }
  destruct (denied deny 0 (S k)).
  - cbn [fst]. assert (deny 0%nat = true \/ (f_fill (u_fmt o) <> 0 /\ (f_width (u_fmt o) mod 256 <> 0)%Z /\ deny 1%nat = true)) by (apply D; reflexivity). tauto.
  - match goal with |- context [fst ?x] => assert (Z0 : f_width (u_fmt (fst x)) = 0%Z) end.
    { destruct (denied deny _ (opt_asks opts)); [reflexivity|]. destruct (serializer_of dflt vck ock (u_fmt o) opts) as [cf h]. destruct (d_dump_to take deny cf h (u_buf o) _ v) as [[t n'] r]. reflexivity. }
    rewrite Z0. split; [intros X; destruct X; reflexivity|]. intros [_ X]. apply D in X. discriminate X.
Qed.
