(** What comes before a token boundary does not depend on what comes after
    it, as long as a number before the boundary still ends there. *)
From Coq Require Import Lia ZifyBool ZifyNat ZifyN.
From Verif Require Import Base Stream Encoding Value Token Message Parser EncodingProofs Feeds ListMachine Simulation SimParse
  SpecUnicode SpecGrammar GrammarLex GrammarTok ObjFacts GrammarProofs SpecPos SpecGap PosSound Mono.

Scheme in_spot_mut := Minimality for in_spot Sort Prop
  with e_spot_mut := Minimality for e_spot Sort Prop
  with m_spot_mut := Minimality for m_spot Sort Prop.

(** ** Blanks *)

Definition solid (l : list N) : Prop := match l with [] => True | c :: _ => ~ space c /\ c <> 47 end.

Lemma blank_solid : forall l r, blank l r -> solid r.
Proof. intros l r H. induction H; auto. exact I. Qed.

Lemma gap_app : forall g, gap g -> forall g', gap g' -> gap (g ++ g').
Proof.
  intros g H. induction H; intros g' H'; cbn [app]; auto.
  - constructor; auto.
  - rewrite <- app_assoc. cbn [app]. apply gp_line; auto.
  - rewrite <- app_assoc. cbn [app]. apply gp_block; auto.
Qed.

Lemma gap_blank : forall g, gap g -> forall l r, blank l r -> blank (g ++ l) r.
Proof.
  intros g H. induction H; intros l r B; cbn [app]; auto.
  - apply bl_space; auto.
  - rewrite <- app_assoc. cbn [app]. apply bl_line; auto.
  - rewrite <- app_assoc. cbn [app]. apply bl_block; auto.
Qed.

Lemma blank_gap : forall l r, blank l r -> r <> [] -> exists g, gap g /\ l = g ++ r.
Proof.
  intros l r H. induction H as [l H|c l l' H B IH|b n l l' H1 H2 B IH|b H|b l l' H B IH]; intro N.
  - exists []. split; [constructor|reflexivity].
  - destruct (IH N) as (g & G & ->). exists (c :: g). split; [constructor; assumption|reflexivity].
  - destruct (IH N) as (g & G & ->). exists (47 :: 47 :: b ++ n :: g). split; [apply gp_line; assumption|].
    cbn [app]. rewrite <- app_assoc. reflexivity.
  - congruence.
  - destruct (IH N) as (g & G & ->). exists (47 :: 42 :: b ++ 42 :: 47 :: g). split; [apply gp_block; assumption|].
    cbn [app]. rewrite <- app_assoc. reflexivity.
Qed.

Lemma blank_cons : forall l c r, blank l (c :: r) -> exists g, l = g ++ c :: r /\ forall r', blank (g ++ c :: r') (c :: r').
Proof.
  intros l c r H. pose proof (blank_solid _ _ H) as S. destruct (blank_gap _ _ H ltac:(discriminate)) as (g & G & ->).
  exists g. split; [reflexivity|]. intro r'. apply gap_blank; [assumption|]. apply bl_none. exact S.
Qed.

(** the machine skips a gap *)
Lemma skip_gap : forall t g, gap g -> forall r, r <> [] -> a_skip MWs t (g ++ r) = a_skip MWs t r.
Proof.
  intros t g H. 
  assert (G0 : forall A (l r : list N) (k : outcome A), r <> [] -> guard t (l ++ r) k = k).
  { intros A l r k N. destruct l, r; cbn; try reflexivity. congruence. }
  assert (G1 : forall A (l r : list N) c (k : outcome A), guard t (l ++ c :: r) k = k).
  { intros A l r c k. destruct l; reflexivity. }
  induction H as [|c g H G IH|b n g H1 H2 G IH|b g H G IH]; intros r N; cbn [app].
  - reflexivity.
  - rewrite skip_ws_eq. replace (is_space c) with true.
    + rewrite G0 by assumption. apply IH; assumption.
    + unfold space in H. unfold is_space. symmetry. lia.
  - rewrite skip_ws_eq. change (is_space 47) with false. change (47 =? 47) with true. cbv iota.
    cbn [guard]. rewrite <- app_assoc. cbn [app].
    assert (X : forall b x, Forall (fun c => ~ newline c) b -> a_skip MLine t (x :: b ++ n :: g ++ r) = a_skip MWs t (g ++ r)).
    { clear b H1. intros b x F. revert x. induction F as [|c b Hc F IHb]; intro x; cbn [app]; rewrite skip_line_eq; cbn [guard].
      - replace (is_nl n) with true by (unfold newline in H2; unfold is_nl; symmetry; lia).
        rewrite skip_ws_eq. replace (is_space n) with true by (unfold newline in H2; unfold is_space; symmetry; lia).
        apply G0; assumption.
      - replace (is_nl c) with false by (unfold newline in Hc; unfold is_nl; symmetry; lia).
        apply IHb. }
    rewrite X by assumption. apply IH; assumption.
  - rewrite skip_ws_eq. change (is_space 47) with false. change (47 =? 47) with true. cbv iota.
    cbn [guard]. change (42 =? 47) with false. change (42 =? 42) with true. cbv iota.
    rewrite <- app_assoc. cbn [app].
    assert (X : forall b, comment_body b -> forall x, a_skip MBlock t (x :: b ++ 42 :: 47 :: g ++ r) = a_skip MWs t (g ++ r)).
    { clear b H. intros b F. induction F as [|c b Hc F IHb|c b Hc F IHb]; intro x; cbn [app]; rewrite skip_block_eq; cbn [guard].
      - change (42 =? 42) with true. change (47 =? 47) with true. cbv iota. apply G0; assumption.
      - replace (c =? 42) with false by lia. apply IHb.
      - change (42 =? 42) with true. cbv iota. replace (c =? 47) with false by lia. apply IHb. }
    rewrite X by assumption. apply IH; assumption.
Qed.

Lemma scan_gap : forall cf t g r, gap g -> r <> [] -> a_scan cf t (g ++ r) = a_scan cf t r.
Proof. intros. unfold a_scan. rewrite skip_gap; auto. Qed.

(** ** Replacing what follows a phrase *)

Definition compat (ck : ckind) (l l' : list N) : Prop :=
  l <> [] /\ (no_digit ck l -> no_digit ck l') /\ (no_frac l -> no_frac l') /\ (no_exp l -> no_exp l').

Lemma compat_head : forall ck c l l', compat ck (c :: l) (c :: l').
Proof. intros. split; [discriminate|]. split; [auto|split; auto]. Qed.

Lemma compat_stop : forall ck l c l', l <> [] -> ~ digit ck c -> c <> 46 -> c <> 101 -> c <> 69 ->
  compat ck l (c :: l').
Proof. intros. split; [assumption|]. cbn. split; [auto|split; auto]. Qed.

Lemma compat_app : forall ck w c l l', compat ck (w ++ c :: l) (w ++ c :: l').
Proof. intros ck [|x w] c l l'; apply compat_head. Qed.

Lemma next_app : forall l c ds l1, next l c (ds ++ l1) -> l1 <> [] ->
  l = c :: ds ++ l1 /\ forall l2, next (c :: ds ++ l2) c (ds ++ l2).
Proof.
  intros l c ds l1 H N. inversion H; subst.
  - exfalso. destruct ds; cbn in *; congruence.
  - split; [reflexivity|]. intro. constructor.
Qed.

Section Rep.
Variable ck : ckind.

Lemma rep_exponent : forall f l v l1, exponent ck f l v l1 -> l1 <> [] ->
  exists w, l = w ++ l1 /\ forall l2, compat ck l1 l2 -> exponent ck f (w ++ l2) v l2.
Proof.
  intros f l v l1 H N. destruct H as [c ds l' D Z F Nd|l c ds l' Nx F Nd|l c ds l' Nx F Nd].
  - exists (c :: ds). split; [reflexivity|]. intros l2 (_ & C & _). cbn [app]. constructor; auto.
  - destruct (next_app _ _ _ _ Nx N) as [-> X]. exists (43 :: c :: ds). split; [reflexivity|].
    intros l2 (_ & C & _). cbn [app]. apply ex_plus; auto.
  - destruct (next_app _ _ _ _ Nx N) as [-> X]. exists (45 :: c :: ds). split; [reflexivity|].
    intros l2 (_ & C & _). cbn [app]. apply ex_minus; auto.
Qed.

Lemma rep_fraction : forall z l v l1, fraction ck z l v l1 -> l1 <> [] ->
  exists w, l = w ++ l1 /\ forall l2, compat ck l1 l2 -> fraction ck z (w ++ l2) v l2.
Proof.
  intros z l v l1 H N. destruct H as [d ds l' f l1 F Nd E].
  destruct E as [l' Ne|e l f' l' Ie E].
  - exists (d :: ds). split; [reflexivity|]. intros l2 (_ & C1 & C2 & C3). cbn [app].
    econstructor; [assumption|auto|constructor; auto].
  - destruct (rep_exponent _ _ _ _ E N) as (w & -> & R). exists (d :: ds ++ e :: w).
    split; [cbn [app]; rewrite <- app_assoc; reflexivity|]. intros l2 C. cbn [app]. rewrite <- app_assoc. cbn [app].
    econstructor; [assumption|exact Nd|apply eo_some; auto].
Qed.

Lemma rep_unsigned : forall nd l v l1, unsigned ck nd l v l1 -> l1 <> [] ->
  exists w, w <> [] /\ l = w ++ l1 /\ hd0 l = hd0 w /\ forall l2, compat ck l1 l2 -> unsigned ck nd (w ++ l2) v l2.
Proof.
  intros nd l v l1 H N.
  destruct H as [l Nf|l f l' F|l c ds l' Nx Nz D F Nd Nf Le|l c ds l1 f l' Nx Nz D F Le Fr|l c ds e l1 f l' Nx Nz D Ie F Le E].
  - exists [48]. repeat split; [discriminate|]. intros l2 (_ & _ & C & _). apply un_zero. auto.
  - destruct (rep_fraction _ _ _ _ F N) as (w & -> & R). exists (48 :: 46 :: w). repeat split; [discriminate|].
    intros l2 C. cbn [app]. apply un_zero_frac. auto.
  - destruct (next_app _ _ _ _ Nx N) as [-> X]. exists (c :: ds). repeat split; [discriminate|].
    intros l2 (_ & C1 & C2 & _). cbn [app]. apply un_int; auto.
  - destruct (next_app _ c ds _ Nx ltac:(discriminate)) as [-> X].
    destruct (rep_fraction _ _ _ _ Fr N) as (w & -> & R). exists (c :: ds ++ 46 :: w).
    repeat split; [discriminate|cbn [app]; rewrite <- app_assoc; reflexivity|].
    intros l2 C. cbn [app]. rewrite <- app_assoc. cbn [app]. eapply un_frac; eauto.
  - destruct (next_app _ c ds _ Nx ltac:(discriminate)) as [-> X].
    destruct (rep_exponent _ _ _ _ E N) as (w & -> & R). exists (c :: ds ++ e :: w).
    repeat split; [discriminate|cbn [app]; rewrite <- app_assoc; reflexivity|].
    intros l2 C. cbn [app]. rewrite <- app_assoc. cbn [app]. eapply un_exp; eauto.
Qed.

Lemma rep_number : forall nd l v l1, number ck nd l v l1 -> l1 <> [] ->
  exists w, w <> [] /\ l = w ++ l1 /\ forall l2, compat ck l1 l2 -> number ck nd (w ++ l2) v l2.
Proof.
  intros nd l v l1 H N. destruct H as [c l v l' C1 C2 U|l v l' U|l v l' U];
    destruct (rep_unsigned _ _ _ _ U N) as (w & Nw & E & Hd & R).
  - destruct w as [|x w]; [congruence|]. cbn [app] in *. inversion E; subst. exists (x :: w). repeat split; auto.
    intros l2 C. cbn [app]. apply nu_plain; auto.
  - subst l. exists (43 :: w). repeat split; [discriminate|]. intros l2 C. cbn [app]. apply nu_plus. auto.
  - subst l. exists (45 :: w). repeat split; [discriminate|]. intros l2 C. cbn [app]. apply nu_minus. auto.
Qed.

Lemma rep_literal : forall l v l1, literal ck l v l1 ->
  exists w, w <> [] /\ l = w ++ l1 /\ forall l2, literal ck (w ++ l2) v l2.
Proof.
  intros l v l1 H. destruct H as [w l M|w l M|w l M].
  - exists (116 :: w). repeat split; [discriminate|]. intro. cbn [app]. constructor; assumption.
  - exists (102 :: w). repeat split; [discriminate|]. intro. cbn [app]. constructor; assumption.
  - exists (110 :: w). repeat split; [discriminate|]. intro. cbn [app]. constructor; assumption.
Qed.

Lemma rep_strlit : forall e tk l s l1, strlit e tk l s l1 ->
  exists w, w <> [] /\ l = w ++ l1 /\ forall l2, strlit e tk (w ++ l2) s l2.
Proof.
  intros e tk l s l1 H. destruct H as [b cps s l' I O]. exists (34 :: b ++ [34]).
  repeat split; [discriminate|cbn [app]; rewrite <- app_assoc; reflexivity|].
  intro l2. cbn [app]. rewrite <- app_assoc. cbn [app]. econstructor; eassumption.
Qed.
End Rep.

Section RepVal.
Variable cf : pcfg.

Definition r_val (l : list N) (v : value) (l1 : list N) := l1 <> [] ->
  exists w, w <> [] /\ l = w ++ l1 /\ forall l2, compat (src_ck cf) l1 l2 -> val cf (w ++ l2) v l2.
Definition r_elems (l : list N) (vs : list value) (l1 : list N) :=
  exists w, w <> [] /\ l = w ++ l1 /\ forall l2, elems cf (w ++ l2) vs l2.
Definition r_members (l : list N) (ms : list (str * value)) (l1 : list N) :=
  exists w, w <> [] /\ l = w ++ l1 /\ forall l2, members cf (w ++ l2) ms l2.

Lemma app_cons_ne : forall A (x : A) g l, g ++ x :: l <> [].
Proof. intros A x [|y g] l; discriminate. Qed.

Lemma app_nonnil : forall A (g w : list A), w <> [] -> g ++ w <> [].
Proof. intros A [|y g] w H; [exact H|discriminate]. Qed.

Lemma blank_ne : forall l r, blank l r -> r <> [] -> l <> [].
Proof. intros l r B N. destruct (blank_gap _ _ B N) as (g & _ & ->). apply app_nonnil; assumption. Qed.

(** a non-empty word keeps its first character *)
Lemma blank_word : forall l w l1, w <> [] -> blank l (w ++ l1) ->
  exists g, l = g ++ w ++ l1 /\ forall l2, blank (g ++ w ++ l2) (w ++ l2).
Proof.
  intros l [|c w] l1 N B; [congruence|]. cbn [app] in *. destruct (blank_cons _ _ _ B) as (g & -> & R).
  exists g. split; [reflexivity|]. intro. apply R.
Qed.

Ltac asc := repeat rewrite <- app_assoc; cbn [app]; repeat rewrite <- app_assoc; cbn [app]; reflexivity.

Lemma rep_val : forall l v l1, val cf l v l1 -> r_val l v l1.
Proof.
  apply (val_mut cf r_val r_elems r_members).
  - intros l l1 v l' B L N. destruct (rep_literal _ _ _ _ L) as (w & Nw & -> & R).
    destruct (blank_word _ _ _ Nw B) as (g & -> & Rb). exists (g ++ w). split; [apply app_nonnil; assumption|].
    split; [asc|]. intros l2 C. rewrite <- app_assoc. eapply v_lit; [apply Rb|apply R].
  - intros l l1 v l' B L N. destruct (rep_number _ _ _ _ _ L N) as (w & Nw & -> & R).
    destruct (blank_word _ _ _ Nw B) as (g & -> & Rb). exists (g ++ w). split; [apply app_nonnil; assumption|].
    split; [asc|]. intros l2 C. rewrite <- app_assoc. eapply v_num; [apply Rb|apply R; assumption].
  - intros l l1 s l' B L N. destruct (rep_strlit _ _ _ _ _ L) as (w & Nw & -> & R).
    destruct (blank_word _ _ _ Nw B) as (g & -> & Rb). exists (g ++ w). split; [apply app_nonnil; assumption|].
    split; [asc|]. intros l2 C. rewrite <- app_assoc. eapply v_str; [apply Rb|apply R].
  - intros l l1 vs l' B _ (w & Nw & -> & R) N. destruct (blank_cons _ _ _ B) as (g & -> & Rb).
    exists (g ++ 91 :: w). split; [apply app_cons_ne|]. split; [asc|].
    intros l2 C. rewrite <- app_assoc. cbn [app]. eapply v_arr; [apply Rb|apply R].
  - intros l l1 ms m l' B _ (w & Nw & -> & R) O N. destruct (blank_cons _ _ _ B) as (g & -> & Rb).
    exists (g ++ 123 :: w). split; [apply app_cons_ne|]. split; [asc|].
    intros l2 C. rewrite <- app_assoc. cbn [app]. eapply v_obj; [apply Rb|apply R|assumption].
  - intros l l' B. destruct (blank_cons _ _ _ B) as (g & -> & Rb). exists (g ++ [93]).
    split; [apply app_cons_ne|]. split; [asc|]. intro l2. rewrite <- app_assoc. cbn [app]. apply el_end, Rb.
  - intros l v l1 l' _ IH B. destruct (blank_cons _ _ _ B) as (g & -> & Rb).
    destruct (IH (app_cons_ne _ _ _ _)) as (w & Nw & -> & R). exists (w ++ g ++ [93]).
    split; [intro X; apply Nw; destruct w; [reflexivity|discriminate X]|]. split; [asc|].
    intro l2. repeat rewrite <- app_assoc. cbn [app]. eapply el_last; [apply R, compat_app|apply Rb].
  - intros l v l1 l2 vs l' _ IH B _ (we & Nwe & -> & Re). destruct (blank_cons _ _ _ B) as (g & -> & Rb).
    destruct (IH (app_cons_ne _ _ _ _)) as (w & Nw & -> & R). exists (w ++ g ++ 44 :: we).
    split; [intro X; apply Nw; destruct w; [reflexivity|discriminate X]|]. split; [asc|].
    intro l2. repeat rewrite <- app_assoc. cbn [app]. eapply el_more; [apply R, compat_app|apply Rb|apply Re].
  - intros l l' B. destruct (blank_cons _ _ _ B) as (g & -> & Rb). exists (g ++ [125]).
    split; [apply app_cons_ne|]. split; [asc|]. intro l2. rewrite <- app_assoc. cbn [app]. apply me_end, Rb.
  - intros l l1 k l2 l' B L B2. destruct (rep_strlit _ _ _ _ _ L) as (w & Nw & -> & R).
    destruct (blank_word _ _ _ Nw B) as (g & -> & Rb). destruct (blank_cons _ _ _ B2) as (g2 & -> & Rb2).
    exists (g ++ w ++ g2 ++ [125]). split; [apply app_nonnil; intro X; apply Nw; destruct w; [reflexivity|discriminate X]|].
    split; [asc|]. intro l2. repeat rewrite <- app_assoc. cbn [app]. eapply me_key; [apply Rb|apply R|apply Rb2].
  - intros l l1 k l2 l3 v l4 l' B L B2 _ IH B3. destruct (rep_strlit _ _ _ _ _ L) as (w & Nw & -> & R).
    destruct (blank_word _ _ _ Nw B) as (g & -> & Rb). destruct (blank_cons _ _ _ B2) as (g2 & -> & Rb2).
    destruct (blank_cons _ _ _ B3) as (g3 & -> & Rb3).
    destruct (IH (app_cons_ne _ _ _ _)) as (wv & Nwv & -> & Rv).
    exists (g ++ w ++ g2 ++ 58 :: wv ++ g3 ++ [125]).
    split; [apply app_nonnil; intro X; apply Nw; destruct w; [reflexivity|discriminate X]|].
    split; [asc|]. intro l2. repeat (rewrite <- app_assoc; cbn [app]).
    eapply me_last; [apply Rb|apply R|apply Rb2|apply Rv, compat_app|apply Rb3].
  - intros l l1 k l2 l3 v l4 l5 ms l' B L B2 _ IH B3 _ (wm & Nwm & -> & Rm).
    destruct (rep_strlit _ _ _ _ _ L) as (w & Nw & -> & R).
    destruct (blank_word _ _ _ Nw B) as (g & -> & Rb). destruct (blank_cons _ _ _ B2) as (g2 & -> & Rb2).
    destruct (blank_cons _ _ _ B3) as (g3 & -> & Rb3).
    destruct (IH (app_cons_ne _ _ _ _)) as (wv & Nwv & -> & Rv).
    exists (g ++ w ++ g2 ++ 58 :: wv ++ g3 ++ 44 :: wm).
    split; [apply app_nonnil; intro X; apply Nw; destruct w; [reflexivity|discriminate X]|].
    split; [asc|]. intro l2. repeat (rewrite <- app_assoc; cbn [app]).
    eapply me_more; [apply Rb|apply R|apply Rb2|apply Rv, compat_app|apply Rb3|apply Rm].
Qed.
End RepVal.

(** ** The machine after a boundary *)

Definition after_elem (cf : pcfg) (t : term) (n : nat) (vs : list value) (l : list N) :=
  match a_scan cf t l with
  | Ret (AT Tval_sep, l) => a_arr cf t n vs l
  | Ret (k, l) => (vs, Ret (k, l))
  | r => (vs, stop r)
  end.
Definition after_mem (cf : pcfg) (t : term) (n : nat) (m : list (str * value)) (l : list N) :=
  match a_scan cf t l with
  | Ret (AT Tval_sep, l) => a_obj cf t n m l
  | Ret (k, l) => (m, Ret (k, l))
  | r => (m, stop r)
  end.
Definition after_key (cf : pcfg) (t : term) (n : nat) (m : list (str * value)) (k : str) (l : list N) :=
  match a_scan cf t l with
  | Ret (AT Tname_sep, l) =>
      let '(v, r) := a_parse cf t n VNull None l in
      match r with
      | Ret l => after_mem cf t n (obj_emplace k v m) l
      | r => (m, stop r)
      end
  | Ret (x, l) => (m, Ret (x, l))
  | r => (m, stop r)
  end.
Definition after_doc (cf : pcfg) (t : term) (v : value) (l : list N) : value * outcome unit :=
  (v, let* r := a_scan cf t l in
      match fst r with AT Teoi => Ret tt | _ => fail (token_msg "unexpected token" Teoi) end).

(** r1 and r2 are treated alike where k is expected *)
Definition conts (cf : pcfg) (t : term) (k : kind) (r1 r2 : list N) : Prop :=
  match k with
  | KVal => forall n c, (need r1 <= n)%nat -> (need r2 <= n)%nat -> a_parse cf t n c None r1 = a_parse cf t n c None r2
  | KElem => forall n vs, (need r1 <= n)%nat -> (need r2 <= n)%nat -> a_arr cf t n vs r1 = a_arr cf t n vs r2
  | KAfterElem => forall n vs, (need r1 <= n)%nat -> (need r2 <= n)%nat -> after_elem cf t n vs r1 = after_elem cf t n vs r2
  | KKey => forall n m, (need r1 <= n)%nat -> (need r2 <= n)%nat -> a_obj cf t n m r1 = a_obj cf t n m r2
  | KColon => forall n m k, (need r1 <= n)%nat -> (need r2 <= n)%nat -> after_key cf t n m k r1 = after_key cf t n m k r2
  | KAfterMem => forall n m, (need r1 <= n)%nat -> (need r2 <= n)%nat -> after_mem cf t n m r1 = after_mem cf t n m r2
  | KEnd => forall v, after_doc cf t v r1 = after_doc cf t v r2
  end.

(** the same next token is enough *)
Lemma conts_scan : forall cf t k r1 r2, a_scan cf t r1 = a_scan cf t r2 -> conts cf t k r1 r2.
Proof.
  intros cf t k r1 r2 E. destruct k; cbn [conts]; intros;
    try (unfold after_elem, after_mem, after_key, after_doc; rewrite E; reflexivity);
    (destruct n; [reflexivity|]); cbn [a_parse a_arr a_obj]; rewrite E; reflexivity.
Qed.

Section Ctx.
Variables (cf : pcfg) (t : term).
Hypothesis Hok : enc_ok (tgt_enc cf) (tgt_ck cf) = true.
Variables (r1 r2 : list N).
Hypothesis C : compat (src_ck cf) r1 r2.
Hypothesis N2 : r2 <> [].

Let N1 : r1 <> [] := proj1 C.

Lemma ok_ne : forall l, l <> [] -> ok t l.
Proof. intros [|c l] H; [congruence|]. apply ok_cons. Qed.

Lemma compat_gap : forall g, compat (src_ck cf) (g ++ r1) (g ++ r2).
Proof. intros [|c g]; [exact C|apply compat_head]. Qed.

Definition x_in (k : kind) (l r : list N) : Prop := r = r1 -> conts cf t k r1 r2 ->
  exists p, l = p ++ r1 /\
    (forall r, exists x l1, r <> [] -> a_scan cf t (p ++ r) = Ret (x, l1) /\ a_starts x = true) /\
    forall n c, (need (p ++ r1) <= n)%nat -> (need (p ++ r2) <= n)%nat ->
      a_parse cf t n c None (p ++ r1) = a_parse cf t n c None (p ++ r2).
Definition x_e (k : kind) (l r : list N) : Prop := r = r1 -> conts cf t k r1 r2 ->
  exists p, l = p ++ r1 /\ forall n vs, (S (need (p ++ r1)) <= n)%nat -> (S (need (p ++ r2)) <= n)%nat ->
      a_arr cf t n vs (p ++ r1) = a_arr cf t n vs (p ++ r2).
Definition x_m (k : kind) (l r : list N) : Prop := r = r1 -> conts cf t k r1 r2 ->
  exists p, l = p ++ r1 /\ forall n m, (S (need (p ++ r1)) <= n)%nat -> (S (need (p ++ r2)) <= n)%nat ->
      a_obj cf t n m (p ++ r1) = a_obj cf t n m (p ++ r2).

Ltac asc := repeat rewrite <- app_assoc; cbn [app]; repeat rewrite <- app_assoc; cbn [app]; reflexivity.

Lemma arr_val : forall n vs l v l1, val cf l v l1 -> ok t l1 -> (S (need l) <= S n)%nat ->
  a_arr cf t (S n) vs l = after_elem cf t n (vs ++ [v]) l1.
Proof.
  intros n vs l v l1 V O L. destruct (complete_val cf t Hok l v l1 V O) as [Ll P].
  unfold need in L. destruct (parse_scan cf t n VNull l v l1 (P n VNull ltac:(lia))) as (x & lk & Sc & Es & Pk).
  cbn [a_arr]. rewrite Sc, Es, Pk. reflexivity.
Qed.

Lemma obj_key : forall n m l l1 s l2, blank l l1 -> strlit (tgt_enc cf) (tgt_ck cf) l1 s l2 -> ok t l2 ->
  (S (need l) <= S n)%nat -> a_obj cf t (S n) m l = after_key cf t n m s l2.
Proof.
  intros n m l l1 s l2 B Sl O L. destruct (strlit_start cf _ _ _ _ _ Sl) as (l5 & -> & Ll).
  pose proof (scan_c cf t _ _ _ _ B (ta_str cf l5) (ok_cons _ _ _)) as Sc. pose proof (blank_len _ _ B) as Bl.
  unfold need in L. cbn [a_obj]. rewrite Sc.
  assert (G : a_get_string cf t (S n) (34 :: l5) = (s, Ret l2)).
  { apply get_string_iff; [assumption|cbn [length] in *; lia|auto]. }
  rewrite G. reflexivity.
Qed.

Lemma key_colon : forall n m s l l3, blank l (58 :: l3) -> l3 <> [] ->
  after_key cf t n m s l =
  (let '(v, r) := a_parse cf t n VNull None l3 in
   match r with Ret l => after_mem cf t n (obj_emplace s v m) l | r => (m, stop r) end).
Proof.
  intros n m s l l3 B N. unfold after_key. rewrite (scan_c cf t _ _ _ _ B (ta_colon cf l3) (ok_ne _ N)). reflexivity.
Qed.

Lemma need_app : forall p r, need (p ++ r) = (2 * length p + need r)%nat.
Proof. intros. unfold need. rewrite app_length. lia. Qed.

Lemma app_r : forall (p r : list N), r <> [] -> p ++ r <> [].
Proof. intros. apply app_nonnil; assumption. Qed.

Lemma ctx_in : forall k l r, in_spot cf k l r -> x_in k l r.
Proof.
  apply (in_spot_mut cf x_in x_e x_m).
  - intros k l l1 r B _ IH -> Ct. destruct (IH eq_refl Ct) as (p & -> & E).
    destruct (blank_cons _ _ _ B) as (g & -> & Rb). exists (g ++ 91 :: p). split; [asc|].
    assert (Sc : forall r, r <> [] -> a_scan cf t (g ++ 91 :: p ++ r) = Ret (AT Tbegin_arr, p ++ r)).
    { intros r N. apply (scan_c cf t _ _ _ _ (Rb (p ++ r)) (ta_larr cf _)). apply ok_ne, app_r, N. }
    split; [intro r; exists (AT Tbegin_arr), (p ++ r); intro N; rewrite <- app_assoc; split; [apply Sc, N|reflexivity]|].
    intros n c L1 L2. destruct n as [|n]; [reflexivity|]. rewrite <- !app_assoc in *. cbn [app a_parse] in *.
    rewrite (Sc r1 N1), (Sc r2 N2). rewrite E; [reflexivity|..]; rewrite !need_app in *; cbn [length] in *;
      unfold need in *; cbn [length] in *; rewrite ?app_length in *; lia.
  - intros k l l1 r B _ IH -> Ct. destruct (IH eq_refl Ct) as (p & -> & E).
    destruct (blank_cons _ _ _ B) as (g & -> & Rb). exists (g ++ 123 :: p). split; [asc|].
    assert (Sc : forall r, r <> [] -> a_scan cf t (g ++ 123 :: p ++ r) = Ret (AT Tbegin_obj, p ++ r)).
    { intros r N. apply (scan_c cf t _ _ _ _ (Rb (p ++ r)) (ta_lobj cf _)). apply ok_ne, app_r, N. }
    split; [intro r; exists (AT Tbegin_obj), (p ++ r); intro N; rewrite <- app_assoc; split; [apply Sc, N|reflexivity]|].
    intros n c L1 L2. destruct n as [|n]; [reflexivity|]. rewrite <- !app_assoc in *. cbn [app a_parse] in *.
    rewrite (Sc r1 N1), (Sc r2 N2). rewrite E; [reflexivity|..]; rewrite !need_app in *; cbn [length] in *;
      unfold need in *; cbn [length] in *; rewrite ?app_length in *; lia.
  - (* here *)
    intros g r G -> Ct. exists g. split; [reflexivity|]. intros n vs L1 L2.
    assert (Ag : forall r, r <> [] -> a_arr cf t n vs (g ++ r) = a_arr cf t n vs r).
    { intros r N. destruct n; [reflexivity|]. cbn [a_arr]. rewrite scan_gap by assumption. reflexivity. }
    rewrite (Ag r1 N1), (Ag r2 N2). apply Ct; rewrite need_app in *; lia.
  - (* in *)
    intros k l r _ IH -> Ct. destruct (IH eq_refl Ct) as (p & -> & Sc & E). exists p. split; [reflexivity|].
    intros n vs L1 L2. destruct n as [|n]; [reflexivity|].
    assert (PN : forall r, r <> [] -> a_arr cf t (S n) vs (p ++ r) =
        let '(v, o) := a_parse cf t n VNull None (p ++ r) in
        match o with Ret l => after_elem cf t n (vs ++ [v]) l | r => (vs ++ [v], stop r) end).
    { intros r N. destruct (Sc r) as (x & l1 & X). destruct (X N) as [Sr Es]. cbn [a_arr]. rewrite Sr, Es.
      assert (Q : a_parse cf t n VNull (Some x) l1 = a_parse cf t n VNull None (p ++ r)).
      { destruct n; [reflexivity|]. cbn [a_parse]. rewrite Sr. reflexivity. }
      rewrite Q. reflexivity. }
    rewrite (PN r1 N1), (PN r2 N2). rewrite E; [reflexivity|lia|lia].
  - (* after *)
    intros l v g r V G -> Ct.
    destruct (rep_val cf _ _ _ V (app_r _ _ N1)) as (w & Nw & -> & R).
    exists (w ++ g). split; [asc|]. rewrite <- !app_assoc. intros n vs L1 L2. destruct n as [|n]; [reflexivity|].
    rewrite (arr_val n vs _ v (g ++ r1) V (ok_ne _ (app_r _ _ N1)) L1).
    rewrite (arr_val n vs _ v (g ++ r2) (R _ (compat_gap g)) (ok_ne _ (app_r _ _ N2)) L2).
    assert (Ag : forall r u, r <> [] -> after_elem cf t n u (g ++ r) = after_elem cf t n u r).
    { intros r u N. unfold after_elem. rewrite scan_gap by assumption. reflexivity. }
    rewrite (Ag r1 _ N1), (Ag r2 _ N2). apply Ct; rewrite !need_app in *; lia.
  - (* next *)
    intros k l v l1 l2 r V B _ IH -> Ct. destruct (IH eq_refl Ct) as (p & -> & E).
    destruct (blank_cons _ _ _ B) as (g & -> & Rb).
    destruct (rep_val cf _ _ _ V (app_cons_ne _ _ _ _)) as (w & Nw & -> & R).
    exists (w ++ g ++ 44 :: p). split; [asc|]. intros n vs L1 L2. destruct n as [|n]; [reflexivity|].
    repeat (rewrite <- app_assoc in *; cbn [app] in * ).
    assert (X : forall r, r <> [] -> (S (need (w ++ g ++ 44%N :: p ++ r)) <= S n)%nat ->
       a_arr cf t (S n) vs (w ++ g ++ 44 :: p ++ r) = a_arr cf t n (vs ++ [v]) (p ++ r)).
    { intros r N L. rewrite (arr_val n vs _ v (g ++ 44 :: p ++ r) (R _ (compat_app _ _ _ _ _)) (ok_ne _ (app_cons_ne _ _ _ _)) L).
      unfold after_elem. rewrite (scan_c cf t _ _ _ _ (Rb (p ++ r)) (ta_comma cf _) (ok_ne _ (app_r _ _ N))). reflexivity. }
    rewrite (X r1 N1 L1), (X r2 N2 L2). rewrite !need_app in *. unfold need in *. cbn [length] in *.
    rewrite ?app_length in *. apply E; rewrite ?app_length; lia.
  - (* key here *)
    intros g r G -> Ct. exists g. split; [reflexivity|]. intros n m L1 L2.
    assert (Ag : forall r, r <> [] -> a_obj cf t n m (g ++ r) = a_obj cf t n m r).
    { intros r N. destruct n; [reflexivity|]. cbn [a_obj]. rewrite scan_gap by assumption. reflexivity. }
    rewrite (Ag r1 N1), (Ag r2 N2). apply Ct; rewrite need_app in *; lia.
  - (* colon *)
    intros l l1 s g r B Sl G -> Ct. destruct (rep_strlit _ _ _ _ _ Sl) as (w & Nw & -> & R).
    destruct (blank_word _ _ _ Nw B) as (g0 & -> & Rb).
    exists (g0 ++ w ++ g). split; [asc|]. rewrite <- !app_assoc. intros n m L1 L2. destruct n as [|n]; [reflexivity|].
    rewrite (obj_key n m _ _ s (g ++ r1) (Rb _) (R _) (ok_ne _ (app_r _ _ N1)) L1).
    rewrite (obj_key n m _ _ s (g ++ r2) (Rb _) (R _) (ok_ne _ (app_r _ _ N2)) L2).
    assert (Ag : forall r, r <> [] -> after_key cf t n m s (g ++ r) = after_key cf t n m s r).
    { intros r N. unfold after_key. rewrite scan_gap by assumption. reflexivity. }
    rewrite (Ag r1 N1), (Ag r2 N2). apply Ct; rewrite !need_app in *; lia.
  - (* value after colon *)
    intros l l1 s l2 g r B Sl B2 G -> Ct.
    destruct (blank_cons _ _ _ B2) as (g2 & -> & Rb2).
    destruct (rep_strlit _ _ _ _ _ Sl) as (w & Nw & -> & R).
    destruct (blank_word _ _ _ Nw B) as (g0 & -> & Rb).
    exists (g0 ++ w ++ g2 ++ 58 :: g). split; [asc|]. intros n m L1 L2.
    repeat (rewrite <- app_assoc in *; cbn [app] in * ). destruct n as [|n]; [reflexivity|].
    assert (X : forall r, r <> [] -> (S (need (g0 ++ w ++ g2 ++ 58%N :: g ++ r)) <= S n)%nat ->
      a_obj cf t (S n) m (g0 ++ w ++ g2 ++ 58 :: g ++ r) =
      (let '(v, o) := a_parse cf t n VNull None r in
       match o with Ret l => after_mem cf t n (obj_emplace s v m) l | o => (m, stop o) end)).
    { intros r N L. rewrite (obj_key n m _ _ s _ (Rb _) (R _) (ok_ne _ (app_cons_ne _ _ _ _)) L).
      rewrite (key_colon n m s _ _ (Rb2 _) (app_r _ _ N)).
      assert (Q : a_parse cf t n VNull None (g ++ r) = a_parse cf t n VNull None r).
      { destruct n; [reflexivity|]. cbn [a_parse]. rewrite scan_gap by assumption. reflexivity. }
      rewrite Q. reflexivity. }
    rewrite (X r1 N1 L1), (X r2 N2 L2). rewrite !need_app in *. unfold need in *. cbn [length] in *.
    rewrite ?app_length in *. rewrite Ct; [reflexivity|unfold need; lia|unfold need; lia].
  - (* inside a member *)
    intros k l l1 s l2 l3 r B Sl B2 _ IH -> Ct. destruct (IH eq_refl Ct) as (p & -> & _ & E).
    destruct (blank_cons _ _ _ B2) as (g2 & -> & Rb2).
    destruct (rep_strlit _ _ _ _ _ Sl) as (w & Nw & -> & R).
    destruct (blank_word _ _ _ Nw B) as (g0 & -> & Rb).
    exists (g0 ++ w ++ g2 ++ 58 :: p). split; [asc|]. intros n m L1 L2.
    repeat (rewrite <- app_assoc in *; cbn [app] in * ). destruct n as [|n]; [reflexivity|].
    assert (X : forall r, r <> [] -> (S (need (g0 ++ w ++ g2 ++ 58%N :: p ++ r)) <= S n)%nat ->
      a_obj cf t (S n) m (g0 ++ w ++ g2 ++ 58 :: p ++ r) =
      (let '(v, o) := a_parse cf t n VNull None (p ++ r) in
       match o with Ret l => after_mem cf t n (obj_emplace s v m) l | o => (m, stop o) end)).
    { intros r N L. rewrite (obj_key n m _ _ s _ (Rb _) (R _) (ok_ne _ (app_cons_ne _ _ _ _)) L).
      apply (key_colon n m s _ _ (Rb2 _) (app_r _ _ N)). }
    rewrite (X r1 N1 L1), (X r2 N2 L2). rewrite E; [reflexivity|..]; clear X E; rewrite !need_app in *; unfold need in *;
      cbn [length] in *; rewrite ?app_length in *; lia.
  - (* after a member *)
    intros l l1 s l2 l3 v g r B Sl B2 V G -> Ct.
    destruct (rep_val cf _ _ _ V (app_r _ _ N1)) as (wv & Nwv & -> & Rv).
    destruct (blank_cons _ _ _ B2) as (g2 & -> & Rb2).
    destruct (rep_strlit _ _ _ _ _ Sl) as (w & Nw & -> & R).
    destruct (blank_word _ _ _ Nw B) as (g0 & -> & Rb).
    exists (g0 ++ w ++ g2 ++ 58 :: wv ++ g). split; [asc|]. intros n m L1 L2.
    repeat (rewrite <- app_assoc in *; cbn [app] in * ). destruct n as [|n]; [reflexivity|].
    assert (X : forall r, r <> [] -> val cf (wv ++ g ++ r) v (g ++ r) ->
      (S (need (g0 ++ w ++ g2 ++ 58%N :: wv ++ g ++ r)) <= S n)%nat ->
      a_obj cf t (S n) m (g0 ++ w ++ g2 ++ 58 :: wv ++ g ++ r) = after_mem cf t n (obj_emplace s v m) r).
    { intros r N Vr L. rewrite (obj_key n m _ _ s _ (Rb _) (R _) (ok_ne _ (app_cons_ne _ _ _ _)) L).
      rewrite (key_colon n m s _ _ (Rb2 _) (app_r _ _ (app_r _ _ N))).
      destruct (complete_val cf t Hok _ _ _ Vr (ok_ne _ (app_r _ _ N))) as [_ P]. rewrite P.
      - unfold after_mem. rewrite scan_gap by assumption. reflexivity.
      - clear P. unfold need in L. rewrite ?app_length in *. cbn [length] in *. rewrite ?app_length in *. lia. }
    rewrite (X r1 N1 V L1), (X r2 N2 (Rv _ (compat_gap g)) L2).
    apply Ct; clear X; rewrite !need_app in *; unfold need in *; cbn [length] in *; rewrite ?app_length in *; lia.
  - (* next member *)
    intros k l l1 s l2 l3 v l4 l5 r B Sl B2 V B3 _ IH -> Ct. destruct (IH eq_refl Ct) as (p & -> & E).
    destruct (blank_cons _ _ _ B3) as (g3 & -> & Rb3).
    destruct (rep_val cf _ _ _ V (app_cons_ne _ _ _ _)) as (wv & Nwv & -> & Rv).
    destruct (blank_cons _ _ _ B2) as (g2 & -> & Rb2).
    destruct (rep_strlit _ _ _ _ _ Sl) as (w & Nw & -> & R).
    destruct (blank_word _ _ _ Nw B) as (g0 & -> & Rb).
    exists (g0 ++ w ++ g2 ++ 58 :: wv ++ g3 ++ 44 :: p). split; [asc|]. intros n m L1 L2.
    repeat (rewrite <- app_assoc in *; cbn [app] in * ). destruct n as [|n]; [reflexivity|].
    assert (X : forall r, r <> [] ->
      (S (need (g0 ++ w ++ g2 ++ 58%N :: wv ++ g3 ++ 44%N :: p ++ r)) <= S n)%nat ->
      a_obj cf t (S n) m (g0 ++ w ++ g2 ++ 58 :: wv ++ g3 ++ 44 :: p ++ r) = a_obj cf t n (obj_emplace s v m) (p ++ r)).
    { intros r N L. rewrite (obj_key n m _ _ s _ (Rb _) (R _) (ok_ne _ (app_cons_ne _ _ _ _)) L).
      rewrite (key_colon n m s _ _ (Rb2 _) (app_r _ _ (app_cons_ne _ _ _ _))).
      destruct (complete_val cf t Hok _ _ _ (Rv _ (compat_app _ g3 44 _ (p ++ r))) (ok_ne _ (app_cons_ne _ _ _ _))) as [_ P]. rewrite P.
      - unfold after_mem. rewrite (scan_c cf t _ _ _ _ (Rb3 (p ++ r)) (ta_comma cf _) (ok_ne _ (app_r _ _ N))). reflexivity.
      - clear P. unfold need in L. rewrite ?app_length in *. cbn [length] in *. rewrite ?app_length in *. cbn [length] in *. rewrite ?app_length in *. lia. }
    rewrite (X r1 N1 L1), (X r2 N2 L2).
    apply E; clear X E; rewrite !need_app in *; unfold need in *; cbn [length] in *; rewrite ?app_length in *; cbn [length] in *; rewrite ?app_length in *; lia.
Qed.

Lemma ctx_body : forall k p, spot cf k (p ++ r1) r1 -> conts cf t k r1 r2 ->
  forall n c, (need (p ++ r1) <= n)%nat -> (need (p ++ r2) <= n)%nat ->
  a_body cf t n c (p ++ r1) = a_body cf t n c (p ++ r2).
Proof.
  intros k p H Ct n c L1 L2. remember (p ++ r1) as l eqn:El. remember r1 as r eqn:Er in H.
  destruct H as [g r G|k l r In|l v g r V G].
  - subst r. apply app_inv_tail in El. subst g. unfold a_body.
    assert (Q : forall r, r <> [] -> a_parse cf t n c None (p ++ r) = a_parse cf t n c None r).
    { intros r N. destruct n; [reflexivity|]. cbn [a_parse]. rewrite scan_gap by assumption. reflexivity. }
    rewrite (Q r1 N1), (Q r2 N2). rewrite need_app in *. rewrite Ct by lia. reflexivity.
  - subst r. destruct (ctx_in k l r1 In eq_refl Ct) as (p' & El' & _ & E). subst l.
    apply app_inv_tail in El'. subst p'. unfold a_body. rewrite E by assumption. reflexivity.
  - subst r. destruct (rep_val cf _ _ _ V (app_r _ _ N1)) as (w & Nw & Ew & R). subst l.
    rewrite app_assoc in Ew. apply app_inv_tail in Ew. subst p.
    rewrite <- !app_assoc in *. unfold a_body.
    destruct (complete_val cf t Hok _ _ _ V (ok_ne _ (app_r _ _ N1))) as [_ P]. rewrite P by assumption.
    destruct (complete_val cf t Hok _ _ _ (R _ (compat_gap g)) (ok_ne _ (app_r _ _ N2))) as [_ P2]. rewrite P2 by assumption.
    cbn [bind]. rewrite !scan_gap by assumption. exact (Ct v).
Qed.
End Ctx.
