(** Parsing into memory: it does what Parser says, or has run out of memory. *)
From Coq Require Import Lia Permutation Arith.
From Verif Require Import Base Stream Encoding Value Token Message ValueOps ObjFacts ValueProofs Serializer Target TargetProofs Parser Heap SpecHeap HeapGhost HeapPaths HeapOps HeapProofs Alloc SpecAlloc AllocRules AllocProofs SpecGrammar ParseHeap SpecParseHeap SpecContainer Container ContainerProofs SpecParseDoc ParseHeapText.
Open Scope nat_scope.

(** ** Computations that may end in any way *)
Definition goes {A} (m : F A) (s : hstate) (pl : plan) (Q : hstate -> plan -> outcome A -> Prop) : Prop :=
  exists s' pl' r', m (s, pl) = ((s', pl'), r') /\ spent pl pl' /\ Q s' pl' r'.

Lemma goes_weak : forall A (m : F A) s pl (Q Q' : hstate -> plan -> outcome A -> Prop), goes m s pl Q ->
  (forall s' pl' r, spent pl pl' -> Q s' pl' r -> Q' s' pl' r) -> goes m s pl Q'.
Proof. intros A m s pl Q Q' (s' & pl' & r & E & S & H) K. exists s', pl', r. auto. Qed.

Lemma goes_ret : forall A (x : A) s pl (Q : hstate -> plan -> outcome A -> Prop), Q s pl (Ret x) -> goes (fret x) s pl Q.
Proof. intros A x s pl Q H. exists s, pl, (Ret x). split; [reflexivity|]. split; [apply spent_refl|exact H]. Qed.

Lemma goes_step : forall A B (m : M A) (k : A -> F B) s s1 a pl Q, m s = (s1, Ret a) -> goes (k a) s1 pl Q -> goes (fseq (lift m) k) s pl Q.
Proof. intros A B m k s s1 a pl Q E H. unfold goes. rewrite (lift_seq _ _ _ _ _ _ _ _ E). exact H. Qed.

Lemma goes_told : forall A B (x : A) (k : A -> F B) s pl Q, goes (k x) s pl Q -> goes (fseq (told (Ret x)) k) s pl Q.
Proof. intros A B x k s pl Q H. exact H. Qed.
Lemma goes_fret : forall A B (x : A) (k : A -> F B) s pl Q, goes (k x) s pl Q -> goes (fseq (fret x) k) s pl Q.
Proof. intros A B x k s pl Q H. exact H. Qed.

Lemma goes_seq : forall A B (m : F A) (k : A -> F B) s pl Q1 Q, goes m s pl Q1 ->
  (forall s1 pl1 x, spent pl pl1 -> Q1 s1 pl1 (Ret x) -> goes (k x) s1 pl1 Q) ->
  (forall s1 pl1 r, spent pl pl1 -> Q1 s1 pl1 r -> ~ returns r -> Q s1 pl1 (stop r)) -> goes (fseq m k) s pl Q.
Proof.
  intros A B m k s pl Q1 Q (s1 & pl1 & r & E & S & H) K1 K2. unfold goes, fseq. rewrite E.
  destruct r as [x|e| | |]; try (exists s1, pl1; eexists; split; [reflexivity|]; split; [exact S|]; apply (K2 _ _ _ S H); intros []).
  destruct (K1 s1 pl1 x S H) as (s2 & pl2 & r & E2 & S2 & H2). exists s2, pl2, r. split; [exact E2|]. split; [eapply spent_trans; eassumption|exact H2].
Qed.

Lemma goes_out : forall A B (m : F A) (k : A -> F B) s pl ok bad Q, outF m s pl ok bad ->
  (forall s1 pl1 x, granted pl pl1 -> ok s1 x -> goes (k x) s1 pl1 Q) ->
  (forall s1 pl1, refused pl pl1 -> bad s1 -> Q s1 pl1 (Throw EAlloc)) -> goes (fseq m k) s pl Q.
Proof.
  intros A B m k s pl ok bad Q [(s1 & p1 & a & E & P & H)|(s1 & p1 & E & P & H)] K1 K2; unfold goes, fseq; rewrite E.
  - destruct (K1 s1 p1 a P H) as (s2 & pl2 & r & E2 & S2 & H2). exists s2, pl2, r. split; [exact E2|]. split; [|exact H2].
    eapply spent_trans; [apply granted_spent; exact P|exact S2].
  - exists s1, p1, (Throw EAlloc). split; [reflexivity|]. split; [apply refused_spent; exact P|]. auto.
Qed.

(** an exception that needs memory *)
Lemma goes_tell : forall A (r : outcome A) s pl (Q : hstate -> plan -> outcome A -> Prop),
  (forall pl' r', spent pl pl' -> ends_as r' r -> (granted pl pl' -> r' = r) -> (returns r' -> returns r) -> Q s pl' r') -> goes (told r) s pl Q.
Proof.
  intros A r s pl Q H.
  assert (K : goes (fun s => (s, r)) s pl Q).
  { exists s, pl, r. split; [reflexivity|]. split; [apply spent_refl|]. apply H; auto; [apply spent_refl|left; reflexivity]. }
  destruct r as [x|e| | |]; try exact K. clear K. cbn [told].
  destruct pl as [|[|] pl].
  - exists s, [], (Throw e). split; [reflexivity|]. split; [apply spent_refl|]. apply H; auto; [apply spent_refl|left; reflexivity].
  - exists s, pl, (Throw EAlloc). split; [reflexivity|]. assert (R : refused (true :: pl) pl) by (exists []; auto).
    split; [apply refused_spent; exact R|]. apply H; [apply refused_spent; exact R|right; left; reflexivity| |intros []]. intro G. destruct (refused_not _ _ R G).
  - exists s, pl, (Throw e). assert (S : spent (false :: pl) pl) by (exists [false]; reflexivity).
    split; [reflexivity|]. split; [exact S|]. apply H; auto. left. reflexivity.
Qed.
Lemma goes_tell_end : forall A B (r : outcome A) (k : A -> F B) s pl (Q : hstate -> plan -> outcome B -> Prop), ~ returns r ->
  (forall pl' r', spent pl pl' -> ends_as r' (stop r) -> (granted pl pl' -> r' = stop r) -> ~ returns r' -> Q s pl' r') -> goes (fseq (told r) k) s pl Q.
Proof.
  intros A B r k s pl Q N H. eapply goes_seq with (Q1 := fun s' pl' r' => s' = s /\ ends_as r' r /\ (granted pl pl' -> r' = r) /\ ~ returns r').
  - apply goes_tell. intros pl' r' _ E G R. split; [reflexivity|]. split; [exact E|]. split; [exact G|]. tauto.
  - intros s1 pl1 x _ (_ & _ & _ & R). destruct (R Logic.I).
  - intros s1 pl1 r' Sp (-> & E & G & R) _. apply H; [exact Sp| | |].
    + destruct E as [E|[E|[c0 E]]]; rewrite E; [left|right; left|right; right; exists c0]; reflexivity.
    + intro X. rewrite (G X). reflexivity.
    + destruct r'; auto.
Qed.

(** ** The single steps *)
Lemma put_put : forall G L a la x y v s, fwalk G a = Some (la, x) -> put (fput G a y) L a v s -> put G L a v s.
Proof. intros G L a la x y v s W (z & V & H). exists z. split; [exact V|]. rewrite (fput_fput_same _ _ _ _ _ _ W) in H. exact H. Qed.
Lemma put_same : forall G L a la x s, rep s G L -> fwalk G a = Some (la, x) -> put G L a (val_of x) s.
Proof. intros G L a la x s H W. exists x. split; [reflexivity|]. rewrite (fput_same _ _ _ _ W). exact H. Qed.

Lemma fassign_ok : forall m v bad s pl G L a la x, rep s G L -> fwalk G a = Some (la, x) ->
  outF m s pl (built G L v) bad -> outF (fassign la m) s pl (fun s' _ => put G L a v s') bad.
Proof.
  intros m v bad s pl G L a la x H Wa Hm. unfold fassign. eapply out_seq; [exact Hm|].
  intros s1 c pl1 (y & -> & V & H1).
  eapply out_weak; [apply (ftemp_ok unit (fun t => lift (assign_move la t)) s1 pl1 G L y (fun _ G' => G' = fput G a y) (fun _ _ => False) H1)| |].
  - intros s2 H2. pose proof (new_apart _ _ [] _ _ Wa) as P.
    destruct (assign_move_ok _ _ _ a (length G, []) _ _ _ _ H2 (fwalk_grow _ _ _ _ _ Wa) (last_slot G y)) as (s3 & E3 & H3).
    { apply fapart_not_below. apply fapart_sym. assumption. }
    eapply out_lift; [exact E3|]. exists (fput G a y), GNull. split; [|reflexivity]. rewrite fput_new in H3. cbn [gput] in H3.
    rewrite (fput_grow _ _ _ _ _ _ Wa) in H3. exact H3.
  - intros s' u (G' & H' & ->). exists y. auto.
  - intros s' (G' & L' & _ & []).
Qed.
Lemma fempty_ok : forall s pl G L, rep s G L -> outF fempty s pl (built G L (VStr [])) (fun s' => rep s' G L).
Proof.
  intros s pl G L H. pose proof H as [E Hh]. unfold fempty. eapply out_seq; [eapply out_weak; [apply (fcreate_now (BStr []) s pl _ Hh)| |]|].
  - intros s' p X. exact X.
  - intros s' X. destruct (lost_leak s G L 0 s' H X) as (K & LK & H'). destruct K; [exact H'|cbn in LK; lia].
  - intros s' p pl' [E1 H1]. apply out_ret. apply (made_built s); [assumption|]. exists (GStr p []). auto.
Qed.
Lemma fnew_ok : forall i s pl G L a la x, ilost i = 0 -> rep s G L -> fwalk G a = Some (la, x) ->
  outF (fassign_new la i) s pl (fun s' _ => put G L a (init_value i) s') (fun s' => rep s' G L).
Proof.
  intros i s pl G L a la x Z H W. eapply out_weak; [apply (fassign_new_ok i s pl _ _ _ _ _ H W)|auto|].
  intros s' (K & LK & H'). rewrite Z in LK. destruct K; [exact H'|cbn in LK; lia].
Qed.
Lemma fappend_ok : forall s pl G L a la q g xs, rep s G L -> fwalk G a = Some (la, GArr q g xs) ->
  outF (fappend la) s pl (fun s' e => e = LElem q (S g) (length xs) /\ rep s' (fput G a (GArr q (S g) (xs ++ [GNull]))) L) (fun s' => rep s' G L).
Proof.
  intros s pl G L a la q g xs H W. unfold fappend.
  eapply out_step; [unfold data_at, seqm; rewrite (read_ok _ _ _ _ _ _ H W); reflexivity|].
  eapply out_seq with (ok1 := fun s' _ => s' = s); [apply out_alloc; [reflexivity|assumption]|]. intros s' u pl' ->.
  eapply out_step; [apply (get_at _ _ _ _ _ _ _ _ _ H W eq_refl)|]. cbv beta iota.
  assert (H0 : rep s G (GNull :: L)) by (apply rep_scalar; [reflexivity|exact H]).
  destruct (push_tail_ok s G L GNull a la q g xs H0 W) as (s1 & E1 & H1).
  unfold push_tail, seqm in E1. rewrite (get_at _ _ _ _ _ _ _ _ _ H W eq_refl) in E1.
  eapply out_step; [exact E1|]. apply out_ret. rewrite map_length. auto.
Qed.
Lemma blocks_emplace : forall k y (m : list (str * gt)), obj_find k m = None ->
  Permutation (flat_map (fun kx => blocks (snd kx)) (obj_emplace k y m)) (blocks y ++ flat_map (fun kx => blocks (snd kx)) m).
Proof.
  intros k y m. induction m as [|[k' x] m IH]; cbn [obj_find obj_emplace]; intro N; [reflexivity|].
  destruct (str_ltb k k') eqn:E1; [reflexivity|]. destruct (str_eqb k k'); [discriminate|]. cbn [flat_map snd].
  rewrite (IH N). psolve.
Qed.
Lemma emplace_found : forall A k (y x : A) m, sorted m -> obj_find k m = Some x -> obj_emplace k y m = m.
Proof.
  intros A k y x m S. induction S as [|k' v m F S IH]; cbn [obj_emplace]; [discriminate|]. intro E.
  destruct (str_ltb k k') eqn:E1.
  - rewrite (find_head_none _ k k' v m (so_cons k' v m F S) E1) in E. discriminate.
  - cbn [obj_find] in E. destruct (str_eqb k k'); [reflexivity|]. rewrite (IH E). reflexivity.
Qed.
Lemma femplace_ok : forall s pl G L a la q m b lb x k, rep s G L -> fwalk G a = Some (la, GObj q m) -> fwalk G b = Some (lb, x) -> sorted (vmap val_of m) ->
  outF (femplace la k lb) s pl (fun s' _ => exists m', vmap val_of m' = obj_emplace k (val_of x) (vmap val_of m) /\ rep s' (fput G a (GObj q m')) L)
    (leak G L (height (val_of x))).
Proof.
  intros s pl G L a la q m b lb x k H W Wb So. unfold femplace.
  eapply out_step; [unfold data_at, seqm; rewrite (read_ok _ _ _ _ _ _ H W); reflexivity|].
  eapply out_seq with (ok1 := fun s' _ => s' = s); [apply out_alloc; [reflexivity|apply leak_none; assumption]|]. intros s' u pl' ->.
  eapply out_seq with (ok1 := fun s' _ => s' = s); [apply out_alloc; [reflexivity|apply leak_none; assumption]|]. intros s' u' pl2 ->.
  eapply out_step; [apply (read_ok _ _ _ _ _ _ H Wb)|]. eapply out_seq; [apply (fcopy_at _ _ _ _ _ _ _ H Wb)|].
  intros s1 c pl1 (y & -> & V & H1). eapply out_step; [apply (get_at _ _ _ _ _ _ _ _ _ H1 W eq_refl)|]. cbv beta iota.
  rewrite find_vmap. destruct (obj_find k m) as [z|] eqn:Ek; cbn [option_map].
  - destruct (drop_ok _ _ _ _ H1) as (s2 & E2 & H2). eapply out_lift; [exact E2|]. exists m. rewrite (fput_same _ _ _ _ W). split; [|exact H2].
    symmetry. apply emplace_found with (x := val_of z); [exact So|]. rewrite find_vmap, Ek. reflexivity.
  - rewrite emplace_vmap.
    destruct (refocus s1 G (y :: L) a la (GObj q m) q (BObj (vmap cell_of m)) (BObj (vmap cell_of (obj_emplace k y m)))
      (flat_map (fun kx => blocks (snd kx)) m) (flat_map (fun kx => blocks (snd kx)) (obj_emplace k y m)) (GObj q (obj_emplace k y m)) L H1 W eq_refl eq_refl eq_refl) as [E2 H2].
    + rewrite (blocks_emplace k y m Ek). cbn [lblocks flat_map]. fold (lblocks L). psolve.
    + eapply out_lift; [exact E2|]. exists (obj_emplace k y m). split; [|exact H2]. rewrite <- V. symmetry. apply emplace_vmap.
Qed.

(** ** What has been done when it ends *)
Lemma ends_trans : forall A (a b c : outcome A), ends_as a b -> ends_as b c -> ends_as a c.
Proof. intros A a b c [Ea|Ea] H; [subst a; exact H|right; exact Ea]. Qed.
Lemma ends_refl : forall A (r : outcome A), ends_as r r.
Proof. intros. left. reflexivity. Qed.
Lemma ends_ret : forall A (x : A) r, ends_as (Ret x) r -> r = Ret x.
Proof. intros A x r [E|[E|[c0 E]]]; [auto|discriminate|discriminate]. Qed.
Lemma ends_stop : forall A B (r' r : outcome A), ends_as r' r -> ~ returns r' -> @ends_as B (stop r') (stop r).
Proof. intros A B r' r [E|[E|[c0 E]]] N; rewrite E; [left|right; left|right; right; exists c0]; reflexivity. Qed.
Lemma ends_any : forall A B (r' r : outcome A) (r2 : outcome B), ends_as r' r -> ~ returns r' -> (forall r3, r = r3 -> ~ returns r3 -> r2 = stop r3) -> ends_as (stop r') r2.
Proof. intros A B r' r r2 [E|[E|[c0 E]]] N H; [left|right; left|right; right; exists c0]; try (rewrite E; reflexivity). subst r'. symmetry. apply (H r); auto. Qed.
Lemma stop_returns : forall A B (r : outcome A), ~ @returns B (stop r).
Proof. intros A B [x|e| | |] []. Qed.
Lemma stop_alloc : forall A B (r : outcome A), r = Throw EAlloc -> @stop A B r = Throw EAlloc.
Proof. intros A B r ->. reflexivity. Qed.
Lemma stop_back : forall A B (r : outcome A), ~ returns r -> @comes_back B (stop r) -> comes_back r.
Proof. intros A B [x|e| | |] N H; cbn in *; auto. Qed.

Definition vpost (G : forest) (L : list gt) (a : place) (n : nat) (pl : plan) (c v : value) (d : doc) (r : outcome pst) (s' : hstate) (pl' : plan) (r' : outcome pst) : Prop :=
  ends_as r' r /\ (granted pl pl' -> r' = r) /\
  (comes_back r' -> exists v' K, put G (map raw K ++ L) a v' s' /\ length K <= n /\ (K = [] \/ r' = Throw EAlloc) /\
     (granted pl pl' -> v' = v /\ K = []) /\ (v' = c \/ cut_to v' d) /\ (returns r' -> short_to v' d /\ height v' <= n)).

Definition apost (G : forest) (L : list gt) (a : place) (n : nat) (pl : plan) (l l0 lp : list value) (dp : list doc) (r : outcome (token * pst)) (s' : hstate) (pl' : plan) (r' : outcome (token * pst)) : Prop :=
  ends_as r' r /\ (granted pl pl' -> r' = r) /\
  (comes_back r' -> exists lh K, put G (map raw K ++ L) a (VArr lh) s' /\ length K <= n /\ (K = [] \/ r' = Throw EAlloc) /\
     (granted pl pl' -> l0 = l -> lh = lp /\ K = []) /\ cut_to (VArr lh) (DArr dp) /\
     (returns r' -> short_to (VArr lh) (DArr dp) /\ Forall (fun v => height v <= n) lh)).

Definition opost (G : forest) (L : list gt) (a : place) (n : nat) (pl : plan) (m m0 mp : list (str * value)) (dp : list (str * doc)) (r : outcome (token * pst)) (s' : hstate) (pl' : plan) (r' : outcome (token * pst)) : Prop :=
  ends_as r' r /\ (granted pl pl' -> r' = r) /\
  (comes_back r' -> exists mh K, put G (map raw K ++ L) a (VObj mh) s' /\ length K <= n /\ (K = [] \/ r' = Throw EAlloc) /\
     (granted pl pl' -> m0 = m -> mh = mp /\ K = []) /\ cut_to (VObj mh) (DObj dp) /\
     (returns r' -> short_to (VObj mh) (DObj dp) /\ Forall (fun kv => height (snd kv) <= n) mh)).

Lemma v_untouched : forall G L a la x n pl v d r s' pl' r', rep s' G L -> fwalk G a = Some (la, x) -> ends_as r' r -> (granted pl pl' -> r' = r) -> ~ returns r' ->
  (granted pl pl' -> v = val_of x) -> vpost G L a n pl (val_of x) v d r s' pl' r'.
Proof.
  intros G L a la x n pl v d r s' pl' r' H W E P N V. split; [exact E|]. split; [exact P|]. intros _. exists (val_of x), [].
  split; [eapply put_same; eassumption|]. split; [cbn; lia|]. split; [auto|]. split; [intro X; rewrite (V X); auto|]. split; [auto|]. intro X. contradiction.
Qed.
Lemma v_done : forall G L a n pl c v d r v' s' pl' r', put G L a v' s' -> ends_as r' r -> (granted pl pl' -> r' = r /\ v' = v) -> cut_to v' d -> (returns r' -> short_to v' d /\ height v' <= n) ->
  vpost G L a n pl c v d r s' pl' r'.
Proof.
  intros G L a n pl c v d r v' s' pl' r' H E P C S. split; [exact E|]. split; [apply P|]. intros _. exists v', [].
  split; [exact H|]. split; [cbn; lia|]. split; [auto|]. split; [intro X; split; [apply P; exact X|reflexivity]|]. auto.
Qed.
Lemma a_done : forall G L a n pl l l0 lp dp r lh s' pl' r', put G L a (VArr lh) s' -> ends_as r' r -> (granted pl pl' -> r' = r) -> (granted pl pl' -> l0 = l -> lh = lp) ->
  cut_to (VArr lh) (DArr dp) -> (returns r' -> short_to (VArr lh) (DArr dp) /\ Forall (fun v => height v <= n) lh) ->
  apost G L a n pl l l0 lp dp r s' pl' r'.
Proof.
  intros G L a n pl l l0 lp dp r lh s' pl' r' H E P V C S. split; [exact E|]. split; [exact P|]. intros _. exists lh, [].
  split; [exact H|]. split; [cbn; lia|]. split; [auto|]. split; [intros X Y; split; [apply V; assumption|reflexivity]|]. auto.
Qed.
Lemma o_done : forall G L a n pl m m0 mp dp r mh s' pl' r', put G L a (VObj mh) s' -> ends_as r' r -> (granted pl pl' -> r' = r) -> (granted pl pl' -> m0 = m -> mh = mp) ->
  cut_to (VObj mh) (DObj dp) -> (returns r' -> short_to (VObj mh) (DObj dp) /\ Forall (fun kv => height (snd kv) <= n) mh) ->
  opost G L a n pl m m0 mp dp r s' pl' r'.
Proof.
  intros G L a n pl l l0 lp dp r lh s' pl' r' H E P V C S. split; [exact E|]. split; [exact P|]. intros _. exists lh, [].
  split; [exact H|]. split; [cbn; lia|]. split; [auto|]. split; [intros X Y; split; [apply V; assumption|reflexivity]|]. auto.
Qed.

Lemma clipped_refl : forall s, clipped s s.
Proof. intro s. exists []. rewrite app_nil_r. auto. Qed.
Lemma short_cut : forall v d, short_to v d -> cut_to v d.
Proof. intros v d (d' & A & B). exists d'. split; [exact A|]. constructor. exact B. Qed.
Lemma short_scalar : forall v, scalar v -> short_to v (DVal v).
Proof. intros v H. exists (DVal v). split; constructor; exact H. Qed.
Lemma cut_null : forall d, cut_to VNull d.
Proof. intro d. exists (DVal VNull). split; [constructor; exact Logic.I|apply cu_none]. Qed.

Lemma gt_str : forall x w, val_of x = VStr w -> exists q, x = GStr q w.
Proof. intros [| | | |p s| |] w H; try discriminate. injection H as ->. eauto. Qed.

Lemma fput_ext : forall G a t z l x, fwalk G a = Some (l, x) -> fput G (ext a t) z = fput G a (gput t z x).
Proof.
  intros G a t z l x W. rewrite <- (fput_fput_pre G a t (gput t z x) z l x W). symmetry. eapply fput_same. apply (fwalk_put_below G a t z l x W).
Qed.

Lemma goes_mget : forall B cf fuel st (k : str * outcome pst -> F B) s pl Q,
  (forall pl' t r', spent pl pl' -> (let '(w, r) := get_string cf fuel st in
     ends_as r' r /\ (granted pl pl' -> r' = r /\ t = w) /\ (exists x, w = t ++ x) /\ (returns r' -> clipped t w)) -> goes (k (t, r')) s pl' Q) ->
  goes (fseq (mget_string cf fuel st) k) s pl Q.
Proof.
  intros B cf fuel st k s pl Q H. destruct (mget_ok cf fuel st s pl) as (s' & pl' & t & r' & E & -> & S & P).
  destruct (H pl' t r' S P) as (s2 & pl2 & r2 & E2 & S2 & H2). exists s2, pl2, r2. unfold fseq. rewrite E. split; [exact E2|].
  split; [eapply spent_trans; eassumption|exact H2].
Qed.

Lemma goes_pop : forall A (m : F A) s pl Q1 (Q : hstate -> plan -> outcome A -> Prop), goes m s pl Q1 ->
  (forall s' pl' r, spent pl pl' -> Q1 s' pl' r -> comes_back r -> exists s2, pop_slot s' = (s2, Ret tt) /\ Q s2 pl' r) ->
  (forall s' pl' r, spent pl pl' -> Q1 s' pl' r -> ~ comes_back r -> Q s' pl' r) -> goes (ffinally m pop_slot) s pl Q.
Proof.
  intros A m s pl Q1 Q (s' & pl' & r & E & S & H) K1 K2. unfold goes, ffinally. rewrite E.
  destruct r as [x|e| | |].
  - destruct (K1 _ _ _ S H Logic.I) as (s2 & P & H2). exists s2, pl', (Ret x). unfold fseq, lift. cbn [fst snd]. rewrite P. cbn. auto.
  - destruct (K1 _ _ _ S H Logic.I) as (s2 & P & H2). exists s2, pl', (Throw e). unfold fseq, lift. cbn [fst snd]. rewrite P. cbn. auto.
  - exists s', pl', Abort. split; [reflexivity|]. split; [exact S|]. apply K2; auto.
  - exists s', pl', UB. split; [reflexivity|]. split; [exact S|]. apply K2; auto.
  - exists s', pl', OutOfFuel. split; [reflexivity|]. split; [exact S|]. apply K2; auto.
Qed.

Lemma height_all : forall n l, Forall (fun v => height v <= n) l -> height (VArr l) <= S n.
Proof.
  intros n l H. cbn [height]. apply le_n_S, list_max_le, Forall_map. exact H.
Qed.
Lemma height_members : forall n (m : list (str * value)), Forall (fun kv => height (snd kv) <= n) m -> height (VObj m) <= S n.
Proof.
  intros n m H. cbn [height]. apply le_n_S, list_max_le, Forall_map. exact H.
Qed.
Lemma emplace_forall : forall A (P : str * A -> Prop) k v m, Forall P m -> P (k, v) -> Forall P (obj_emplace k v m).
Proof.
  intros A P k v m H Hk. induction H as [|[k' x] m Hx H IH]; cbn [obj_emplace]; [auto|].
  destruct (str_ltb k k'); [auto|]. destruct (str_eqb k k'); auto.
Qed.

(** ** The document: everything read, kept in order *)
Definition rdoc (cf : pcfg) (f : nat) (tok : option token) (st : pst) : doc := doc_of (fst (g_parse put_all cf f VNull tok st)).
Definition rdocs (cf : pcfg) (f : nat) (l : list value) (st : pst) : list doc := map doc_of (fst (g_arr put_all cf f l st)).
Definition mdocs (m : list (str * value)) : list (str * doc) := map (fun p => (fst p, doc_of (snd p))) m.
Definition rmems (cf : pcfg) (f : nat) (m : list (str * value)) (st : pst) : list (str * doc) := mdocs (fst (g_obj put_all cf f m st)).

Lemma same_run : forall put cf f c tok st, snd (g_parse put cf f c tok st) = snd (do_parse cf f c tok st).
Proof.
  intros. destruct (proj1 (g_doc cf f) c tok st) as (d & r & E). rewrite <- (proj1 (g_emplace cf f)), !E. reflexivity.
Qed.
Lemma arr_grows : forall put cf f l st, exists l2, fst (g_arr put cf f l st) = l ++ l2.
Proof.
  intros put cf f. induction f as [|f IH]; intros l st; [exists []; rewrite app_nil_r; reflexivity|]. cbn [g_arr].
  destruct (scan cf (S f) st) as [[t st1]|e| | |]; try (exists []; rewrite app_nil_r; reflexivity).
  destruct (starts_value t); [|exists []; rewrite app_nil_r; reflexivity].
  destruct (g_parse put cf f VNull (Some t) st1) as [v [st2|e| | |]]; try (exists [v]; reflexivity).
  destruct (scan cf (S f) st2) as [[t2 st3]|e| | |]; try (exists [v]; reflexivity). destruct t2; try (exists [v]; reflexivity).
  destruct (IH (l ++ [v]) st3) as [l2 E]. exists ([v] ++ l2). rewrite E, app_assoc. reflexivity.
Qed.
Lemma obj_grows : forall cf f m st, exists m2, fst (g_obj put_all cf f m st) = m ++ m2.
Proof.
  intros cf f. induction f as [|f IH]; intros m st; [exists []; rewrite app_nil_r; reflexivity|]. cbn [g_obj].
  destruct (scan cf (S f) st) as [[t st1]|e| | |]; try (exists []; rewrite app_nil_r; reflexivity).
  destruct t; try (exists []; rewrite app_nil_r; reflexivity).
  destruct (get_string cf (S f) st1) as [k [st2|e| | |]]; try (exists []; rewrite app_nil_r; reflexivity).
  destruct (scan cf (S f) st2) as [[t2 st3]|e| | |]; try (exists []; rewrite app_nil_r; reflexivity). destruct t2; try (exists []; rewrite app_nil_r; reflexivity).
  destruct (g_parse put_all cf f VNull None st3) as [v [st4|e| | |]]; try (exists []; rewrite app_nil_r; reflexivity).
  destruct (scan cf (S f) st4) as [[t3 st5]|e| | |]; try (exists [(k, v)]; reflexivity). destruct t3; try (exists [(k, v)]; reflexivity).
  destruct (IH (put_all k v m) st5) as [m2 E]. exists ([(k, v)] ++ m2). rewrite E. unfold put_all. rewrite <- app_assoc. reflexivity.
Qed.

(** ** The parser *)
Definition PV (cf : pcfg) (f : nat) : Prop := forall s pl G L a la x tok st, rep s G L -> fwalk G a = Some (la, x) ->
  let '(v, r) := do_parse cf f (val_of x) tok st in goes (mdo_parse cf f la tok st) s pl (vpost G L a f pl (val_of x) v (rdoc cf f tok st) r).
Definition PA (cf : pcfg) (f : nat) : Prop := forall n s pl G L a la x l l0 lq ds0 st, f <= n -> rep s G L -> fwalk G a = Some (la, x) -> val_of x = VArr l0 ->
  means_all ds0 l0 -> short_all ds0 (map doc_of lq) -> Forall (fun v => height v <= n) l0 ->
  let '(lp, r) := arr_loop cf f l st in goes (marr_loop cf f la st) s pl (apost G L a n pl l l0 lp (rdocs cf f lq st) r).
Definition PO (cf : pcfg) (f : nat) : Prop := forall n s pl G L a la x m m0 mq ms0 st, f <= n -> rep s G L -> fwalk G a = Some (la, x) -> val_of x = VObj m0 ->
  fills ms0 m0 -> short_members ms0 (mdocs mq) -> Forall (fun kv => height (snd kv) <= n) m0 ->
  let '(mp, r) := obj_loop cf f m st in goes (mobj_loop cf f la st) s pl (opost G L a n pl m m0 mp (rmems cf f mq st) r).

Lemma v_refused : forall G L a la x n pl v d r s' pl', rep s' G L -> fwalk G a = Some (la, x) -> refused pl pl' -> vpost G L a n pl (val_of x) v d r s' pl' (Throw EAlloc).
Proof.
  intros G L a la x n pl v d r s' pl' H W R. eapply v_untouched; [exact H|exact W|right; left; reflexivity| |intros []|]; intro X; destruct (refused_not _ _ R X).
Qed.
Lemma goes_done : forall A B (m : F A) (k : A -> F B) s pl ok bad (b : A -> B) (Q : hstate -> plan -> outcome B -> Prop), outF m s pl ok bad ->
  (forall x, k x = fret (b x)) ->
  (forall s1 pl1 x, granted pl pl1 -> ok s1 x -> Q s1 pl1 (Ret (b x))) ->
  (forall s1 pl1, refused pl pl1 -> bad s1 -> Q s1 pl1 (Throw EAlloc)) -> goes (fseq m k) s pl Q.
Proof. intros A B m k s pl ok bad b Q H E K1 K2. eapply goes_out; [exact H| |exact K2]. intros. rewrite E. apply goes_ret. auto. Qed.


Lemma v_told : forall G L a la x n pl pl0 v d (r : outcome pst) s, rep s G L -> fwalk G a = Some (la, x) -> spent pl pl0 -> (granted pl pl0 -> v = val_of x) -> ~ returns r ->
  goes (told r) s pl0 (vpost G L a n pl (val_of x) v d r).
Proof.
  intros G L a la x n pl pl0 v d r s H W Sp V N. apply goes_tell. intros pl' r' Sp' E P R.
  eapply v_untouched; [exact H|exact W|exact E| |tauto|]; intro GG; destruct (granted_split _ _ _ Sp Sp' GG); auto.
Qed.
Lemma v_told_end : forall B G L a la x n pl pl0 v d (r : outcome B) k s, rep s G L -> fwalk G a = Some (la, x) -> spent pl pl0 -> (granted pl pl0 -> v = val_of x) -> ~ returns r ->
  goes (fseq (told r) k) s pl0 (vpost G L a n pl (val_of x) v d (stop r)).
Proof.
  intros B G L a la x n pl pl0 v d r k s H W Sp V N. apply goes_tell_end; [exact N|]. intros pl' r' Sp' E P R.
  eapply v_untouched; [exact H|exact W|exact E| |exact R|]; intro GG; destruct (granted_split _ _ _ Sp Sp' GG); auto.
Qed.

Lemma v_string : forall cf f s pl G L a la x st, rep s G L -> fwalk G a = Some (la, x) ->
  let '(w, r) := get_string cf (S f) st in
  goes (let! _ <- fassign la fempty; let! p <- lift (data_at la); let! r <- mget_string cf (S f) st; let! _ <- lift (set_block p (BStr (fst r))); told (snd r))
    s pl (vpost G L a (S f) pl (val_of x) (VStr w) (DStr w) r).
Proof.
  intros cf f s pl G L a la x st H W. destruct (get_string cf (S f) st) as [w r] eqn:E.
  eapply goes_out; [eapply fassign_ok; [exact H|exact W|apply fempty_ok; exact H]| |].
  2:{ intros s1 pl1 R H1. eapply v_refused; eassumption. }
  intros s1 pl1 _ Gr (y & V & H1). destruct (gt_str _ _ V) as [q ->].
  pose proof (fwalk_put_same G a (GStr q []) la x W) as W1.
  eapply goes_step; [unfold data_at, seqm; rewrite (read_ok _ _ _ _ _ _ H1 W1); reflexivity|].
  apply goes_mget. rewrite E. intros pl2 t r' S2 (E2 & P2 & [z Z] & C2).
  destruct (refocus s1 (fput G a (GStr q [])) L a la (GStr q []) q (BStr []) (BStr t) [] [] (GStr q t) L H1 W1 eq_refl eq_refl eq_refl (Permutation_refl _)) as [E3 H3].
  cbn [fst snd]. eapply goes_step; [exact E3|]. rewrite (fput_fput_same _ _ _ _ _ _ W) in H3.
  apply goes_tell. intros pl3 r3 S3 E4 P4 R4. eapply v_done with (v' := VStr t).
  - exists (GStr q t). auto.
  - eapply ends_trans; eassumption.
  - intro GG. destruct (granted_split _ _ _ (granted_spent _ _ Gr) (spent_trans _ _ _ S2 S3) GG) as [_ GG1].
    destruct (granted_split _ _ _ S2 S3 GG1) as [GG2 GG3]. destruct (P2 GG2) as [-> ->]. auto.
  - exists (DStr t). subst w. split; [constructor|apply cu_str].
  - intro R. split; [|cbn; lia]. exists (DStr t). split; constructor. auto.
Qed.

Lemma v_new : forall f s pl G L a la x i v r st, ilost i = 0 -> rep s G L -> fwalk G a = Some (la, x) -> init_value i = v -> scalar v -> height v = 0 -> r = Ret st ->
  goes (let! _ <- fassign_new la i; fret st) s pl (vpost G L a f pl (val_of x) v (DVal v) r).
Proof.
  intros f s pl G L a la x i v r st Z H W V Sc Hh Er. subst r v. eapply goes_done with (b := fun _ => st); [apply (fnew_ok i _ _ _ _ _ _ _ Z H W)|reflexivity| |].
  - intros s1 pl1 u Gr P. eapply v_done; [exact P|apply ends_refl|auto|apply short_cut, short_scalar; exact Sc|].
    intros _. split; [apply short_scalar; exact Sc|lia].
  - intros s1 pl1 R H1. eapply v_refused; eassumption.
Qed.

Lemma step_v : forall cf f, PA cf f -> PO cf f -> PV cf (S f).
Proof.
  intros cf f HA HO s pl G L a la x tok st H W. unfold rdoc. cbn [do_parse mdo_parse g_parse].
  assert (SC : exists sc, sc = match tok with None => scan cf (S f) st | Some t => Ret (t, st) end) by eauto. destruct SC as [sc SC].
  assert (TO : match tok with None => told (scan cf (S f) st) | Some t => fret (t, st) end = told sc) by (subst sc; destruct tok; reflexivity).
  rewrite TO, <- SC. clear TO SC tok.
  destruct sc as [[t st1]|e| | |]; try (apply v_told_end with (la := la); [exact H|exact W|apply spent_refl|auto|intros []]).
  clear st. rename st1 into st.
  assert (BAD : forall d m, goes (told (Parser.fail m)) s pl (vpost G L a (S f) pl (val_of x) (val_of x) d (Parser.fail m))).
  { intros d m. apply v_told with (la := la); [exact H|exact W|apply spent_refl|auto|intros []]. }
  destruct t; try (apply goes_told; apply BAD); clear BAD.
  all: try (apply goes_told; apply v_new with (v := VBool true) || apply v_new with (v := VBool false) || apply v_new with (v := VNull); (exact H || exact W || exact Logic.I || reflexivity)).
  - (* string *) pose proof (v_string cf f s pl G L a la x st H W) as X. destruct (get_string cf (S f) st). apply goes_told. exact X.
  - (* integer *)
    assert (ALL : forall r : outcome Z, goes (let! _ <- fassign_new la (IInt 0); let! z <- told r; let! _ <- lift (write_loc la (mkCell TInteger (WInt z))); fret st) s pl
      (vpost G L a (S f) pl (val_of x) (match r with Ret z => VInt z | _ => VInt 0 end) (DVal (match r with Ret z => VInt z | _ => VInt 0 end)) (match r with Ret _ => Ret st | r => stop r end))).
    { intro r. eapply goes_out with (ok := fun s' _ => put G L a (VInt 0) s'); [apply (fnew_ok (IInt 0) _ _ _ _ _ _ _ eq_refl H W)| |].
      2:{ intros s1 pl1 R H1. eapply v_refused; eassumption. }
      intros s1 pl1 _ Gr (y & V & H1). pose proof (fwalk_put_same G a y la x W) as W1.
      assert (By : blocks y = []) by (destruct y; try discriminate V; reflexivity).
      assert (STOP : ~ returns r -> goes (fseq (told r) (fun z => fseq (lift (write_loc la (mkCell TInteger (WInt z)))) (fun _ => fret st))) s1 pl1
        (vpost G L a (S f) pl (val_of x) (VInt 0) (DVal (VInt 0)) (stop r))).
      { intros N. apply goes_tell_end; [exact N|]. intros pl' r' Sp E P R. apply v_done with (v' := VInt 0); [exists y; auto|exact E| |apply short_cut, short_scalar; exact Logic.I|tauto].
        intro GG. destruct (granted_split _ _ _ (granted_spent _ _ Gr) Sp GG). auto. }
      destruct r as [z|e| | |]; try (apply STOP; intros []). apply goes_told.
      destruct (scalar_write _ _ _ _ _ _ (GInt z) H1 W1 By eq_refl) as (s2 & E2 & H2).
      eapply goes_step; [exact E2|]. apply goes_ret. rewrite (fput_fput_same _ _ _ _ _ _ W) in H2.
      apply v_done with (v' := VInt z); [exists (GInt z); auto|apply ends_refl|auto|apply short_cut, short_scalar; exact Logic.I|].
      intros _. split; [apply short_scalar; exact Logic.I|cbn; lia]. }
    specialize (ALL (get_integer st)). destruct (get_integer st) eqn:EI; apply goes_told; cbv beta iota; rewrite EI; exact ALL.
  - (* floating *) apply goes_told.
    eapply goes_out with (ok := fun s' _ => put G L a (VFloat f64_zero) s'); [apply (fnew_ok (IFloat f64_zero) _ _ _ _ _ _ _ eq_refl H W)| |].
    2:{ intros s1 pl1 R H1. eapply v_refused; eassumption. }
    intros s1 pl1 _ Gr (y & V & H1). pose proof (fwalk_put_same G a y la x W) as W1.
    assert (By : blocks y = []) by (destruct y; try discriminate V; reflexivity).
    destruct (scalar_write _ _ _ _ _ _ (GFlt (get_float st)) H1 W1 By eq_refl) as (s2 & E2 & H2).
    eapply goes_step; [exact E2|]. apply goes_ret. rewrite (fput_fput_same _ _ _ _ _ _ W) in H2.
    apply v_done with (v' := VFloat (get_float st)); [exists (GFlt (get_float st)); auto|apply ends_refl|auto|apply short_cut, short_scalar; exact Logic.I|].
    intros _. split; [apply short_scalar; exact Logic.I|cbn [height]; lia].
  - (* array *)
    assert (DQ : doc_of (fst (let '(l, r) := g_arr put_all cf f [] st in (VArr l, match r with Ret (Tend_arr, st) => Ret st | Ret (t, _) => Parser.fail (expect_msg t Tend_arr) | r => stop r end))) = DArr (rdocs cf f [] st))
      by (unfold rdocs; destruct (g_arr put_all cf f [] st); reflexivity). rewrite DQ. clear DQ.
    destruct (arr_loop cf f [] st) as [lp r] eqn:EP. apply goes_told.
    eapply goes_out with (ok := fun s' _ => put G L a (VArr []) s'); [apply (fnew_ok IArr _ _ _ _ _ _ _ eq_refl H W)| |].
    2:{ intros s1 pl1 R H1. eapply v_refused; eassumption. }
    intros s1 pl1 _ Gr (y & V & H1). pose proof (fwalk_put_same G a y la x W) as W1.
    pose proof (HA f s1 pl1 _ L a la y [] [] [] [] st (le_n _) H1 W1 V ma_nil sa_nil (Forall_nil _)) as X. rewrite EP in X.
    eapply goes_seq; [exact X| |].
    + intros s2 pl2 [t st2] S2 (E2 & P2 & B2). apply ends_ret in E2. subst r. destruct (B2 Logic.I) as (lh & K & Pu & LK & KK & GG & CC & SS).
      destruct KK as [->|KK]; [|discriminate]. cbn [map app] in Pu. apply (put_put _ _ _ _ _ _ _ _ W) in Pu. destruct (SS Logic.I) as [SH HH].
      assert (BAD : forall m, goes (told (Parser.fail m)) s2 pl2 (vpost G L a (S f) pl (val_of x) (VArr lp) (DArr (rdocs cf f [] st)) (Parser.fail m))).
      { intro m. apply goes_tell. intros pl3 r3 S3 E3 P3 R3. apply v_done with (v' := VArr lh); [exact Pu|exact E3| |exact CC|cbn in R3; tauto].
        intro Y. destruct (granted_split _ _ _ (granted_spent _ _ Gr) (spent_trans _ _ _ S2 S3) Y) as [_ Y1].
        destruct (granted_split _ _ _ S2 S3 Y1) as [Y2 Y3]. destruct (GG Y2 eq_refl) as [-> _]. auto. }
      destruct t; try apply BAD. apply goes_ret. apply v_done with (v' := VArr lh); [exact Pu|apply ends_refl| |exact CC|].
      * intro Y. destruct (granted_split _ _ _ (granted_spent _ _ Gr) S2 Y) as [_ Y2]. destruct (GG Y2 eq_refl) as [-> _]. auto.
      * intros _. split; [exact SH|]. apply height_all. exact HH.
    + intros s2 pl2 r' S2 (E2 & P2 & B2) N.
      assert (YY : granted pl pl2 -> granted pl1 pl2) by (intro Y; apply (granted_split _ _ _ (granted_spent _ _ Gr) S2 Y)).
      split; [|split].
      * apply ends_any with (r := r); [exact E2|exact N|]. intros r3 -> N3. destruct r3 as [[]|e| | |]; try reflexivity. destruct (N3 Logic.I).
      * intro Y. rewrite <- (P2 (YY Y)). destruct r' as [[]|e| | |]; try reflexivity. destruct (N Logic.I).
      * intro C. destruct (B2 (stop_back _ _ _ N C)) as (lh & K & Pu & LK & KK & GG & CC & SS). exists (VArr lh), K.
        split; [eapply put_put; [exact W|exact Pu]|]. split; [lia|]. split; [destruct KK as [KK|KK]; [auto|right; apply stop_alloc; exact KK]|].
        split; [intro Y; destruct (GG (YY Y) eq_refl) as [-> ->]; auto|]. split; [auto|]. intro R. destruct (stop_returns _ _ _ R).
  - (* object *)
    assert (DQ : doc_of (fst (let '(m, r) := g_obj put_all cf f [] st in (VObj m, match r with Ret (Tend_obj, st) => Ret st | Ret (t, _) => Parser.fail (expect_msg t Tend_obj) | r => stop r end))) = DObj (rmems cf f [] st))
      by (unfold rmems; destruct (g_obj put_all cf f [] st); reflexivity). rewrite DQ. clear DQ.
    destruct (obj_loop cf f [] st) as [mp r] eqn:EP. apply goes_told.
    eapply goes_out with (ok := fun s' _ => put G L a (VObj []) s'); [apply (fnew_ok IObj _ _ _ _ _ _ _ eq_refl H W)| |].
    2:{ intros s1 pl1 R H1. eapply v_refused; eassumption. }
    intros s1 pl1 _ Gr (y & V & H1). pose proof (fwalk_put_same G a y la x W) as W1.
    pose proof (HO f s1 pl1 _ L a la y [] [] [] [] st (le_n _) H1 W1 V fills_nil sm_nil (Forall_nil _)) as X. rewrite EP in X.
    eapply goes_seq; [exact X| |].
    + intros s2 pl2 [t st2] S2 (E2 & P2 & B2). apply ends_ret in E2. subst r. destruct (B2 Logic.I) as (mh & K & Pu & LK & KK & GG & CC & SS).
      destruct KK as [->|KK]; [|discriminate]. cbn [map app] in Pu. apply (put_put _ _ _ _ _ _ _ _ W) in Pu. destruct (SS Logic.I) as [SH HH].
      assert (BAD : forall m, goes (told (Parser.fail m)) s2 pl2 (vpost G L a (S f) pl (val_of x) (VObj mp) (DObj (rmems cf f [] st)) (Parser.fail m))).
      { intro m. apply goes_tell. intros pl3 r3 S3 E3 P3 R3. apply v_done with (v' := VObj mh); [exact Pu|exact E3| |exact CC|cbn in R3; tauto].
        intro Y. destruct (granted_split _ _ _ (granted_spent _ _ Gr) (spent_trans _ _ _ S2 S3) Y) as [_ Y1].
        destruct (granted_split _ _ _ S2 S3 Y1) as [Y2 Y3]. destruct (GG Y2 eq_refl) as [-> _]. auto. }
      destruct t; try apply BAD. apply goes_ret. apply v_done with (v' := VObj mh); [exact Pu|apply ends_refl| |exact CC|].
      * intro Y. destruct (granted_split _ _ _ (granted_spent _ _ Gr) S2 Y) as [_ Y2]. destruct (GG Y2 eq_refl) as [-> _]. auto.
      * intros _. split; [exact SH|]. apply height_members. exact HH.
    + intros s2 pl2 r' S2 (E2 & P2 & B2) N.
      assert (YY : granted pl pl2 -> granted pl1 pl2) by (intro Y; apply (granted_split _ _ _ (granted_spent _ _ Gr) S2 Y)).
      split; [|split].
      * apply ends_any with (r := r); [exact E2|exact N|]. intros r3 -> N3. destruct r3 as [[]|e| | |]; try reflexivity. destruct (N3 Logic.I).
      * intro Y. rewrite <- (P2 (YY Y)). destruct r' as [[]|e| | |]; try reflexivity. destruct (N Logic.I).
      * intro C. destruct (B2 (stop_back _ _ _ N C)) as (mh & K & Pu & LK & KK & GG & CC & SS). exists (VObj mh), K.
        split; [eapply put_put; [exact W|exact Pu]|]. split; [lia|]. split; [destruct KK as [KK|KK]; [auto|right; apply stop_alloc; exact KK]|].
        split; [intro Y; destruct (GG (YY Y) eq_refl) as [-> ->]; auto|]. split; [auto|]. intro R. destruct (stop_returns _ _ _ R).
Qed.

Lemma back_alloc : forall A B (r : outcome A) (K : list nat), K = [] \/ r = Throw EAlloc -> K = [] \/ @stop A B r = Throw EAlloc.
Proof. intros A B r K [E|E]; [auto|right; apply stop_alloc; exact E]. Qed.

Lemma short_arr : forall ds0 l0 ds, means_all ds0 l0 -> short_all ds0 ds -> short_to (VArr l0) (DArr ds).
Proof. intros. exists (DArr ds0). split; constructor; assumption. Qed.
Lemma cut_arr : forall ds0 l0 ds ds2, means_all ds0 l0 -> short_all ds0 ds -> cut_to (VArr l0) (DArr (ds ++ ds2)).
Proof. intros. exists (DArr ds0). split; [constructor; assumption|]. apply cu_arr. assumption. Qed.
Lemma cut_arr_in : forall ds0 l0 ds d d' v' ds2, means_all ds0 l0 -> means d' v' -> short_all ds0 ds -> cut d' d ->
  cut_to (VArr (l0 ++ [v'])) (DArr (ds ++ d :: ds2)).
Proof.
  intros. exists (DArr (ds0 ++ [d'])). split; [constructor; apply means_all_app; [assumption|constructor; [assumption|constructor]]|]. apply cu_arr_in; assumption.
Qed.

Lemma step_a : forall cf f, PV cf f -> PA cf f -> PA cf (S f).
Proof.
  intros cf f HV HA n s pl G L a la x l l0 lq ds0 st Ln H W V M0 Sh Hh.
  destruct (gt_arr _ _ V) as (q & g & xs & -> & ->). set (l0 := map val_of xs) in *.
  destruct (arr_loop cf (S f) l st) as [lp r] eqn:EP.
  assert (CUT : cut_to (VArr l0) (DArr (rdocs cf (S f) lq st))).
  { unfold rdocs. destruct (arr_grows put_all cf (S f) lq st) as [l2 ->]. rewrite map_app. exact (cut_arr _ _ _ _ M0 Sh). }
  assert (PUT : put G L a (VArr l0) s) by (rewrite <- V; eapply put_same; eassumption).
  cbn [marr_loop]. pose proof EP as EQ. cbn [arr_loop] in EQ.
  assert (QQ : exists lqp, lqp = rdocs cf (S f) lq st) by eauto. destruct QQ as [lqp QQ]. rewrite <- QQ in *. unfold rdocs in QQ. cbn [g_arr] in QQ.
  destruct (scan cf (S f) st) as [[t st1]|e| | |] eqn:Sc.
  2-5: (injection EQ as <- <-; apply goes_tell_end; [intros []|]; intros pl' r' Sp E P R; apply a_done with (lh := l0); [exact PUT|exact E|exact P|auto|exact CUT|tauto]).
  apply goes_told. destruct (starts_value t) eqn:T.
  2:{ injection EQ as <- <-. apply goes_ret. apply a_done with (lh := l0); [exact PUT|apply ends_refl|auto|auto|exact CUT|].
      intros _. split; [|exact Hh]. cbn [fst] in QQ. subst lqp. exact (short_arr _ _ _ M0 Sh). }
  eapply goes_out; [apply (fappend_ok _ _ _ _ _ _ _ _ _ H W)| |].
  2:{ intros s1 pl1 R H1. apply a_done with (lh := l0); [rewrite <- V; eapply put_same; eassumption|right; left; reflexivity| | |exact CUT|intros []];
      intro Y; destruct (refused_not _ _ R Y). }
  intros s1 pl1 e Gr (-> & H1). set (X1 := GArr q (S g) (xs ++ [GNull])) in *.
  set (b := ext a [Idx (N.of_nat (length xs))]).
  assert (W1 : fwalk (fput G a X1) a = Some (la, X1)) by (eapply fwalk_put_same; exact W).
  assert (Wb : fwalk (fput G a X1) b = Some (LElem q (S g) (length xs), GNull)).
  { unfold b. rewrite (fwalk_put_above _ _ _ _ _ _ W). unfold X1. cbn [walk]. rewrite Nnat.Nat2N.id, nth_error_app2, Nat.sub_diag by lia. reflexivity. }
  pose proof (HV s1 pl1 _ L b _ _ (Some t) st1 H1 Wb) as XV. cbn [val_of] in XV.
  pose proof (same_run put_all cf f VNull (Some t) st1) as SR. unfold rdoc in XV.
  destruct (g_parse put_all cf f VNull (Some t) st1) as [vq rq] eqn:DQ.
  destruct (do_parse cf f VNull (Some t) st1) as [v rv] eqn:DP. cbn [fst snd] in SR, XV. subst rq.
  assert (PB : forall v' K s2, put (fput G a X1) K b v' s2 -> put G K a (VArr (l0 ++ [v'])) s2).
  { intros v' K s2 (y & Vy & Hy). unfold b in Hy. rewrite (fput_ext _ _ _ _ _ _ W1), (fput_fput_same _ _ _ _ _ _ W) in Hy. eexists. split; [|exact Hy].
    unfold X1. cbn [gput]. rewrite Nnat.Nat2N.id, nth_error_app2, Nat.sub_diag by lia. cbn [nth_error]. rewrite set_mid. cbn [val_of]. rewrite map_app. cbn [map]. rewrite Vy. reflexivity. }
  eapply goes_seq; [exact XV| |].
  - intros s2 pl2 st2 S2 (E2 & P2 & B2). apply ends_ret in E2. subst rv. destruct (B2 Logic.I) as (v' & K & Pu & LK & KK & GG & CC & SS).
    destruct KK as [->|KK]; [|discriminate]. cbn [map app] in Pu. apply PB in Pu. destruct (SS Logic.I) as [(d' & D' & SHd) HH].
    assert (M01 : means_all (ds0 ++ [d']) (l0 ++ [v'])) by (apply means_all_app; [exact M0|constructor; [exact D'|constructor]]).
    assert (SH1 : short_all (ds0 ++ [d']) (map doc_of (lq ++ [vq]))) by (rewrite map_app; apply short_all_app; [exact Sh|constructor; [exact SHd|constructor]]).
    assert (HH1 : Forall (fun v => height v <= n) (l0 ++ [v'])) by (apply Forall_app; split; [exact Hh|constructor; [lia|constructor]]).
    assert (YY : forall pl3, spent pl2 pl3 -> granted pl pl3 -> granted pl2 pl3 /\ (l0 = l -> l0 ++ [v'] = l ++ [v])).
    { intros pl3 S3 Y. destruct (granted_split _ _ _ (granted_spent _ _ Gr) (spent_trans _ _ _ S2 S3) Y) as [_ Y1].
      destruct (granted_split _ _ _ S2 S3 Y1) as [Y2 Y3]. split; [exact Y3|]. destruct (GG Y2) as [-> _]. intros ->. reflexivity. }
    destruct (scan cf (S f) st2) as [[t2 st3]|e| | |] eqn:Sc2.
    2-5: (injection EQ as <- <-; apply goes_tell_end; [intros []|]; intros pl' r' Sp E P R; apply a_done with (lh := l0 ++ [v']); [exact Pu|exact E|intro Y; apply P, YY; assumption|intro Y; apply (YY pl'); assumption|cbn [fst] in QQ; subst lqp; exact (short_cut _ _ (short_arr _ _ _ M01 SH1))|tauto]).
    apply goes_told.
    assert (OK : goes (fret (t2, st3)) s2 pl2 (apost G L a n pl l l0 (l ++ [v]) (map doc_of (lq ++ [vq])) (Ret (t2, st3)))).
    { apply goes_ret. apply a_done with (lh := l0 ++ [v']); [exact Pu|apply ends_refl|auto|intro Y; apply (YY pl2); [apply spent_refl|exact Y]|exact (short_cut _ _ (short_arr _ _ _ M01 SH1))|].
      intros _. split; [exact (short_arr _ _ _ M01 SH1)|exact HH1]. }
    destruct t2; try (injection EQ as <- <-; cbn [fst] in QQ; subst lqp; exact OK). clear OK.
    destruct Pu as (y & Vy & H2). pose proof (fwalk_put_same G a y la _ W) as W2.
    pose proof (HA n s2 pl2 _ L a la y (l ++ [v]) (l0 ++ [v']) (lq ++ [vq]) _ st3 ltac:(lia) H2 W2 Vy M01 SH1 HH1) as XA. rewrite EQ in XA. subst lqp.
    eapply goes_weak; [exact XA|]. intros s3 pl3 r3 S3 (E3 & P3 & B3). split; [exact E3|]. split; [intro Y; apply P3, YY; assumption|].
    intro C. destruct (B3 C) as (lh & K & Pu3 & LK3 & KK3 & GG3 & CC3 & SS3). exists lh, K.
    split; [eapply put_put; [exact W|exact Pu3]|]. split; [exact LK3|]. split; [exact KK3|]. split; [|auto].
    intros Y El. destruct (YY pl3 S3 Y) as [Y3 Y4]. apply GG3; auto.
  - intros s2 pl2 r' S2 (E2 & P2 & B2) N.
    assert (YY : granted pl pl2 -> granted pl1 pl2) by (intro Y; apply (granted_split _ _ _ (granted_spent _ _ Gr) S2 Y)).
    assert (NR : rv = r' -> lp = l ++ [v] /\ r = stop r').
    { intros ->. destruct r' as [[]|e| | |]; try (injection EQ as <- <-; auto). destruct (N Logic.I). }
    split; [|split].
    + apply ends_any with (r := rv); [exact E2|exact N|]. intros r3 E3 N3. subst r3. destruct rv as [[]|e| | |]; try (injection EQ as <- <-; auto). destruct (N3 Logic.I).
    + intro Y. pose proof (P2 (YY Y)) as Z. symmetry in Z. destruct (NR Z) as [_ ->]. reflexivity.
    + intro C. destruct (B2 (stop_back _ _ _ N C)) as (v' & K & Pu & LK & KK & GG & CC & SS). exists (l0 ++ [v']), K.
      split; [apply PB; exact Pu|]. split; [lia|]. split; [destruct KK as [KK|KK]; [auto|right; apply stop_alloc; exact KK]|].
      split. { intros Y El. destruct (GG (YY Y)) as [-> ->]. pose proof (P2 (YY Y)) as Z. symmetry in Z. destruct (NR Z) as [-> _]. rewrite El. auto. }
      split; [|intro R; destruct (stop_returns _ _ _ R)].
      assert (DD : cut_to v' (doc_of vq)) by (destruct CC as [->|CC]; [apply cut_null|exact CC]).
      destruct DD as (d' & D' & CD).
      assert (GR : exists ds2, lqp = map doc_of lq ++ doc_of vq :: ds2).
      { assert (Z : lqp = map doc_of (lq ++ [vq]) -> exists ds2, lqp = map doc_of lq ++ doc_of vq :: ds2) by (intros ->; exists []; rewrite map_app; reflexivity).
        destruct rv as [st2|e| | |]; try exact (Z QQ). destruct (scan cf (S f) st2) as [[t2 st3]|e| | |]; try exact (Z QQ). destruct t2; try exact (Z QQ).
        destruct (arr_grows put_all cf f (lq ++ [vq]) st3) as [l2 E]. rewrite E, <- app_assoc, map_app in QQ. exists (map doc_of l2). exact QQ. }
      destruct GR as (ds2 & ->). exact (cut_arr_in _ _ _ _ _ _ _ M0 D' Sh CD).
Qed.

(** one member: its value is read into a temporary and then copied in *)
Definition mpost (m0 : list (str * value)) (k : str) (n : nat) (pl pl' : plan) (v : value) (d : doc) (rv : outcome pst) (r' : outcome (token * pst)) (mh : list (str * value)) (K : list nat) : Prop :=
  length K <= n /\ (K = [] \/ r' = Throw EAlloc) /\
  ((mh = m0 /\ ~ returns r' /\ (granted pl pl' -> ~ returns rv /\ K = [])) \/
   (returns rv /\ K = [] /\ exists v', mh = obj_emplace k v' m0 /\ short_to v' d /\ height v' <= n /\ (granted pl pl' -> v' = v))).

Lemma member_ok : forall cf f s pl G L a la x m0 k st, PV cf f -> rep s G L -> fwalk G a = Some (la, x) -> val_of x = VObj m0 -> sorted m0 ->
  let '(v, rv) := do_parse cf f VNull None st in
  let rp := match rv with Ret st => scan cf (S f) st | r => stop r end in
  goes (ftemp null_cell (fun object =>
          let! st <- mdo_parse cf f object None st;
          let! _ <- femplace la k object;
          told (scan cf (S f) st))) s pl
    (fun s' pl' r' => ends_as r' rp /\ (granted pl pl' -> r' = rp) /\
       (comes_back r' -> exists mh K, put G (map raw K ++ L) a (VObj mh) s' /\ mpost m0 k f pl pl' v (rdoc cf f None st) rv r' mh K)).
Proof.
  intros cf f s pl G L a la x m0 k st HV H W V So. destruct (gt_obj _ _ V) as (q & xs & -> & ->). set (m0 := vmap val_of xs) in *.
  destruct (do_parse cf f VNull None st) as [v rv] eqn:DP. cbv zeta. set (rp := match rv with Ret st => scan cf (S f) st | r => stop r end).
  unfold ftemp. assert (H0 : rep s G (GNull :: L)) by (apply rep_scalar; [reflexivity|exact H]).
  destruct (push_slot_ok s G L GNull H0) as (s1 & E1 & H1). eapply goes_step; [exact E1|].
  eapply goes_pop with (Q1 := fun s' pl' r' => ends_as r' rp /\ (granted pl pl' -> r' = rp) /\
       (comes_back r' -> exists z y mh K, val_of z = VObj mh /\ rep s' (fput G a z ++ [Some y]) (map raw K ++ L) /\ mpost m0 k f pl pl' v (rdoc cf f None st) rv r' mh K)).
  2:{ intros s' pl' r' Sp (E & P & B) C. destruct (B C) as (z & y & mh & K & Vz & Hz & MP). destruct (pop_slot_ok _ _ _ _ Hz) as (s2 & E2 & H2).
      exists s2. split; [exact E2|]. split; [exact E|]. split; [exact P|]. intros _. exists mh, K. split; [exists z; auto|exact MP]. }
  2:{ intros s' pl' r' Sp (E & P & B) C. split; [exact E|]. split; [exact P|]. intro Y. destruct (C Y). }
  pose proof (HV s1 pl _ L (length G, []) _ _ None st H1 (last_slot G GNull)) as XV. cbn [val_of] in XV. rewrite DP in XV.
  eapply goes_seq; [exact XV| |].
  - intros s2 pl2 st2 S2 (E2 & P2 & B2). apply ends_ret in E2. subst rv. destruct (B2 Logic.I) as (v' & K & (y & Vy & Hy) & LK & KK & GG & CC & SS).
    destruct KK as [->|KK]; [|discriminate]. cbn [map app] in Hy. rewrite fput_new in Hy. cbn [gput] in Hy. destruct (SS Logic.I) as [SH HH].
    pose proof (fwalk_grow G [Some y] a la _ W) as W2.
    eapply goes_out; [apply (femplace_ok s2 pl2 _ L a la q xs (length G, []) _ y k Hy W2 (last_slot G y) So)| |].
    + intros s3 pl3 _ Gr (xs' & Exs & H3). rewrite (fput_grow _ _ _ _ _ _ W) in H3.
      apply goes_tell. intros pl4 r4 S4 E4 P4 R4.
      assert (YY : granted pl pl4 -> granted pl pl2 /\ granted pl3 pl4).
      { intro Y. destruct (granted_split _ _ _ S2 (spent_trans _ _ _ (granted_spent _ _ Gr) S4) Y) as [Y1 Y2]. split; [exact Y1|].
        apply (granted_split _ _ _ (granted_spent _ _ Gr) S4 Y2). }
      split; [exact E4|]. split; [intro Y; apply P4, YY; exact Y|]. intros _.
      exists (GObj q xs'), y, (vmap val_of xs'), []. split; [reflexivity|]. split; [exact H3|]. split; [cbn; lia|]. split; [auto|]. right.
      split; [exact Logic.I|]. split; [reflexivity|]. exists v'. rewrite Exs, Vy. split; [reflexivity|]. split; [exact SH|]. split; [exact HH|].
      intro Y. apply GG, YY. exact Y.
    + intros s3 pl3 R (K & LK' & H3).
      assert (NN : ~ granted pl pl3) by (apply (not_granted_r _ _ _ S2 (refused_spent _ _ R)), refused_not; exact R).
      split; [right; left; reflexivity|]. split; [tauto|]. intros _. exists (GObj q xs), y, m0, K.
      split; [reflexivity|]. rewrite (fput_same _ _ _ _ W). split; [exact H3|]. rewrite Vy in LK'. split; [lia|]. split; [auto|]. left.
      split; [reflexivity|]. split; [intros []|tauto].
  - intros s2 pl2 r' S2 (E2 & P2 & B2) N.
    split; [|split].
    + apply ends_any with (r := rv); [exact E2|exact N|]. intros r3 E3 N3. subst r3. unfold rp. destruct rv as [?|e| | |]; try reflexivity. destruct (N3 Logic.I).
    + intro Y. unfold rp. rewrite <- (P2 Y). destruct r' as [?|e| | |]; try reflexivity. destruct (N Logic.I).
    + intro C. destruct (B2 (stop_back _ _ _ N C)) as (v' & K & (y & Vy & Hy) & LK & KK & GG & CC & SS). rewrite fput_new in Hy. cbn [gput] in Hy.
      exists (GObj q xs), y, m0, K. split; [reflexivity|]. rewrite (fput_same _ _ _ _ W). split; [exact Hy|]. split; [exact LK|].
      split; [apply back_alloc; exact KK|]. left. split; [reflexivity|]. split; [apply stop_returns|].
      intro Y. split; [rewrite <- (P2 Y); exact N|apply (GG Y)].
Qed.

Lemma fills_sorted : forall ms m, fills ms m -> sorted m.
Proof.
  intros ms m (vs & _ & ->). unfold emplace_all.
  assert (X : forall m0 : list (str * value), sorted m0 -> sorted (fold_left (fun m kv => obj_emplace (fst kv) (snd kv) m) vs m0)).
  { induction vs as [|[k v] vs IH]; intros m0 S0; [exact S0|]. cbn [fold_left fst snd]. apply IH, emplace_sorted. exact S0. }
  apply X. constructor.
Qed.
Lemma short_obj : forall ms0 m0 ms, fills ms0 m0 -> short_members ms0 ms -> short_to (VObj m0) (DObj ms).
Proof. intros. exists (DObj ms0). split; [apply fills_means; assumption|]. constructor. assumption. Qed.
Lemma cut_obj : forall ms0 m0 ms ms2, fills ms0 m0 -> short_members ms0 ms -> cut_to (VObj m0) (DObj (ms ++ ms2)).
Proof. intros. exists (DObj ms0). split; [apply fills_means; assumption|]. apply cu_obj. assumption. Qed.
Lemma mdocs_app : forall a b, mdocs (a ++ b) = mdocs a ++ mdocs b.
Proof. intros. unfold mdocs. apply map_app. Qed.

Lemma step_o : forall cf f, PV cf f -> PO cf f -> PO cf (S f).
Proof.
  intros cf f HV HO n s pl G L a la x m m0 mq ms0 st Ln H W V M0 Sh Hh.
  destruct (obj_loop cf (S f) m st) as [mp r] eqn:EP.
  assert (CUT : cut_to (VObj m0) (DObj (rmems cf (S f) mq st))).
  { unfold rmems. destruct (obj_grows cf (S f) mq st) as [m2 ->]. rewrite mdocs_app. exact (cut_obj _ _ _ _ M0 Sh). }
  assert (QQ : exists mqp, mqp = rmems cf (S f) mq st) by eauto. destruct QQ as [mqp QQ]. rewrite <- QQ in *. unfold rmems in QQ. cbn [g_obj] in QQ.
  assert (PUT : put G L a (VObj m0) s) by (rewrite <- V; eapply put_same; eassumption).
  assert (STOP : forall A (r0 : outcome A) k pl0, spent pl pl0 -> ~ returns r0 -> (granted pl pl0 -> mp = m /\ r = stop r0) -> (ends_as (stop r0) r) ->
    goes (fseq (told r0) k) s pl0 (opost G L a n pl m m0 mp mqp r)).
  { intros A r0 k pl0 Sp N Eq Er. apply goes_tell_end; [exact N|]. intros pl' r' Sp' E P R.
    apply o_done with (mh := m0); [exact PUT|eapply ends_trans; eassumption| | |exact CUT|tauto];
    intro Y; destruct (granted_split _ _ _ Sp Sp' Y) as [Y1 Y2]; destruct (Eq Y1) as [-> ->]; auto. }
  assert (DONE : forall x pl0, spent pl pl0 -> mp = m -> mqp = mdocs mq -> r = Ret x -> goes (fret x) s pl0 (opost G L a n pl m m0 mp mqp r)).
  { intros x0 pl0 Sp -> -> ->. apply goes_ret. apply o_done with (mh := m0); [exact PUT|apply ends_refl|auto|auto|exact CUT|].
    intros _. split; [exact (short_obj _ _ _ M0 Sh)|exact Hh]. }
  cbn [mobj_loop]. pose proof EP as EQ. cbn [obj_loop] in EQ.
  destruct (scan cf (S f) st) as [[t st1]|e| | |] eqn:Sc.
  2-5: (injection EQ as <- <-; apply STOP; [apply spent_refl|intros []|auto|apply ends_refl]).
  apply goes_told.
  destruct t; try (injection EQ as <- <-; apply DONE; [apply spent_refl|reflexivity|exact QQ|reflexivity]).
  apply goes_mget. intros pl1 kt rk' S1 MG. destruct (get_string cf (S f) st1) as [k rk] eqn:GS. destruct MG as (E1 & P1 & PX & C1). cbn [fst snd].
  destruct rk' as [st2|e| | |].
  2-5: (apply STOP; [exact S1|intros []| |]; [intro Y; destruct (P1 Y) as [<- _]; injection EQ as <- <-; auto|
        match type of E1 with ends_as ?r' _ => apply (ends_any _ _ r' rk _ E1 (fun z => z)) end;
        intros r3 E3 N3; subst r3; destruct rk as [?|?| | |]; try (injection EQ as <- <-; auto); destruct (N3 Logic.I)]).
  apply ends_ret in E1. subst rk. apply goes_told.
  destruct (scan cf (S f) st2) as [[t st3]|e| | |] eqn:Sc2.
  2-5: (injection EQ as <- <-; apply STOP; [exact S1|intros []|auto|apply ends_refl]).
  apply goes_told.
  destruct t; try (injection EQ as <- <-; apply DONE; [exact S1|reflexivity|exact QQ|reflexivity]).
  pose proof (member_ok cf f s pl1 G L a la x m0 kt st3 HV H W V (fills_sorted _ _ M0)) as XM.
  pose proof (same_run put_all cf f VNull None st3) as SR. unfold rdoc in XM.
  destruct (g_parse put_all cf f VNull None st3) as [vq rq] eqn:DQ.
  destruct (do_parse cf f VNull None st3) as [v rv] eqn:DP. cbv zeta in XM. cbn [fst snd] in SR, XM. subst rq.
  assert (YY : forall pl2, spent pl1 pl2 -> granted pl pl2 -> granted pl1 pl2 /\ kt = k).
  { intros pl2 S2 Y. destruct (granted_split _ _ _ S1 S2 Y) as [Y1 Y2]. split; [exact Y2|apply P1; exact Y1]. }
  assert (PURE : returns rv -> exists ms2, mqp = (mdocs mq ++ [(k, doc_of vq)]) ++ ms2).
  { intros Rv. destruct rv as [st4|e| | |]; try destruct Rv.
    assert (Z : mqp = mdocs (put_all k vq mq) -> exists ms2, mqp = (mdocs mq ++ [(k, doc_of vq)]) ++ ms2)
      by (intros ->; exists []; rewrite app_nil_r; unfold put_all; rewrite mdocs_app; reflexivity).
    destruct (scan cf (S f) st4) as [[t st5]|e| | |]; try exact (Z QQ). destruct t; try exact (Z QQ).
    destruct (obj_grows cf f (put_all k vq mq) st5) as [m2 E]. rewrite E, mdocs_app in QQ. unfold put_all in QQ. rewrite mdocs_app in QQ. exists (mdocs m2). exact QQ. }
  assert (OFF : forall rp, rp = match rv with Ret st => scan cf (S f) st | r => stop r end -> ~ returns rp ->
    r = stop rp /\ mp = match rv with Ret _ => obj_emplace k v m | _ => m end).
  { intros rp -> N. destruct rv as [st4|e| | |]; try (injection EQ as <- <-; auto).
    destruct (scan cf (S f) st4) as [[t st5]|e| | |]; try (injection EQ as <- <-; auto). destruct (N Logic.I). }
  eapply goes_seq; [exact XM| |].
  - intros s2 pl2 [t st5] S2 (E2 & P2 & B2).
    destruct (B2 Logic.I) as (mh & K & Pu & LK & KK & [(_ & N & _)|(Rv & -> & v' & -> & SHv & Hv & Gv)]); [destruct (N Logic.I)|].
    destruct rv as [st4|e| | |]; try destruct Rv. cbn [map app] in Pu. destruct SHv as (d' & D' & SHd).
    apply ends_ret in E2. rewrite E2 in EQ, QQ.
    pose proof (fills_snoc _ _ kt d' v' M0 D') as M01.
    assert (SH1 : short_members (ms0 ++ [(kt, d')]) (mdocs (put_all k vq mq))).
    { unfold put_all. rewrite mdocs_app. apply short_members_app; [exact Sh|]. constructor; [apply C1; exact Logic.I|exact SHd|constructor]. }
    assert (HH1 : Forall (fun kv => height (snd kv) <= n) (obj_emplace kt v' m0)) by (apply emplace_forall; [exact Hh|cbn [snd]; lia]).
    assert (ZZ : granted pl pl2 -> m0 = m -> obj_emplace kt v' m0 = obj_emplace k v m).
    { intros Y ->. destruct (YY pl2 S2 Y) as [Y1 ->]. rewrite (Gv Y1). reflexivity. }
    assert (OK : mp = obj_emplace k v m -> mqp = mdocs (put_all k vq mq) -> r = Ret (t, st5) -> goes (fret (t, st5)) s2 pl2 (opost G L a n pl m m0 mp mqp r)).
    { intros -> -> ->. apply goes_ret. apply o_done with (mh := obj_emplace kt v' m0); [exact Pu|apply ends_refl|auto|exact ZZ|exact (short_cut _ _ (short_obj _ _ _ M01 SH1))|].
      intros _. split; [exact (short_obj _ _ _ M01 SH1)|exact HH1]. }
    destruct t; try (injection EQ as <- <-; apply OK; [reflexivity|exact QQ|reflexivity]). clear OK.
    destruct Pu as (y & Vy & H2). pose proof (fwalk_put_same G a y la _ W) as W2.
    pose proof (HO n s2 pl2 _ L a la y (obj_emplace k v m) _ (put_all k vq mq) _ st5 ltac:(lia) H2 W2 Vy M01 SH1 HH1) as XO. rewrite EQ in XO. subst mqp.
    eapply goes_weak; [exact XO|]. intros s3 pl3 r3 S3 (E3 & P3 & B3).
    assert (GS3 : granted pl pl3 -> granted pl pl2 /\ granted pl2 pl3) by (apply granted_split; [eapply spent_trans; eassumption|exact S3]).
    split; [exact E3|]. split; [intro Y; apply P3, GS3; exact Y|].
    intro C. destruct (B3 C) as (mh & K & Pu3 & LK3 & KK3 & GG3 & CC3 & SS3). exists mh, K.
    split; [eapply put_put; [exact W|exact Pu3]|]. split; [exact LK3|]. split; [exact KK3|]. split; [|auto].
    intros Y El. destruct (GS3 Y) as [Y2 Y3]. apply GG3; [exact Y3|]. apply ZZ; assumption.
  - intros s2 pl2 r' S2 (E2 & P2 & B2) N. split; [|split].
    + eapply ends_any; [exact E2|exact N|]. intros r3 E3 N3. apply OFF; auto.
    + intro Y. destruct (YY pl2 S2 Y) as [Y1 _]. destruct (OFF r' (P2 Y1) N) as [-> _]. reflexivity.
    + intro C. destruct (B2 (stop_back _ _ _ N C)) as (mh & K & Pu & LK & KK & ALT). exists mh, K. split; [exact Pu|]. split; [lia|].
      split; [apply back_alloc; exact KK|]. split; [|split; [|intro R; destruct (stop_returns _ _ _ R)]].
      * intros Y El. destruct (YY pl2 S2 Y) as [Y1 Ek]. destruct (OFF r' (P2 Y1) N) as [_ ->].
        destruct ALT as [(-> & _ & Z)|(Rv & -> & v' & -> & _ & _ & Gv)].
        -- destruct (Z Y1) as [Z1 Z2]. split; [|exact Z2]. rewrite El. destruct rv; try reflexivity. destruct (Z1 Logic.I).
        -- rewrite (Gv Y1), Ek, El. destruct rv; try destruct Rv. auto.
      * destruct ALT as [(-> & _ & Z)|(Rv & -> & v' & -> & (d' & D' & SHd) & _ & Gv)]; [exact CUT|].
        destruct (PURE Rv) as (ms2 & ->). pose proof (fills_snoc _ _ kt d' v' M0 D') as M01. apply (cut_obj _ _ _ _ M01).
        apply short_members_app; [exact Sh|]. constructor; [apply C1; exact Logic.I|exact SHd|constructor].
Qed.

Theorem parser_ok : forall cf f, PV cf f /\ PA cf f /\ PO cf f.
Proof.
  intros cf f. induction f as [|f (IV & IA & IO)].
  - split; [|split].
    + intros s pl G L a la x tok st H W. cbn [do_parse mdo_parse]. exists s, pl, OutOfFuel. split; [reflexivity|]. split; [apply spent_refl|].
      split; [apply ends_refl|]. split; [auto|intros []].
    + intros n s pl G L a la x l l0 ds ds0 st _ H W V M0 Sh Hh. cbn [arr_loop marr_loop]. exists s, pl, OutOfFuel. split; [reflexivity|]. split; [apply spent_refl|].
      split; [apply ends_refl|]. split; [auto|intros []].
    + intros n s pl G L a la x l l0 ds ds0 st _ H W V M0 Sh Hh. cbn [obj_loop mobj_loop]. exists s, pl, OutOfFuel. split; [reflexivity|]. split; [apply spent_refl|].
      split; [apply ends_refl|]. split; [auto|intros []].
  - split; [|split]; [apply step_v|apply step_a|apply step_o]; assumption.
Qed.
