(** Erasing ranges, offsets, reverse iterators. *)
From Coq Require Import ZArith Lia.
From Verif Require Import Base Value ValueOps SpecGrammar SpecIter ObjFacts ValueProofs HeapPaths IterUse SpecIterUse IterUseProofs IterUseMain IterUseWalk IterUseLoops IterUseIdioms IterUseMore SpecIterUseMore.
Open Scope N_scope.

Lemma lt_irrefl : forall p, ~ spot_lt p p.
Proof. intros p H. inversion H; subst; [lia|]. eapply key_lt_irrefl. eassumption. Qed.
Lemma lt_trans : forall p q r, spot_lt p q -> spot_lt q r -> spot_lt p r.
Proof. intros p q r H1 H2. inversion H1; subst; inversion H2; subst; constructor; [lia|]. eapply key_lt_trans; eassumption. Qed.
Lemma le_lt : forall p q r, spot_le p q -> spot_lt q r -> spot_lt p r.
Proof. intros p q r [->|H] H2; [exact H2|exact (lt_trans _ _ _ H H2)]. Qed.

Lemma skip_skip : forall A a b (l : list A), skipn a (skipn b l) = skipn (b + a) l.
Proof. induction b as [|b IH]; intro l; [reflexivity|]. destruct l; cbn; [apply skipn_nil|apply IH]. Qed.
Lemma two_splits : forall A (x1 x2 y1 y2 : list A), x1 ++ x2 = y1 ++ y2 ->
  exists l, (x1 = y1 ++ l /\ y2 = l ++ x2) \/ (y1 = x1 ++ l /\ x2 = l ++ y2).
Proof.
  induction x1 as [|a x1 IH]; intros x2 y1 y2 H; cbn in H.
  - exists y1. right. split; [reflexivity|exact H].
  - destruct y1 as [|b y1]; cbn in H.
    + exists (a :: x1). left. split; [reflexivity|symmetry; exact H].
    + injection H as -> H. destruct (IH _ _ _ H) as (l & [[-> ->]|[-> ->]]); exists l; [left|right]; split; reflexivity.
Qed.

(** where an iterator of an object splits it *)
Lemma split_spot : forall u c m p, sorted m -> stands u (BObj c m) p ->
  exists m1 m2, m = m1 ++ m2 /\ u_obj u = Some (c, first m2) /\ (forall j, In j (map fst m1) -> spot_lt (At j) p) /\ (forall j, In j (map fst m2) -> spot_le p (At j)) /\
    use_obj u c m = Ret (match m2 with [] => None | e :: _ => Some (node_of e, snd (snd e)) end).
Proof.
  intros u c m p S P. destruct p as [i|k|]; [contradiction P| |].
  - destruct P as (n & x & F & U). rewrite (use_obj_at _ _ _ _ _ _ U F). apply find_split in F. destruct F as (m1 & m2 & -> & N).
    destruct (sorted_mid _ _ _ _ _ S) as (_ & L1 & L2 & _).
    exists m1, ((k, (n, x)) :: m2). split; [reflexivity|]. split; [exact U|]. split; [intros j Hj; constructor; exact (L1 _ Hj)|].
    split; [|reflexivity]. intros j [<-|Hj]; [left; reflexivity|right; constructor; exact (L2 _ Hj)].
  - exists m, []. rewrite app_nil_r. split; [reflexivity|]. split; [exact P|]. split; [intros; constructor|]. split; [contradiction|]. exact (use_obj_end _ _ _ P).
Qed.

Lemma from_key_mid : forall (m1 : nmap) e m2, ~ In (fst e) (map fst m1) -> from_key (fst e) (m1 ++ e :: m2) = Some (e :: m2).
Proof.
  induction m1 as [|a m1 IH]; intros e m2 N; cbn [app from_key]; [rewrite str_eqb_refl; reflexivity|].
  destruct (str_eqb (fst e) (fst a)) eqn:E; [apply str_eqb_iff in E; exfalso; apply N; left; symmetry; exact E|]. apply IH. intro X. apply N. right. exact X.
Qed.
Lemma from_key_none : forall k (m : nmap), ~ In k (map fst m) -> from_key k m = None.
Proof.
  induction m as [|a m IH]; intro N; cbn [from_key]; [reflexivity|].
  destruct (str_eqb k (fst a)) eqn:E; [apply str_eqb_iff in E; exfalso; apply N; left; symmetry; exact E|]. apply IH. intro X. apply N. right. exact X.
Qed.
Lemma erase_from_mid : forall o (m1 : nmap) e m2, ~ In (fst e) (map fst m1) ->
  erase_from (fst e) o (m1 ++ e :: m2) = match from_node o (e :: m2) with Some r => Some (m1 ++ r) | None => None end.
Proof.
  induction m1 as [|a m1 IH]; intros e m2 N; cbn [app erase_from].
  - rewrite str_eqb_refl. destruct (from_node o (e :: m2)); reflexivity.
  - destruct (str_eqb (fst e) (fst a)) eqn:E; [apply str_eqb_iff in E; exfalso; apply N; left; symmetry; exact E|].
    rewrite IH by (intro X; apply N; right; exact X). destruct (from_node o (e :: m2)); reflexivity.
Qed.

Lemma sorted_outer : forall (m1 m2 m3 : nmap), sorted (m1 ++ m2 ++ m3) -> sorted (m1 ++ m3).
Proof. induction m2 as [|[k q] m2 IH]; intros m3 S; [exact S|]. apply IH. exact (proj2 (proj2 (proj2 (sorted_mid _ _ _ _ _ S)))). Qed.
Lemma fst_not_before : forall (m1 : nmap) e m2, sorted (m1 ++ e :: m2) -> ~ In (fst e) (map fst m1).
Proof. intros m1 [k q] m2 S. exact (not_before _ _ _ _ _ S). Qed.

Lemma erase_nodes_parts : forall (m1 m2 m3 : nmap), sorted (m1 ++ m2 ++ m3) -> erase_nodes (first (m2 ++ m3)) (first m3) (m1 ++ m2 ++ m3) = Some (m1 ++ m3).
Proof.
  intros m1 m2 m3 S. destruct m2 as [|e m2].
  - cbn [app] in *. destruct m3 as [|e m3]; cbn [first erase_nodes]; [reflexivity|]. cbn [node_of fst].
    rewrite erase_from_mid by exact (fst_not_before _ _ _ S). cbn [from_node node_of fst from_key]. rewrite str_eqb_refl. reflexivity.
  - change ((e :: m2) ++ m3) with (e :: (m2 ++ m3)) in *. cbn [first erase_nodes node_of fst].
    rewrite erase_from_mid by exact (fst_not_before _ _ _ S).
    destruct m3 as [|e3 m3]; cbn [first from_node]; [reflexivity|]. cbn [node_of fst].
    change (e :: m2 ++ e3 :: m3) with ((e :: m2) ++ e3 :: m3). rewrite from_key_mid; [reflexivity|].
    change (e :: m2 ++ e3 :: m3) with ((e :: m2) ++ e3 :: m3) in S. rewrite app_assoc in S. apply fst_not_before in S. intro X. apply S. rewrite map_app. apply in_or_app. right. exact X.
Qed.
Lemma erase_nodes_back : forall (m1 m2 m3 : nmap), m2 <> [] -> sorted (m1 ++ m2 ++ m3) -> erase_nodes (first m3) (first (m2 ++ m3)) (m1 ++ m2 ++ m3) = None.
Proof.
  intros m1 [|e m2] m3 N S; [exfalso; apply N; reflexivity|]. cbn [app first]. destruct m3 as [|e3 m3]; cbn [first erase_nodes]; [reflexivity|]. cbn [node_of fst].
  change (m1 ++ e :: m2 ++ e3 :: m3) with (m1 ++ (e :: m2) ++ e3 :: m3). assert (S' := S). rewrite app_assoc in S'. rewrite app_assoc.
  rewrite erase_from_mid by exact (fst_not_before _ _ _ S'). cbn [from_node node_of fst]. rewrite from_key_none; [reflexivity|].
  intro X. destruct e as [k q]. cbn [fst] in X. change ((k, q) :: m2) with ([(k, q)] ++ m2) in S. apply (sorted_mid _ m1 k q (m2 ++ e3 :: m3)) in S.
  destruct S as (_ & _ & L & _). apply (key_lt_irrefl k), L. rewrite map_app. apply in_or_app. right. exact X.
Qed.

Lemma at_first : forall c (m m1 m2 : nmap) u p, stands u (BObj c m) p -> u_obj u = Some (c, first m2) -> (forall i, p <> Pos i) -> forall w q, stands w (BObj c m) q -> u_obj w = Some (c, first m2) -> p = q.
Proof.
  intros c m m1 m2 u p P U N w q Q W. destruct p as [i|k|]; [exfalso; exact (N i eq_refl)| |]; destruct q as [j|k'|]; try contradiction Q; try reflexivity.
  - destruct P as (? & ? & _ & P), Q as (? & ? & _ & Q). congruence.
  - destruct P as (? & ? & _ & P). cbn in Q. congruence.
  - destruct Q as (? & ? & _ & Q). cbn in P. congruence.
Qed.

Lemma in_elems_obj : forall k x (m : nmap), In (Some k, x) (elems_obj m) -> In k (map fst m).
Proof. intros k x m H. unfold elems_obj in H. apply in_map_iff in H. destruct H as (e & E & H). injection E as <- _. apply in_map. exact H. Qed.
Lemma in_elems_arr : forall k x l, ~ In (Some k, x) (elems_arr l).
Proof. intros k x l H. unfold elems_arr in H. apply in_map_iff in H. destruct H as (e & E & _). discriminate. Qed.

Theorem range_erased : forall u w st p q, ok st -> stands u (i_body st) p -> stands w (i_body st) q ->
  (spot_le p q -> exists st' u' es1 es2 es3, u_erase_range u w st = (st', Ret u') /\ ok st' /\
     type_of (view (i_body st')) = type_of (view (i_body st)) /\ parts p q es1 es2 es3 /\
     elements (view (i_body st)) (es1 ++ es2 ++ es3) /\ elements (view (i_body st')) (es1 ++ es3) /\
     stands u' (i_body st') (match p with Pos i => Pos i | _ => q end) /\
     (forall z s, (forall i, s <> Pos i) -> stands z (i_body st) s -> spot_lt s p \/ spot_le q s -> stands z (i_body st') s) /\
     (forall z s, known st z -> stands z (i_body st) s -> (exists i, s = Pos i) \/ spot_le p s /\ spot_lt s q -> astray z (i_body st'))) /\
  (~ spot_le p q -> snd (u_erase_range u w st) = UB).
Proof.
  intros u w [b n] p q K P Q. unfold ok in K. cbn [i_body i_next] in *. unfold u_erase_range. cbn [i_body i_next].
  destruct b as [v|g l|c m]; [destruct p; contradiction P| |].
  - destruct p as [i|k|]; try contradiction P. destruct q as [j|k|]; try contradiction Q. destruct P as [U Li], Q as [W Lj].
    rewrite (use_arr_at _ _ _ _ U Li), (use_arr_at _ _ _ _ W Lj). split; intro H.
    + assert (I : (i <= j)%nat) by (destruct H as [H|H]; [injection H as ->; lia|inversion H; lia]).
      apply Nat.leb_le in I as I'. rewrite I'. eexists; eexists. exists (elems_arr (firstn i l)), (elems_arr (firstn (j - i) (skipn i l))), (elems_arr (skipn j l)).
      split; [reflexivity|]. cbn [i_body i_next]. split; [unfold ok; cbn; lia|]. split; [reflexivity|]. split; [|split; [|split; [|split; [|split]]]].
      * split; [|split; [intros kk x Hx; exfalso; exact (in_elems_arr _ _ _ Hx)|split; intros kk x Hx; exfalso; exact (in_elems_arr _ _ _ Hx)]]. intros i0 E. injection E as <-. unfold elems_arr. rewrite !map_length, !firstn_length, skipn_length.
        split; [f_equal; lia|lia].
      * cbn [view]. replace (elems_arr (firstn i l) ++ elems_arr (firstn (j - i) (skipn i l)) ++ elems_arr (skipn j l)) with (elems_arr l); [apply elements_arr|].
        unfold elems_arr. rewrite <- !map_app. f_equal. rewrite <- (firstn_skipn i l) at 1. f_equal. rewrite <- (firstn_skipn (j - i) (skipn i l)) at 1. f_equal.
        rewrite skip_skip. f_equal. lia.
      * cbn [view]. unfold elems_arr. rewrite <- map_app. apply elements_arr.
      * split; [reflexivity|]. rewrite app_length, firstn_length. lia.
      * intros z [i0|k|] N Z _; [exfalso; exact (N i0 eq_refl)|contradiction|contradiction].
      * intros z s [Ka _] Z _ [i0|k|]; cbn; [|intros []|intros []]. intros [X _]. apply Ka in X. cbn in X. lia.
    + destruct (Nat.leb_spec i j) as [L|L]; [|reflexivity]. exfalso. apply H. destruct (Nat.eq_dec i j) as [->|]; [left; reflexivity|right; constructor; lia].
  - destruct K as (Lc & S & F).
    assert (Np : forall i, p <> Pos i) by (intros i ->; contradiction P). assert (Nq : forall i, q <> Pos i) by (intros i ->; contradiction Q).
    destruct (split_spot u c m p S P) as (m1 & m2 & E1 & U & A1 & A2 & U'). destruct (split_spot w c m q S Q) as (n1 & n2 & E2 & W & B1 & B2 & W').
    rewrite U', W'. replace (node_at (match m2 with [] => None | e :: _ => Some (node_of e, snd (snd e)) end)) with (first m2) by (destruct m2; reflexivity).
    replace (node_at (match n2 with [] => None | e :: _ => Some (node_of e, snd (snd e)) end)) with (first n2) by (destruct n2; reflexivity). clear U' W'.
    assert (E : m1 ++ m2 = n1 ++ n2) by congruence. apply two_splits in E. destruct E as (l & [[X1 X2]|[X1 X2]]).
    + (* w in front of u, or at the same *)
      destruct l as [|e l].
      * rewrite app_nil_r in X1. cbn in X2. subst n1 n2. assert (p = q) by exact (at_first c m m1 m2 u p P U Np w q Q W). subst q.
        split; [intros _|intro H; exfalso; apply H; left; reflexivity].
        assert (S' := S). rewrite E1 in S'. assert (R := erase_nodes_parts m1 [] m2 S'). cbn [app] in R. rewrite <- E1 in R. rewrite R.
        eexists; eexists. exists (elems_obj m1), [], (elems_obj m2). split; [reflexivity|]. cbn [i_body i_next app].
        split; [split; [exact Lc|split; [exact S|exact F]]|]. split; [reflexivity|].
        split; [|split; [|split; [|split; [|split]]]].
        -- split; [intros i Ei; exfalso; exact (Np i Ei)|]. split; [intros k x Hx; apply A1; exact (in_elems_obj _ _ _ Hx)|]. split; [contradiction|].
           intros k x Hx. apply A2. exact (in_elems_obj _ _ _ Hx).
        -- unfold elems_obj. rewrite <- map_app, <- E1. apply elements_obj.
        -- unfold elems_obj. rewrite <- map_app, <- E1. apply (elements_obj c).
        -- destruct p as [i|k|]; [exfalso; exact (Np i eq_refl)| |].
           ++ destruct P as (i & x & Fk & Uk). exists i, x. split; [exact Fk|]. cbn. congruence.
           ++ cbn in P |- *. congruence.
        -- intros z s _ Z _. exact Z.
        -- intros z s _ Z [[i ->]|[H1 H2]]; [contradiction Z|]. exfalso. exact (lt_irrefl _ (le_lt _ _ _ H1 H2)).
      * split; intro H.
        -- exfalso. assert (Y1 : spot_lt (At (fst e)) p) by (apply A1; rewrite X1, map_app; apply in_or_app; right; left; reflexivity).
           assert (Y2 : spot_le q (At (fst e))) by (apply B2; rewrite X2; left; reflexivity).
           apply (lt_irrefl q). apply (le_lt _ _ _ Y2). destruct H as [->|H]; [exact Y1|exact (lt_trans _ _ _ Y1 H)].
        -- assert (M : m = n1 ++ (e :: l) ++ m2) by (rewrite E2, X2; reflexivity). rewrite X2. rewrite M in S |- *. rewrite erase_nodes_back; [reflexivity|discriminate|exact S].
    + (* u in front of w, or at the same *)
      assert (M : m = m1 ++ l ++ n2) by (rewrite E1, X2; reflexivity).
      assert (Le : spot_le p q).
      { destruct l as [|e l].
        - cbn in X2. subst n2. left. exact (at_first c m m1 m2 u p P U Np w q Q W).
        - right. apply (le_lt _ (At (fst e))); [apply A2; rewrite X2; left; reflexivity|apply B1; rewrite X1, map_app; apply in_or_app; right; left; reflexivity]. }
      split; [intros _|intro H; exfalso; exact (H Le)].
      assert (S' := S). rewrite M in S'. assert (R := erase_nodes_parts m1 l n2 S'). rewrite <- X2, <- E1 in R. rewrite R. clear R.
      assert (So := sorted_outer _ _ _ S').
      eexists; eexists. exists (elems_obj m1), (elems_obj l), (elems_obj n2). split; [reflexivity|]. cbn [i_body i_next].
      split; [split; [exact Lc|split; [exact So|]]|].
      { cbn [i_next]. rewrite M in F. rewrite Forall_forall in *. intros e He. apply F. apply in_app_or in He. apply in_or_app. destruct He; [left; assumption|right; apply in_or_app; right; assumption]. }
      split; [reflexivity|]. split; [|split; [|split; [|split; [|split]]]].
      * split; [intros i Ei; exfalso; exact (Np i Ei)|]. split; [intros k x Hx; apply A1; exact (in_elems_obj _ _ _ Hx)|]. split.
        -- intros k x Hx. apply in_elems_obj in Hx. split; [apply A2; rewrite X2, map_app; apply in_or_app; left; exact Hx|apply B1; rewrite X1, map_app; apply in_or_app; right; exact Hx].
        -- intros k x Hx. apply B2. exact (in_elems_obj _ _ _ Hx).
      * unfold elems_obj. rewrite <- !map_app, <- M. apply elements_obj.
      * unfold elems_obj. rewrite <- map_app. apply (elements_obj c).
      * assert (G : stands (with_obj (u_end (BObj c m)) (c, first n2)) (BObj c (m1 ++ n2)) q).
        { destruct q as [i|k|]; [exfalso; exact (Nq i eq_refl)| |].
          - destruct Q as (i & x & Fk & Wk). rewrite W in Wk. destruct n2 as [|[k0 [i0 x0]] n2]; [discriminate|]. cbn in Wk. injection Wk as -> ->.
            exists i, x0. split; [apply find_mid; exact (not_before _ _ _ _ _ So)|reflexivity].
          - cbn in Q |- *. congruence. }
        destruct p as [i|k|]; [exfalso; exact (Np i eq_refl)|exact G|exact G].
      * intros z s _ Z H. destruct s as [i|k|]; [contradiction Z| |exact Z]. destruct Z as (i & x & Fk & Zk). exists i, x. split; [|exact Zk].
        apply find_in' in Fk. apply find_in; [exact So|]. rewrite M in Fk. apply in_app_or in Fk. apply in_or_app. destruct Fk as [Fk|Fk]; [left; exact Fk|].
        apply in_app_or in Fk. destruct Fk as [Fk|Fk]; [exfalso|right; exact Fk]. apply (in_map fst) in Fk. cbn [fst] in Fk.
        assert (Y1 : spot_le p (At k)) by (apply A2; rewrite X2, map_app; apply in_or_app; left; exact Fk).
        assert (Y2 : spot_lt (At k) q) by (apply B1; rewrite X1, map_app; apply in_or_app; right; exact Fk).
        destruct H as [H|H]; [exact (lt_irrefl _ (le_lt _ _ _ Y1 H))|exact (lt_irrefl _ (le_lt _ _ _ H Y2))].
      * intros z s _ Z [[i ->]|[H1 H2]]; [contradiction Z|]. destruct s as [i|k|]; [contradiction Z| |inversion H2].
        destruct Z as (i & x & Fk & Zk). intros [j|k'|] T; [contradiction T| |cbn in T; congruence].
        destruct T as (i' & x' & Fk' & Zk'). assert (k' = k) by congruence. subst k'. apply find_in' in Fk'. apply (in_map fst) in Fk'. cbn [fst] in Fk'.
        rewrite map_app in Fk'. apply in_app_or in Fk'. destruct Fk' as [X|X].
        -- exact (lt_irrefl _ (le_lt _ _ _ H1 (A1 _ X))).
        -- exact (lt_irrefl _ (le_lt _ _ _ (B2 _ X) H2)).
Qed.

(** ** Offsets and order *)
Theorem offsets : forall u w st p q, ok st -> stands u (i_body st) p -> stands w (i_body st) q ->
  match p, q with
  | Pos i, Pos j =>
      (forall d, (0 <= Z.of_nat i + d <= Z.of_nat (N.to_nat (v_size (view (i_body st)))))%Z ->
         exists u', u_add d u (i_body st) = Ret u' /\ stands u' (i_body st) (Pos (Z.to_nat (Z.of_nat i + d)))) /\
      (forall d, ~ (0 <= Z.of_nat i + d <= Z.of_nat (N.to_nat (v_size (view (i_body st)))))%Z -> u_add d u (i_body st) = UB) /\
      u_diff u w (i_body st) = Ret (Z.of_nat i - Z.of_nat j)%Z /\
      exists r, u_lt u w (i_body st) = Ret r /\ (r = true <-> spot_lt p q)
  | _, _ =>
      (forall d, u_add d u (i_body st) = Throw (EIter "cannot compute offsets with object type")) /\
      u_diff u w (i_body st) = Throw (EIter "cannot compute iterator offsets with non-array type") /\
      u_lt u w (i_body st) = Throw (EIter "cannot compare iterators with object type")
  end.
Proof.
  intros u w [b n] p q K P Q. cbn [i_body]. destruct b as [v|g l|c m]; [destruct p; contradiction P| |].
  - destruct p as [i|k|]; try contradiction P. destruct q as [j|k|]; try contradiction Q. destruct P as [U Li], Q as [W Lj].
    cbn [u_add u_diff u_lt view v_size]. rewrite (use_arr_at _ _ _ _ U Li), (use_arr_at _ _ _ _ W Lj). cbn [bind]. unfold len. rewrite Nnat.Nat2N.id.
    split; [|split; [|split; [reflexivity|]]].
    + intros d H. replace ((0 <=? Z.of_nat i + d) && (Z.of_nat i + d <=? Z.of_nat (length l)))%Z with true by lia.
      eexists. split; [reflexivity|]. split; [reflexivity|lia].
    + intros d H. replace ((0 <=? Z.of_nat i + d) && (Z.of_nat i + d <=? Z.of_nat (length l)))%Z with false by lia. reflexivity.
    + eexists. split; [reflexivity|]. rewrite Nat.ltb_lt. split; intro H; [constructor; exact H|inversion H; assumption].
  - destruct p as [i|k|]; try contradiction P; destruct q as [j|k'|]; try contradiction Q; repeat split.
Qed.
Theorem offsets_others : forall u w st, ~ container (view (i_body st)) ->
  (forall d, exists u', u_add d u (i_body st) = Ret u' /\ u_arr u' = u_arr u /\ u_obj u' = u_obj u /\
     u_prim u' = (match view (i_body st) with VNull => u_prim u | _ => u_prim u + d end)%Z) /\
  u_diff u w (i_body st) = Throw (EIter "cannot compute iterator offsets with non-array type") /\
  u_lt u w (i_body st) = Ret (Z.ltb (u_prim u) (u_prim w)) /\
  u_erase_range u w st = (st, Throw (EIter "cannot use erase() with non-object & non-array value")).
Proof.
  intros u w [b n] C. cbn [i_body] in *. destruct b as [v|g l|c m]; [|exfalso; apply C; left; reflexivity|exfalso; apply C; right; reflexivity].
  split; [|repeat split]. intro d. destruct v; eexists; repeat split.
Qed.

(** lost iterators *)
Theorem astray_more : forall u w b n, ok (mkI b n) -> container (view b) -> astray u b ->
  snd (u_erase_range u w (mkI b n)) = UB /\ snd (u_erase_range w u (mkI b n)) = UB /\ r_entry u b = UB /\ r_incr u b = UB /\
  (type_of (view b) = TArray -> (forall d, u_add d u b = UB) /\ u_diff u w b = UB /\ u_diff w u b = UB /\ u_lt u w b = UB /\ u_lt w u b = UB).
Proof.
  intros u w b n K C Q. destruct (astray_ub u b n K C Q) as (_ & _ & D & _). unfold r_entry, r_incr. rewrite D. unfold ok in K.
  destruct b as [v|g l|c m]; [contradiction| |]; unfold u_erase_range; cbn [i_body i_next] in *.
  - destruct (use_arr_cases u g (length l)) as [(i & E & U & L)|[E _]]; [exfalso; exact (Q (Pos i) (conj U L))|].
    cbn [u_add u_diff u_lt]. rewrite E. destruct (use_arr_cases w g (length l)) as [(j & -> & _)|[-> _]]; repeat split.
  - destruct (use_obj_cases u c m) as [(d & x & E & U & Fd)|[[E U]|[E _]]].
    + exfalso. destruct d as [k i]. apply (Q (At k)). exists i, x. split; assumption.
    + exfalso. exact (Q End U).
    + rewrite E. destruct (use_obj_cases w c m) as [(d & x & -> & _)|[[-> _]|[-> _]]]; repeat split; discriminate.
Qed.

(** ** Reverse iterators: what stands at p gives the element in front of p *)
Theorem reverse_reads : forall r st p, ok st -> stands r (i_body st) p ->
  (first_spot (i_body st) p -> r_entry r (i_body st) = UB /\ r_incr r (i_body st) = UB) /\
  (~ first_spot (i_body st) p -> exists e r' p', r_entry r (i_body st) = Ret e /\ r_incr r (i_body st) = Ret r' /\
     stands r' (i_body st) p' /\ found (view (i_body st)) p' e /\
     match p with
     | End => forall j, In j (members (i_body st)) -> ~ (exists k, p' = At k /\ key_lt k j)
     | _ => next_spot (i_body st) p' p
     end).
Proof.
  intros r st p K P. destruct (walks_back r st p K P) as [W1 W2]. unfold r_entry, r_incr. split; intro H.
  - rewrite (W1 H). split; reflexivity.
  - destruct (W2 H) as (r' & Er & p' & P' & Ne & L). rewrite Er. cbn [bind]. destruct (reads r' st p' K P') as [R _]. destruct (R Ne) as (e & Re & Fe).
    exists e, r', p'. rewrite Re. repeat split; assumption.
Qed.
