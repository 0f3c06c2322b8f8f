(** With int64_t and double the parser of NumType.v is that of Parser.v. *)
From Coq Require Import Lia ZifyBool ZifyNat ZifyN.
From Verif Require Import Base Stream Encoding Value Token Message Parser ObjFacts NumType SpecNumType.
Open Scope N_scope.

(** the same position with other numbers *)
Definition re (p q : pst) : pst := mkP (p_is q) (p_cur q) (p_neg p) (p_int p) (p_flt p).

Section Re.
Variables (cf : pcfg) (p : pst).
Lemma re_next : forall q, read_next cf (re p q) = let* q := read_next cf q in Ret (re p q).
Proof.
  intro q. unfold read_next. cbn [re p_is p_cur p_neg p_int p_flt].
  destruct (decode (src_enc cf) (src_ck cf) (p_is q) (p_cur q)) as [[ok c] i]. destruct ok; [|reflexivity]. destruct (is_good i); reflexivity.
Qed.
Ltac step := rewrite re_next; match goal with |- context [let* _ := read_next cf ?q in _] => destruct (read_next cf q); cbn [bind]; try reflexivity end.

Lemma re_ws : forall n q, skip_ws cf n (re p q) = let* q := skip_ws cf n q in Ret (re p q).
Proof.
  induction n as [|n IH]; intro q; [reflexivity|]. cbn [skip_ws]. change (p_cur (re p q)) with (p_cur q).
  destruct (is_space (p_cur q)); [|reflexivity]. step. apply IH.
Qed.
Lemma re_line : forall n q, line_comment cf n (re p q) = let* r := line_comment cf n q in Ret (fst r, re p (snd r)).
Proof.
  induction n as [|n IH]; intro q; [reflexivity|]. cbn [line_comment]. step. cbn [re p_is p_cur].
  destruct (_ || _); [reflexivity|]. destruct (is_eof _); [reflexivity|]. apply IH.
Qed.
Lemma re_block : forall n q, block_comment cf n (re p q) = let* q := block_comment cf n q in Ret (re p q).
Proof.
  induction n as [|n IH]; intro q; [reflexivity|]. cbn [block_comment]. step. cbn [re p_is p_cur].
  destruct (_ =? _).
  - step. cbn [re p_is p_cur]. destruct (_ =? _); [apply re_next|]. destruct (is_eof _); [reflexivity|]. apply IH.
  - destruct (is_eof _); [reflexivity|]. apply IH.
Qed.
Lemma re_skip : forall n q, skip_spaces cf n (re p q) = let* q := skip_spaces cf n q in Ret (re p q).
Proof.
  induction n as [|n IH]; intro q; [reflexivity|]. cbn [skip_spaces]. rewrite re_ws. destruct (skip_ws cf (S n) q); cbn [bind]; try reflexivity.
  cbn [re p_cur]. destruct (_ =? _); [|reflexivity]. fold (re p). step. cbn [re p_cur]. destruct (_ =? _).
  - rewrite re_line. match goal with |- context [line_comment cf ?n ?q] => destruct (line_comment cf n q) as [[b q']| | | |]; cbn [bind fst snd]; try reflexivity end.
    destruct b; [apply IH|reflexivity].
  - destruct (_ =? _); [|reflexivity]. rewrite re_block.
    match goal with |- context [block_comment cf ?n ?q] => destruct (block_comment cf n q); cbn [bind]; try reflexivity end. apply IH.
Qed.
Lemma re_lit : forall w k tx q, scan_literal cf w tx k (re p q) = let* r := scan_literal cf w tx k q in Ret (fst r, re p (snd r)).
Proof.
  intros w k. induction tx as [|c tx IH]; intro q; [reflexivity|]. cbn [scan_literal]. cbn [re p_cur]. destruct (_ =? _); [|reflexivity].
  fold (re p q). step. apply IH.
Qed.
Lemma re_expd : forall n ex q, exp_digits cf n ex (re p q) = let* r := exp_digits cf n ex q in Ret (fst r, re p (snd r)).
Proof.
  induction n as [|n IH]; intros ex q; [reflexivity|]. cbn [exp_digits]. step. cbn [re p_cur]. destruct (is_digit _ _); [|reflexivity]. apply IH.
Qed.
Lemma re_hex : forall fs c q, read_hex cf fs c (re p q) = let* r := read_hex cf fs c q in Ret (fst r, re p (snd r)).
Proof.
  induction fs as [|f fs IH]; intros c q; [reflexivity|]. cbn [read_hex]. step. cbn [re p_cur]. destruct (hex_val _); [|reflexivity]. apply IH.
Qed.
Lemma re_u : forall q, read_u cf (re p q) = let* r := read_u cf q in Ret (fst r, re p (snd r)).
Proof.
  intro q. unfold read_u, read_escaped. rewrite re_hex. destruct (read_hex cf [12; 8; 4; 0] 0 q) as [[c q1]| | | |]; cbn [bind fst snd]; try reflexivity.
  destruct (is_lead_surrogate c); [|reflexivity]. step. cbn [re p_cur]. destruct (negb _); [reflexivity|]. fold (re p). step. cbn [re p_cur].
  destruct (negb _); [reflexivity|]. fold (re p). rewrite re_hex.
  match goal with |- context [read_hex cf ?n ?c ?q] => destruct (read_hex cf n c q) as [[d q2]| | | |]; cbn [bind fst snd]; try reflexivity end.
  destruct (negb _); reflexivity.
Qed.
Lemma re_string : forall n o q, scan_string cf n o (re p q) = (fst (scan_string cf n o q), let* q := snd (scan_string cf n o q) in Ret (re p q)).
Proof.
  induction n as [|n IH]; intros o q; [reflexivity|]. cbn [scan_string]. rewrite re_next. destruct (read_next cf q) as [q1| | | |]; cbn [bind]; try reflexivity.
  change (p_cur (re p q1)) with (p_cur q1). change (p_is (re p q1)) with (p_is q1). destruct (is_eof (p_is q1)); [reflexivity|].
  destruct (p_cur q1 =? c_quote); [rewrite re_next; reflexivity|]. destruct (p_cur q1 <=? 31); [reflexivity|]. destruct (p_cur q1 =? c_bslash).
  - rewrite re_next. destruct (read_next cf q1) as [q2| | | |]; cbn [bind]; try reflexivity. change (p_cur (re p q2)) with (p_cur q2).
    destruct (simple_escape (p_cur q2)); [apply IH|]. destruct (p_cur q2 =? c_u); [|reflexivity]. rewrite re_u.
    destruct (read_u cf q2) as [[c q3]| | | |]; cbn [bind fst snd]; try reflexivity. destruct (os_fail _); [reflexivity|apply IH].
  - destruct (os_fail _); [reflexivity|apply IH].
Qed.
Lemma re_get : forall n q, get_string cf n (re p q) = (fst (get_string cf n q), let* q := snd (get_string cf n q) in Ret (re p q)).
Proof.
  intros n q. unfold get_string. rewrite re_string. destruct (scan_string cf n (mkOs [] false) q) as [o r]. reflexivity.
Qed.
End Re.
Lemma re_re : forall p q r, re p (re q r) = re p r.
Proof. reflexivity. Qed.

(** the members of the two parsers *)
Notation T := (num_of t_int64).
Definition up (s : nst T) : pst := mkP (p_is (n_p s)) (p_cur (n_p s)) (n_neg s) (n_int s) (n_flt s).
Lemma up_re : forall s, up s = re (up s) (n_p s).
Proof. reflexivity. Qed.
Lemma up_with : forall s q, up (with_p T s q) = re (up s) q.
Proof. reflexivity. Qed.

(** int64_t arithmetic *)
Lemma arith64 : forall z, t_arith t_int64 z = chk64 z.
Proof. intro z. unfold t_arith, chk64. change (t_signed t_int64 && (32 <=? t_bits t_int64)) with true. cbv iota. reflexivity. Qed.
Lemma wrap64 : forall n, t_wrap t_int64 (Z.of_N (u32_sub n 48)) = Z.of_N (u32_sub n 48).
Proof.
  intro n. unfold t_wrap. change (t_mod t_int64) with 18446744073709551616%Z. change (t_max t_int64) with 9223372036854775807%Z.
  assert (H : u32_sub n 48 < 4294967296) by (unfold u32_sub, u32; apply N.mod_lt; discriminate).
  rewrite Z.mod_small by lia. destruct (Z.leb_spec (Z.of_N (u32_sub n 48)) 9223372036854775807); [reflexivity|lia].
Qed.

Lemma step64 : forall i c, i_step T i (u32_sub c 48) = let* z := chk64 (i * 10)%Z in chk64 (z + Z.of_N (u32_sub c 48))%Z.
Proof.
  intros i c. change (i_step T) with (t_step t_int64). unfold t_step. rewrite (arith64 (i * 10)). destruct (chk64 (i * 10)); cbn [bind]; try reflexivity.
  rewrite arith64, wrap64. reflexivity.
Qed.

Section Up.
Variable cf : pcfg.
Definition upr {A} (r : outcome (A * nst T)) : outcome (A * pst) := let* r := r in Ret (fst r, up (snd r)).

Lemma up_next : forall s, read_next cf (up s) = let* s := n_next T cf s in Ret (up s).
Proof. intro s. rewrite up_re, re_next. unfold n_next. destruct (read_next cf (n_p s)); reflexivity. Qed.
Ltac step := rewrite up_next; match goal with |- context [let* _ := n_next T cf ?s in _] => destruct (n_next T cf s) as [x| | | |]; cbn [bind upr]; try reflexivity end.

Lemma up_exponent : forall n s, scan_exponent cf n (up s) = upr (n_exponent T cf n s).
Proof.
  intros n s. unfold scan_exponent, n_exponent. step. unfold n_cur. change (p_cur (up x)) with (p_cur (n_p x)).
  destruct (negb _); [reflexivity|].
  assert (X : forall s', (let* r := exp_digits cf n (u32_sub (p_cur (n_p s')) 48) (up s') in
      let '(ex, st) := r in Ret (Tfloat, set_flt st (fmul (p_flt st) (power_of (if p_cur (n_p x) =? c_minus then f64_tenth else f64_of_Z 10) ex)))) =
    upr (let* r := exp_digits cf n (u32_sub (p_cur (n_p s')) 48) (n_p s') in
      let '(ex, p) := r in
      Ret (Tfloat, with_flt T (with_p T s' p) (f_mul T (n_flt s') (n_power T (if p_cur (n_p x) =? c_minus then f_tenth T else f_ten T) ex))))).
  { intro s'. rewrite (up_re s'), re_expd. destruct (exp_digits cf n (u32_sub (p_cur (n_p s')) 48) (n_p s')) as [[ex q]| | | |]; cbn [bind fst snd upr]; reflexivity. }
  destruct (_ || _); [|apply X]. rewrite up_next. destruct (n_next T cf x) as [s'| | | |]; cbn [bind upr]; try reflexivity. apply X.
Qed.
Lemma up_frac : forall n f s, frac_digits cf n f (up s) = upr (n_frac T cf n f s).
Proof.
  induction n as [|n IH]; intros f s; [reflexivity|]. cbn [frac_digits n_frac]. step. unfold n_cur. change (p_cur (up x)) with (p_cur (n_p x)).
  destruct (_ || _); [apply up_exponent|]. destruct (is_digit _ _); [|reflexivity]. rewrite <- IH. reflexivity.
Qed.
Lemma up_float : forall n s, scan_float cf n (up s) = upr (n_float T cf n s).
Proof.
  intros n s. unfold scan_float, n_float. change (set_flt (up s) (f64_of_Z (p_int (up s)))) with (up (with_flt T s (f_of T (n_int s)))).
  set (s0 := with_flt T s (f_of T (n_int s))). unfold n_cur. change (p_cur (up s0)) with (p_cur (n_p s0)). destruct (_ || _); [apply up_exponent|].
  step. change (p_cur (up x)) with (p_cur (n_p x)). destruct (negb _); [reflexivity|]. rewrite <- up_frac. reflexivity.
Qed.
Lemma up_digits : forall n s, int_digits cf n (up s) = upr (n_digits T cf n s).
Proof.
  induction n as [|n IH]; intro s; [reflexivity|]. cbn [int_digits n_digits]. step. unfold n_cur. change (p_cur (up x)) with (p_cur (n_p x)).
  destruct (_ || _ || _); [apply up_float|]. destruct (is_digit _ _); [|reflexivity].
  rewrite step64. change (p_int (up x)) with (n_int x). destruct (chk64 (n_int x * 10)); cbn [bind upr]; try reflexivity.
  destruct (chk64 _); cbn [bind upr]; try reflexivity. rewrite <- IH. reflexivity.
Qed.
Lemma up_integer : forall n s, scan_integer cf n (up s) = upr (n_integer T cf n s).
Proof.
  intros n s. unfold scan_integer, n_integer, n_cur. change (p_cur (up s)) with (p_cur (n_p s)). destruct (_ && _); [reflexivity|].
  rewrite <- up_digits. change (i_of T) with (fun d => t_wrap t_int64 (Z.of_N d)). cbv beta. rewrite wrap64. reflexivity.
Qed.
Lemma up_number : forall n s, scan_number cf n (up s) = upr (n_number T cf n s).
Proof.
  intros n s. unfold scan_number, n_number. change (set_int (set_neg (up s) false) 0%Z) with (up (with_int T (with_neg T s false) (i_of T 0))).
  set (s0 := with_int T (with_neg T s false) (i_of T 0)). unfold n_cur. change (p_cur (up s0)) with (p_cur (n_p s0)).
  assert (X : forall s1, (if p_cur (up s1) =? c_0 then
    let* st := read_next cf (up s1) in
    if p_cur st =? c_dot then scan_float cf n st
    else if (p_cur st =? c_e) || (p_cur st =? c_E) then fail "invalid exponent"
    else Ret (Tint, st)
  else scan_integer cf n (up s1)) = upr (if p_cur (n_p s1) =? c_0 then
    let* s := n_next T cf s1 in
    if p_cur (n_p s) =? c_dot then n_float T cf n s
    else if (p_cur (n_p s) =? c_e) || (p_cur (n_p s) =? c_E) then fail "invalid exponent"
    else Ret (Tint, s)
  else n_integer T cf n s1)).
  { intro s1. change (p_cur (up s1)) with (p_cur (n_p s1)). destruct (_ =? _); [|apply up_integer]. step. change (p_cur (up x)) with (p_cur (n_p x)).
    destruct (_ =? _); [apply up_float|]. destruct (_ || _); reflexivity. }
  destruct (_ || _); [|apply X]. change (set_neg (up s0) (p_cur (n_p s0) =? c_minus)) with (up (with_neg T s0 (p_cur (n_p s0) =? c_minus))).
  step. apply X.
Qed.
Lemma up_scan : forall n s, scan cf n (up s) = upr (n_scan T cf n s).
Proof.
  intros n s. unfold scan, n_scan. rewrite (up_re s), re_skip. destruct (skip_spaces cf n (n_p s)) as [q| | | |]; cbn [bind upr]; try reflexivity.
  change (p_is (re (up s) q)) with (p_is q). change (p_cur (re (up s) q)) with (p_cur q). destruct (is_eof (p_is q)); [reflexivity|].
  destruct (punct (p_cur q)); [rewrite re_next; destruct (read_next cf q); reflexivity|].
  destruct (p_cur q =? c_t); [rewrite re_lit; destruct (scan_literal _ _ _ _ _); reflexivity|].
  destruct (p_cur q =? c_f); [rewrite re_lit; destruct (scan_literal _ _ _ _ _); reflexivity|].
  destruct (p_cur q =? c_n); [rewrite re_lit; destruct (scan_literal _ _ _ _ _); reflexivity|].
  destruct (_ =? _); [reflexivity|]. destruct (_ || _); [rewrite <- up_with; apply up_number|]. destruct (_ =? _); reflexivity.
Qed.
Lemma up_get_str : forall n s, get_string cf n (up s) = (fst (n_get_str T cf n s), let* s := snd (n_get_str T cf n s) in Ret (up s)).
Proof.
  intros n s. rewrite (up_re s), re_get. unfold n_get_str. destruct (get_string cf n (n_p s)) as [k r]. cbn [fst snd]. destruct r; reflexivity.
Qed.
Lemma up_get_int : forall s, get_integer (up s) = n_get_int T s.
Proof. intro s. unfold get_integer, n_get_int. cbn [up p_neg p_int]. destruct (n_neg s); [|reflexivity]. symmetry. apply arith64. Qed.
End Up.

(** ** Values *)
Definition embm (m : list (str * gval Z f64)) : list (str * value) := map (fun p => (fst p, emb (snd p))) m.
Lemma embm_emplace : forall k v m, embm (obj_emplace k v m) = obj_emplace k (emb v) (embm m).
Proof.
  intros k v m. induction m as [|[k' w] m IH]; [reflexivity|]. cbn [obj_emplace embm map fst snd]. fold (embm m).
  destruct (str_ltb k k'); [reflexivity|]. destruct (str_eqb k k'); [reflexivity|]. cbn [embm map fst snd]. fold (embm (obj_emplace k v m)). rewrite IH. reflexivity.
Qed.

Definition upo (r : outcome (nst T)) : outcome pst := let* s := r in Ret (up s).

Lemma up_parse : forall cf n,
  (forall c tok s, do_parse cf n (emb c) tok (up s) = (emb (fst (n_parse T cf n c tok s)), upo (snd (n_parse T cf n c tok s)))) /\
  (forall l s, arr_loop cf n (map emb l) (up s) = (map emb (fst (n_arr T cf n l s)), upr (snd (n_arr T cf n l s)))) /\
  (forall m s, obj_loop cf n (embm m) (up s) = (embm (fst (n_obj T cf n m s)), upr (snd (n_obj T cf n m s)))).
Proof.
  intros cf n. induction n as [|n (IHp & IHa & IHo)]; [repeat split|]. split; [|split].
  - intros c tok s. cbn [do_parse n_parse]. fold (n_parse T cf) (n_arr T cf) (n_obj T cf).
    assert (X : match tok with None => scan cf (S n) (up s) | Some t => Ret (t, up s) end =
      upr (match tok with None => n_scan T cf (S n) s | Some t => Ret (t, s) end)) by (destruct tok; [reflexivity|apply up_scan]).
    rewrite X. destruct (match tok with None => n_scan T cf (S n) s | Some t => Ret (t, s) end) as [[t s1]| | | |]; cbn [upr bind fst snd]; try reflexivity.
    destruct t; try reflexivity.
    + rewrite up_get_str. destruct (n_get_str T cf (S n) s1) as [k r]. reflexivity.
    + rewrite up_get_int. destruct (n_get_int T s1); reflexivity.
    + change (@nil value) with (map emb (@nil (gval (nI T) (nF T)))). rewrite IHa. destruct (n_arr T cf n [] s1) as [l r]. cbn [fst snd]. f_equal.
      destruct r as [[k s2]| | | |]; try reflexivity. destruct k; reflexivity.
    + change (@nil (str * value)) with (embm (@nil (str * gval (nI T) (nF T)))). rewrite IHo. destruct (n_obj T cf n [] s1) as [l r]. cbn [fst snd]. f_equal.
      destruct r as [[k s2]| | | |]; try reflexivity. destruct k; reflexivity.
  - intros l s. cbn [arr_loop n_arr]. fold (n_parse T cf) (n_arr T cf) (n_obj T cf). rewrite up_scan.
    destruct (n_scan T cf (S n) s) as [[t s1]| | | |]; cbn [upr bind fst snd]; try reflexivity.
    destruct (starts_value t); [|reflexivity]. change VNull with (emb (@GNull (nI T) (nF T))). rewrite IHp. destruct (n_parse T cf n GNull (Some t) s1) as [v r]. cbn [fst snd].
    assert (M : map emb l ++ [emb v] = map emb (l ++ [v])) by (rewrite map_app; reflexivity). rewrite M.
    destruct r as [s2| | | |]; cbn [upo bind]; try reflexivity. rewrite up_scan.
    destruct (n_scan T cf (S n) s2) as [[t2 s3]| | | |]; cbn [upr bind fst snd]; try reflexivity. destruct t2; try reflexivity. apply IHa.
  - intros m s. cbn [obj_loop n_obj]. fold (n_parse T cf) (n_arr T cf) (n_obj T cf). rewrite up_scan.
    destruct (n_scan T cf (S n) s) as [[t s1]| | | |]; cbn [upr bind fst snd]; try reflexivity. destruct t; try reflexivity.
    rewrite up_get_str. destruct (n_get_str T cf (S n) s1) as [k r]. cbn [fst snd]. destruct r as [s2| | | |]; cbn [bind]; try reflexivity. rewrite up_scan.
    destruct (n_scan T cf (S n) s2) as [[t2 s3]| | | |]; cbn [upr bind fst snd]; try reflexivity. destruct t2; try reflexivity.
    change VNull with (emb (@GNull (nI T) (nF T))). rewrite IHp. destruct (n_parse T cf n GNull None s3) as [v r]. cbn [fst snd].
    destruct r as [s4| | | |]; cbn [upo bind]; try reflexivity. rewrite up_scan, <- embm_emplace.
    destruct (n_scan T cf (S n) s4) as [[t3 s5]| | | |]; cbn [upr bind fst snd]; try reflexivity. destruct t3; try reflexivity. apply IHo.
Qed.

Lemma n_int64 : forall cf h n c b, parse_ibuf cf h n (emb c) b =
  (emb (fst (n_parse_ibuf T cf h n c b)), snd (n_parse_ibuf T cf h n c b)).
Proof.
  intros cf h n c b. unfold parse_ibuf, n_parse_ibuf. change (init_pst b) with (up (n_init T b)). rewrite up_next.
  destruct (n_next T cf (n_init T b)) as [s| | | |]; cbn [bind]; try reflexivity. unfold parse_body, n_body.
  rewrite (proj1 (up_parse cf n)). destruct (n_parse T cf n c None s) as [v r]. cbn [fst snd]. f_equal.
  destruct r as [s1| | | |]; cbn [upo bind]; try reflexivity. rewrite up_scan. destruct (n_scan T cf n s1) as [[t s2]| | | |]; reflexivity.
Qed.

Lemma n_int64_string : forall cf s, parse_string cf s = let* v := n_parse_string T cf s in Ret (emb v).
Proof.
  intros cf s. unfold parse_string, parse_into, n_parse_string. change VNull with (emb (@GNull (nI T) (nF T))). rewrite n_int64.
  destruct (n_parse_ibuf T cf HNone (fuel_for s) GNull (IStr s)) as [v [r m]]. cbn [fst snd]. destruct r; reflexivity.
Qed.
