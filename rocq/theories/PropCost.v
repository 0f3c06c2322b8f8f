(** C54 and C55: how deep the recursion goes and how much is copied and
    compared. *)
From Coq Require Import Ascii Floats.SpecFloat.
From Verif Require Import Base Stream Encoding Value Token Message Parser Serializer Compare Feeds
  SpecUnicode SpecGrammar SpecText Cost SpecCost CostProofs CostCompare CostFirst CostParse CostBound CostTop.
Open Scope nat_scope.

Notation text s := (chars s%string).

(** C54.  Counting changes no result ... *)
Theorem C54_same : forall cf h c s, fst (k_into cf h c s) = parse_into cf h c s.
Proof. exact into_same. Qed.
Print Assumptions C54_same.

Theorem C54_same_dump : forall cf v, fst (k_dump_string cf v) = dump_string cf v.
Proof. exact dump_string_same. Qed.
Print Assumptions C54_same_dump.

(** ... and the counts are those the grammar assigns to the text: [takes] is
    spelled out in SpecCost.v. *)
Theorem C54_parse : forall cf h y s l t v rest d k, enc_ok (tgt_enc cf) (tgt_ck cf) = true ->
  feeds (src_enc cf) (src_ck cf) (is_open (IStr s)) l t -> takes cf y l v rest d k -> t = TEof \/ rest <> [] ->
  k_into cf h y s = ((v, (Ret tt, ""%string)), (d, k)).
Proof. exact parse_exact. Qed.
Print Assumptions C54_parse.

Example C54_parse_case :
  k_into cfg_json HNone VNull (text "[[], {""a"": [1]}]") = ((VArr [VArr []; VObj [(text "a", VArr [VInt 1])]], (Ret tt, ""%string)), (4, 2)) /\
  k_into cfg_json HNone VNull (text "/**//**/ 1 //") = ((VInt 1, (Ret tt, ""%string)), (3, 0)) /\
  k_into cfg_json HNone (tower 4) (text "1") = ((VInt 1, (Ret tt, ""%string)), (6, 0)) /\
  k_into cfg_json HNone VNull (text "{""a"": [1, 2], ""a"": {""b"": {}}}") =
    ((VObj [(text "a", VArr [VInt 1; VInt 2])], (Ret tt, ""%string)), (3, 6)).
Proof. repeat split; vm_compute; reflexivity. Qed.

(** Every document, and nothing else, has such counts. *)
Theorem C54_every_document : forall cf y l v rest, document cf l v rest <-> exists d k, takes cf y l v rest d k.
Proof. intros cf y l v rest. split; [exact (takes_all cf y l v rest)|intros (d & k & T); exact (takes_document cf y l v rest d k T)]. Qed.
Print Assumptions C54_every_document.

Example C54_every_document_case : takes cfg_json (tower 1) (remarks 3) (VInt 0) [] 4 0.
Proof.
  refine (ta_doc cfg_json (tower 1) (remarks 3) [48%N] (VInt 0) [] [] 3 1 0 0 (remarks_blanks 3) _ _ (or_introl eq_refl)).
  - apply ph_num, nu_plain; [discriminate|discriminate|]. apply un_zero. exact Logic.I.
  - apply bk_none. exact Logic.I.
Qed.

(** Whatever the text and however parsing ends, the depth is at most one more
    than the length of the text, or than the nesting of what the variable held
    before. *)
Theorem C54_parse_bound : forall cf h y s, fst (snd (k_into cf h y s)) <= S (Nat.max (levels y) (length s)).
Proof. intros cf h y s. exact (proj1 (parse_bounds cf h y s)). Qed.
Print Assumptions C54_parse_bound.

Example C54_parse_bound_case :
  snd (k_into cfg_json HNone VNull (text "[[[[")) = (4, 0) /\ snd (k_into cfg_json HNone VNull (text "[[[[x")) = (4, 0) /\
  snd (k_into cfg_json HNone (tower 6) (text "x")) = (1, 0) /\ snd (k_into cfg_json HNone VNull (text "")) = (1, 0) /\
  snd (k_into cfg_json HNone VNull (text "////")) = (2, 0).
Proof. repeat split; vm_compute; reflexivity. Qed.

(** It is at least the nesting of the value read ... *)
Theorem C54_at_least_nesting : forall cf y l v rest d k, enc_ok (tgt_enc cf) (tgt_ck cf) = true -> takes cf y l v rest d k -> nest v <= d.
Proof. intros cf y l v rest d k Hok T. exact (proj1 (takes_value cf Hok y l v rest d k T)). Qed.
Print Assumptions C54_at_least_nesting.

(** ... so there is no limit: a text of 2 n + 2 characters is read n + 1 calls
    deep ... *)
Theorem C54_limit_refuted : forall limit, exists s v,
  parse_string cfg_json s = Ret v /\ length s = 2 * limit + 2 /\ fst (snd (k_into cfg_json HNone VNull s)) = S limit.
Proof. exact no_limit. Qed.
Print Assumptions C54_limit_refuted.

Theorem C54_tower : forall cf h n, enc_ok (src_enc cf) (src_ck cf) = true -> enc_ok (tgt_enc cf) (tgt_ck cf) = true ->
  k_into cf h VNull (tower_text n) = ((tower n, (Ret tt, ""%string)), (S n, 0)) /\ length (tower_text n) = 2 * n + 2.
Proof. exact tower_cost. Qed.
Print Assumptions C54_tower.

Example C54_tower_case : tower_text 3 = text "[[[[]]]]" /\ snd (k_into cfg_json HNone VNull (tower_text 3)) = (4, 0).
Proof. split; vm_compute; reflexivity. Qed.

(** ... and no bound by the value read: each comment takes a call within that
    of the one before. *)
Theorem C54_nesting_refuted : ~ exists f : value -> nat, forall s v,
  parse_string cfg_json s = Ret v -> fst (snd (k_into cfg_json HNone VNull s)) <= f v.
Proof. exact depth_of_value_refuted. Qed.
Print Assumptions C54_nesting_refuted.

Theorem C54_comments : forall cf h n, enc_ok (src_enc cf) (src_ck cf) = true -> enc_ok (tgt_enc cf) (tgt_ck cf) = true ->
  k_into cf h VNull (remarks n) = ((VInt 0, (Ret tt, ""%string)), (S n, 0)) /\ length (remarks n) = 4 * n + 1.
Proof. exact remarks_cost. Qed.
Print Assumptions C54_comments.

Example C54_comments_case : remarks 2 = text "/**//**/0" /\ snd (k_into cfg_json HNone VNull (remarks 2)) = (3, 0).
Proof. split; vm_compute; reflexivity. Qed.

(** dump goes exactly as deep as the value is nested, or less if it throws. *)
Theorem C54_dump : forall cf v, snd (k_dump_string cf v) <= nest v /\ (forall w, dump_string cf v = Ret w -> snd (k_dump_string cf v) = nest v).
Proof. exact dump_depth. Qed.
Print Assumptions C54_dump.

Example C54_dump_case :
  snd (k_dump_string (ser_cfg C8 C8 fmt_default []) (VArr [VInt 1; VObj [(text "a", VArr []); (text "b", VNull)]])) = 3 /\
  snd (k_dump_string (ser_cfg C8 C8 fmt_default []) (VArr [VStr [255%N]; VArr [VArr []]])) = 2.
Proof. split; vm_compute; reflexivity. Qed.

(** == and < go at most as deep as the flatter of the two. *)
Theorem C54_compare : forall a b,
  snd (snd (k_eq a b)) <= Nat.min (nest a) (nest b) /\ snd (snd (k_lt a b)) <= Nat.min (nest a) (nest b) /\
  (v_eqb a b = true -> snd (snd (k_eq a b)) = nest a /\ snd (snd (k_lt a b)) = nest a).
Proof.
  intros a b. destruct (eq_cost a b) as (_ & _ & A & B). destruct (lt_cost a b) as (_ & _ & C & D).
  split; [exact A|]. split; [exact C|]. intro E. rewrite (B E), (D E). split; reflexivity.
Qed.
Print Assumptions C54_compare.

Example C54_compare_case :
  snd (snd (k_eq (tower 3) (tower 5))) = 4 /\ snd (snd (k_lt (tower 3) (tower 5))) = 4 /\ snd (snd (k_lt (tower 3) (tower 3))) = 4 /\
  snd (snd (k_eq (VArr [VInt 1; tower 3]) (VArr [VInt 2; tower 3]))) = 2.
Proof. repeat split; vm_compute; reflexivity. Qed.

(** C55.  However parsing ends, it copies at most as many values as the square
    of the length of the text ... *)
Theorem C55_copies_bound : forall cf h y s, snd (snd (k_into cf h y s)) <= length s * length s.
Proof. intros cf h y s. exact (proj2 (parse_bounds cf h y s)). Qed.
Print Assumptions C55_copies_bound.

(** ... or, of a document, the depth times the length, and the value has no
    more parts than the text has characters. *)
Theorem C55_copies_by_depth : forall cf y l v rest d k, enc_ok (tgt_enc cf) (tgt_ck cf) = true -> takes cf y l v rest d k ->
  k <= (d - 1) * length l /\ nodes v <= length l.
Proof. intros cf y l v rest d k Hok T. destruct (takes_value cf Hok y l v rest d k T) as (_ & A & B). split; [exact B|exact A]. Qed.
Print Assumptions C55_copies_by_depth.

Example C55_copies_case :
  snd (k_into cfg_json HNone VNull (text "{""a"": {""b"": {""c"": [1, 2]}}}")) = (5, 3 + 4 + 5) /\
  snd (k_into cfg_json HNone VNull (text "{""a"": {""b"": {""c"": [1, 2]}}x")) = (5, 3 + 4 + 5) /\
  snd (k_into cfg_json HNone VNull (text "{""a"": {""b"": {""c"": [1, 2]x")) = (5, 3).
Proof. repeat split; vm_compute; reflexivity. Qed.

(** Without members nothing is copied. *)
Theorem C55_memberless : forall cf y l v rest d k, takes cf y l v rest d k -> memberless v -> k = 0.
Proof. exact memberless_copies. Qed.
Print Assumptions C55_memberless.

Example C55_memberless_case :
  memberless (VArr [VArr [VInt 1; VObj []]; VNull]) /\ snd (k_into cfg_json HNone VNull (text "[[1, {""a""}], null]")) = (3, 0).
Proof. split; [cbn; tauto|vm_compute; reflexivity]. Qed.

(** The copies are not linear in the text: a member is copied once for each
    object around it. *)
Theorem C55_linear_refuted : ~ exists c, forall s v,
  parse_string cfg_json s = Ret v -> snd (snd (k_into cfg_json HNone VNull s)) <= c * length s.
Proof. exact not_linear. Qed.
Print Assumptions C55_linear_refuted.

Theorem C55_quadratic : forall cf h n, enc_ok (src_enc cf) (src_ck cf) = true -> enc_ok (tgt_enc cf) (tgt_ck cf) = true ->
  exists k, k_into cf h VNull (otower_text n) = ((otower n, (Ret tt, ""%string)), (S n, k)) /\ 2 * k = n * S n /\ length (otower_text n) = 5 * n + 2.
Proof. exact otower_cost. Qed.
Print Assumptions C55_quadratic.

Example C55_quadratic_case : otower_text 2 = text "{"""":{"""":{}}}" /\ snd (k_into cfg_json HNone VNull (otower_text 4)) = (5, 10).
Proof. split; vm_compute; reflexivity. Qed.

(** == makes at most as many calls as the smaller value has parts, and exactly
    that many if they are equal. *)
Theorem C55_equal : forall a b, fst (k_eq a b) = v_eqb a b /\ fst (snd (k_eq a b)) <= Nat.min (nodes a) (nodes b) /\
  (v_eqb a b = true -> fst (snd (k_eq a b)) = nodes a).
Proof.
  intros a b. destruct (eq_cost a b) as (A & B & _ & C). split; [exact A|]. split; [exact B|]. intro E. rewrite (C E). reflexivity.
Qed.
Print Assumptions C55_equal.

Example C55_equal_case :
  k_eq (VArr [VInt 1; VArr [VInt 2]]) (VArr [VInt 1; VArr [VInt 2]]) = (true, (4, 3)) /\
  k_eq (VArr [VInt 1; VArr [VInt 2]]) (VArr [VInt 2; VArr [VInt 2]]) = (false, (2, 2)).
Proof. split; vm_compute; reflexivity. Qed.

(** Both sides of a comparison stop at the first difference: == has then
    compared what precedes it, in arrays... *)
Theorem C55_equal_first : forall p p' x x' q q', Forall2 (fun y y' => v_eqb y y' = true) p p' -> v_eqb x x' = false -> length q = length q' ->
  fst (snd (k_eq (VArr (p ++ x :: q)) (VArr (p' ++ x' :: q')))) = S (list_sum (map nodes p) + fst (snd (k_eq x x'))).
Proof. exact eq_first_array. Qed.
Print Assumptions C55_equal_first.

(** ...and in objects, where values are compared only under equal keys. *)
Theorem C55_equal_first_object : forall p p' k x k' x' q q',
  Forall2 (fun y y' => fst y = fst y' /\ v_eqb (snd y) (snd y') = true) p p' -> (k = k' -> v_eqb x x' = false) -> length q = length q' ->
  fst (snd (k_eq (VObj (p ++ (k, x) :: q)) (VObj (p' ++ (k', x') :: q')))) =
    S (list_sum (map (fun kv => nodes (snd kv)) p) + (if str_eqb k k' then fst (snd (k_eq x x')) else 0)).
Proof. exact eq_first_object. Qed.
Print Assumptions C55_equal_first_object.

(** Values of different kinds or sizes take one call. *)
Theorem C55_equal_once : forall a b,
  match a, b with
  | VArr l, VArr l' => length l <> length l'
  | VObj m, VObj m' => length m <> length m'
  | _, _ => True
  end -> snd (k_eq a b) = (1, 1).
Proof. exact eq_once. Qed.
Print Assumptions C55_equal_once.

Example C55_equal_first_case :
  snd (k_eq (VArr [VInt 1; VArr [VInt 2; VNull]; VInt 3; VInt 4]) (VArr [VInt 1; VArr [VInt 2; VNull]; VInt 0; VInt 4])) = (6, 3) /\
  snd (k_eq (VObj [([97%N], VInt 1); ([98%N], VArr [VInt 1])]) (VObj [([97%N], VInt 1); ([99%N], VArr [VInt 1])])) = (2, 2) /\
  snd (k_eq (VArr [VInt 1; VInt 2]) (VArr [VInt 1])) = (1, 1).
Proof. repeat split; vm_compute; reflexivity. Qed.

(** < doubles the calls with each level: at most 2 ^ levels times the parts. *)
Theorem C55_less : forall a b, fst (k_lt a b) = v_ltb a b /\ fst (snd (k_lt a b)) <= Nat.min (doubled a) (doubled b) /\
  (v_eqb a b = true -> fst (snd (k_lt a b)) = doubled a).
Proof.
  intros a b. destruct (lt_cost a b) as (A & B & _ & C). split; [exact A|]. split; [exact B|]. intro E. rewrite (C E). reflexivity.
Qed.
Print Assumptions C55_less.

Theorem C55_doubled : forall v, nodes v <= doubled v /\ doubled v <= nodes v * 2 ^ levels v.
Proof. exact doubled_bounds. Qed.
Print Assumptions C55_doubled.

Example C55_less_case :
  k_lt (VArr [VInt 1; VArr [VInt 2]]) (VArr [VInt 1; VArr [VInt 2]]) = (false, (9, 3)) /\
  k_lt (VArr [VInt 1; VArr [VInt 2]]) (VArr [VInt 1; VArr [VInt 3]]) = (true, (5, 3)) /\
  doubled (VArr [VInt 1; VArr [VInt 2]]) = 9.
Proof. repeat split; vm_compute; reflexivity. Qed.

(** < has compared what precedes the difference in both directions. *)
Theorem C55_less_first : forall p p' x x' q q', Forall2 (fun y y' => v_eqb y y' = true) p p' -> v_ltb x x' = true \/ v_ltb x' x = true ->
  fst (snd (k_lt (VArr (p ++ x :: q)) (VArr (p' ++ x' :: q')))) =
    S (2 * list_sum (map doubled p) + fst (snd (k_lt x x')) + (if v_ltb x x' then 0 else fst (snd (k_lt x' x)))).
Proof. exact lt_first_array. Qed.
Print Assumptions C55_less_first.

Theorem C55_less_first_object : forall p p' k x k' x' q q',
  Forall2 (fun y y' => fst y = fst y' /\ v_eqb (snd y) (snd y') = true) p p' -> (k = k' -> v_ltb x x' = true \/ v_ltb x' x = true) ->
  fst (snd (k_lt (VObj (p ++ (k, x) :: q)) (VObj (p' ++ (k', x') :: q')))) =
    S (2 * list_sum (map (fun kv => doubled (snd kv)) p) +
       (if str_eqb k k' then fst (snd (k_lt x x')) + (if v_ltb x x' then 0 else fst (snd (k_lt x' x))) else 0)).
Proof. exact lt_first_object. Qed.
Print Assumptions C55_less_first_object.

(** A beginning of an array is compared to its end; values of different kinds
    and empty ones take one call. *)
Theorem C55_less_shorter : forall p p' q, Forall2 (fun y y' => v_eqb y y' = true) p p' ->
  fst (snd (k_lt (VArr p) (VArr (p' ++ q)))) = S (2 * list_sum (map doubled p)) /\
  fst (snd (k_lt (VArr (p' ++ q)) (VArr p))) = S (2 * list_sum (map doubled p)).
Proof. exact lt_shorter. Qed.
Print Assumptions C55_less_shorter.

Theorem C55_less_once : forall a b,
  match a, b with
  | VArr l, VArr l' => l = [] \/ l' = []
  | VObj m, VObj m' => m = [] \/ m' = []
  | _, _ => True
  end -> snd (k_lt a b) = (1, 1).
Proof. exact lt_once. Qed.
Print Assumptions C55_less_once.

Example C55_less_first_case :
  snd (k_lt (VArr [VInt 1; VArr [VInt 2]; VInt 3; VInt 4]) (VArr [VInt 1; VArr [VInt 2]; VInt 9; VInt 4])) = (10, 3) /\
  snd (k_lt (VArr [VInt 1; VArr [VInt 2]; VInt 9; VInt 4]) (VArr [VInt 1; VArr [VInt 2]; VInt 3; VInt 4])) = (11, 3) /\
  snd (k_lt (VObj [([97%N], VInt 1); ([98%N], VArr [VInt 1])]) (VObj [([97%N], VInt 1); ([99%N], VArr [VInt 1])])) = (3, 2) /\
  snd (k_lt (VArr [VInt 1]) (VArr [VInt 1; VInt 2])) = (3, 2).
Proof. repeat split; vm_compute; reflexivity. Qed.

(** On two copies of n + 1 arrays inside each other that is all of it: 2 ^ (n + 1) - 1
    calls, where == makes n + 1. *)
Theorem C55_exponential : forall n, nodes (tower n) = S n /\
  fst (snd (k_eq (tower n) (tower n))) = S n /\ fst (snd (k_lt (tower n) (tower n))) = 2 ^ S n - 1.
Proof.
  intro n. destruct (tower_sizes n) as (A & _). destruct (tower_calls n) as [B C]. rewrite B, C. split; [exact A|]. split; reflexivity.
Qed.
Print Assumptions C55_exponential.

Example C55_exponential_case : snd (k_lt (tower 9) (tower 9)) = (1023, 10) /\ snd (k_eq (tower 9) (tower 9)) = (10, 10).
Proof. split; vm_compute; reflexivity. Qed.
