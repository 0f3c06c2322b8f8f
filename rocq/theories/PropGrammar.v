(** C06-C17: what json::parse accepts, what it returns, how it fails. *)
From Coq Require Import Lia Floats.SpecFloat QArith Qabs Permutation.
From Verif Require Import Base Stream Encoding Value Token Parser Feeds
  SpecUnicode SpecGrammar SpecPos SpecGap SpecText SpecRfc SpecReal
  GrammarLex GrammarTok GrammarProofs Context GrammarFacts NumberFacts FloatFacts TextFacts RfcFacts SepFacts Accuracy.
Open Scope N_scope.

Notation text s := (chars s%string).

(** C06.  Every parse ends in a value, a deserialization error, an assertion
    failure or overflow, and never takes more than 2n+1 loop rounds and nested
    calls for n input units. *)
Theorem C06_outcomes : forall cf s,
  (exists v, parse_string cf s = Ret v) \/
  (exists m, parse_string cf s = Throw (EDeser m)) \/
  parse_string cf s = Abort \/ parse_string cf s = UB.
Proof. exact parse_string_total. Qed.
Print Assumptions C06_outcomes.

Theorem C06_outcomes_into : forall cf h c s,
  let r := fst (snd (parse_into cf h c s)) in
  r = Ret tt \/ (exists m, r = Throw (EDeser m)) \/ r = Abort \/ r = UB.
Proof. exact parse_total. Qed.
Print Assumptions C06_outcomes_into.

Theorem C06_linear : forall cf h c s n, (2 * length s + 1 <= n)%nat ->
  parse_ibuf cf h n c (IStr s) = parse_into cf h c s.
Proof. exact parse_budget. Qed.
Print Assumptions C06_linear.

Example C06_case :
  parse_string cfg_json (text "[1]") = Ret (VArr [VInt 1]) /\
  (exists m, parse_string cfg_json (text "[1") = Throw (EDeser m)) /\
  parse_string cfg_json (text "[-]") = Abort /\
  parse_string cfg_json (text "9223372036854775808") = UB.
Proof. vm_compute. eauto. Qed.

(** C07.  The dialect: [document] is the grammar of SpecGrammar.v. *)
Theorem C07_dialect : forall cf s l t v, enc_ok (tgt_enc cf) (tgt_ck cf) = true ->
  feeds (src_enc cf) (src_ck cf) (is_open (IStr s)) l t ->
  (parse_string cf s = Ret v <-> exists rest, document cf l v rest /\ (t = TEof \/ rest <> [])).
Proof. exact dialect. Qed.
Print Assumptions C07_dialect.

Theorem C07_dialect_utf8 : forall cf s cps v, enc_ok (tgt_enc cf) (tgt_ck cf) = true -> src_enc cf = Utf8 ->
  utf8_text cps s -> (parse_string cf s = Ret v <-> exists rest, document cf cps v rest).
Proof. exact dialect_utf8. Qed.
Print Assumptions C07_dialect_utf8.

Theorem C07_dialect_utf16 : forall cf s cps v, enc_ok (tgt_enc cf) (tgt_ck cf) = true -> src_enc cf = Utf16 ->
  src_ck cf <> C8 -> (src_ck cf = C16 -> ~ In 65535 cps) -> utf16_text cps s ->
  (parse_string cf s = Ret v <-> exists rest, document cf cps v rest).
Proof. exact dialect_utf16. Qed.
Print Assumptions C07_dialect_utf16.

Theorem C07_dialect_utf32 : forall cf cps v, enc_ok (tgt_enc cf) (tgt_ck cf) = true -> src_enc cf = Utf32 ->
  src_ck cf = C32 -> Forall (fun c => c <= 1114111) cps ->
  (parse_string cf cps = Ret v <-> exists rest, document cf cps v rest).
Proof. exact dialect_utf32. Qed.
Print Assumptions C07_dialect_utf32.

(** The grammar is unambiguous: a text has one meaning. *)
Theorem C07_one_meaning : forall cf l v r v' r', enc_ok (tgt_enc cf) (tgt_ck cf) = true ->
  document cf l v r -> document cf l v' r' -> v = v'.
Proof. exact document_unique. Qed.
Print Assumptions C07_one_meaning.

(** Only the decoded code points matter, also across source encodings, and
    for errors, handlers and partial results alike. *)
Theorem C07_code_points_only : forall cf1 cf2 h c s1 s2 l t, src_ck cf1 = src_ck cf2 -> tgt_ck cf1 = tgt_ck cf2 ->
  tgt_enc cf1 = tgt_enc cf2 -> ndebug cf1 = ndebug cf2 ->
  feeds (src_enc cf1) (src_ck cf1) (is_open (IStr s1)) l t ->
  feeds (src_enc cf2) (src_ck cf2) (is_open (IStr s2)) l t ->
  parse_into cf1 h c s1 = parse_into cf2 h c s2.
Proof. exact same_code_points. Qed.
Print Assumptions C07_code_points_only.

Example C07_case :
  parse_string cfg_json (text "{ ""b"" : [true,], /* c */ ""a"": +7 }") =
    Ret (VObj [([97], VInt 7); ([98], VArr [VBool true])]) /\
  utf8_text [34; 233; 34] [34; 195; 169; 34] /\
  parse_string cfg_json [34; 195; 169; 34] = Ret (VStr [195; 169]).
Proof.
  split; [vm_compute; reflexivity|]. split; [|vm_compute; reflexivity].
  apply (u8t_cons 34 [34]); [apply u8_1; discriminate|].
  apply (u8t_cons 233 [195; 169]); [apply (u8_2 195 169); try split; discriminate|].
  apply (u8t_cons 34 [34] [] []); [apply u8_1; discriminate|constructor].
Qed.

(** C08.  Integers. *)
Theorem C08_exact : forall cf, enc_ok (src_enc cf) (src_ck cf) = true -> enc_ok (tgt_enc cf) (tgt_ck cf) = true ->
  forall p neg z w, sign p neg -> numeral z w -> (z <= max_int)%Z ->
  parse_string cf (p ++ w) = Ret (signed_int neg z).
Proof. exact parse_int. Qed.
Print Assumptions C08_exact.

Theorem C08_overflow : forall cf, enc_ok (src_enc cf) (src_ck cf) = true -> enc_ok (tgt_enc cf) (tgt_ck cf) = true ->
  forall p neg z w, sign p neg -> numeral z w -> (max_int < z)%Z -> parse_string cf (p ++ w) = UB.
Proof. exact parse_big. Qed.
Print Assumptions C08_overflow.

Theorem C08_every_integer : forall z, (0 <= z)%Z -> exists w, numeral z w.
Proof. exact numeral_exists. Qed.
Print Assumptions C08_every_integer.

Example C08_case : parse_string cfg_json (text "-9223372036854775807") = Ret (VInt (-9223372036854775807)) /\
  parse_string cfg_json (text "-9223372036854775808") = UB.
Proof. split; vm_compute; reflexivity. Qed.

(** C09.  Floating literals. *)
Theorem C09_fraction : forall cf, enc_ok (src_enc cf) (src_ck cf) = true -> enc_ok (tgt_enc cf) (tgt_ck cf) = true ->
  forall p neg w f, sign p neg -> mantissa w true f -> parse_string cf (p ++ w) = Ret (signed_float neg f).
Proof. exact parse_frac. Qed.
Print Assumptions C09_fraction.

Theorem C09_exponent : forall cf, enc_ok (src_enc cf) (src_ck cf) = true -> enc_ok (tgt_enc cf) (tgt_ck cf) = true ->
  forall p neg w fr f x g, sign p neg -> mantissa w fr f -> expo x g ->
  parse_string cf (p ++ w ++ x) = Ret (signed_float neg (dmul f g)).
Proof. exact parse_expo. Qed.
Print Assumptions C09_exponent.

Theorem C09_integral_exact : forall cf p neg z w fd,
  enc_ok (src_enc cf) (src_ck cf) = true -> enc_ok (tgt_enc cf) (tgt_ck cf) = true ->
  sign p neg -> numeral z w -> (z < 2 ^ 53)%Z -> fd <> [] -> Forall (fun d => d = 48) fd ->
  exists f, parse_string cf (p ++ w ++ 46 :: fd) = Ret (VFloat f) /\ is_int f (if neg then - z else z)%Z.
Proof. exact parse_point_zero. Qed.
Print Assumptions C09_integral_exact.

Example C09_case : exists f, parse_string cfg_json (text "-9007199254740991.00") = Ret (VFloat f) /\
  is_int f (-9007199254740991).
Proof. eexists. split; [vm_compute; reflexivity|reflexivity]. Qed.

(** A literal of value x with n digits after the point and exponent k is off
    by at most (2n + 2|k| + 2) units of 2^-52, relative to x. *)
Theorem C09_accuracy : forall cf, enc_ok (src_enc cf) (src_ck cf) = true -> enc_ok (tgt_enc cf) (tgt_ck cf) = true ->
  forall p (neg : bool) w n X x k, sign p neg -> written w n X -> power x k -> (X < inject_Z (2 ^ 63))%Q ->
  (n <> O \/ x <> [] /\ ~ (X == 0)%Q) -> (Z.of_nat n + Z.abs k <= 280)%Z ->
  exists f q, parse_string cf (p ++ w ++ x) = Ret (VFloat f) /\ f64_Q f = Some q /\
    (Qabs (q - (if neg then - (X * inject_Z 10 ^ k) else X * inject_Z 10 ^ k)) <=
      X * inject_Z 10 ^ k * ((2 * Z.of_nat n + 2 * Z.abs k + 2)%Z # 4503599627370496))%Q.
Proof. exact literal_close. Qed.
Print Assumptions C09_accuracy.

Example C09_accuracy_case : exists X, written (text "3.14") 2 X /\ (X == 157 # 50)%Q /\ power (text "e-02") (-2) /\
  exists f q, parse_string cfg_json (text "-3.14e-02") = Ret (VFloat f) /\ f64_Q f = Some q /\
    ~ (q == - (314 # 10000))%Q /\ (Qabs (q - - (314 # 10000)) <= (314 # 10000) * (10 # 4503599627370496))%Q.
Proof.
  eexists. split; [apply (wr_frac 3 [51] [49; 52]); [apply (nm_pos 51 []); [lia|lia|constructor]|discriminate|repeat constructor; unfold ascii_digit; lia]|].
  split; [vm_compute; reflexivity|]. split; [apply (pw_minus 101 [48; 50]); [unfold is_e; lia|discriminate|repeat constructor; unfold ascii_digit; lia]|].
  eexists _, _. split; [vm_compute; reflexivity|]. split; [reflexivity|]. split; [discriminate|vm_compute; discriminate].
Qed.

(** The result is not always the double nearest to the literal. *)
Theorem C09_nearest_refuted : exists f q g q', parse_string cfg_json (text "0.3") = Ret (VFloat f) /\
  f64_Q f = Some q /\ f64_Q g = Some q' /\ (Qabs (q' - (3 # 10)) < Qabs (q - (3 # 10)))%Q.
Proof.
  eexists _, _, (SFdiv 53 1024 (d_of_Z 3) (d_of_Z 10)), _.
  split; [vm_compute; reflexivity|]. split; [vm_compute; reflexivity|]. split; [vm_compute; reflexivity|]. reflexivity.
Qed.
Print Assumptions C09_nearest_refuted.

(** C10.  Strings. *)
Theorem C10_string : forall cf s b cps u, enc_ok (tgt_enc cf) (tgt_ck cf) = true ->
  feeds (src_enc cf) (src_ck cf) (is_open (IStr s)) (34 :: b ++ [34]) TEof ->
  items b cps -> out_text (tgt_enc cf) (tgt_ck cf) cps = Some u -> parse_string cf s = Ret (VStr u).
Proof. exact good_string. Qed.
Print Assumptions C10_string.

(** At any place where a string literal starts, an ill-formed one is an error. *)
Theorem C10_bad_string : forall cf s l t k r, enc_ok (tgt_enc cf) (tgt_ck cf) = true ->
  feeds (src_enc cf) (src_ck cf) (is_open (IStr s)) l t -> pos cf k l (34 :: r) ->
  (forall u r', ~ strlit (tgt_enc cf) (tgt_ck cf) (34 :: r) u r') ->
  exists m, parse_string cf s = Throw (EDeser m).
Proof. exact bad_string. Qed.
Print Assumptions C10_bad_string.

Theorem C10_broken : forall e ck b cps x s r, items b cps -> broken x -> ~ strlit e ck (34 :: b ++ x) s r.
Proof. exact broken_no_lit. Qed.
Print Assumptions C10_broken.

Theorem C10_unencodable : forall e ck b cps x s r, items b cps -> out_text e ck cps = None ->
  ~ strlit e ck (34 :: b ++ 34 :: x) s r.
Proof. exact unencodable_no_lit. Qed.
Print Assumptions C10_unencodable.

Example C10_case :
  parse_string cfg_json (text """a\né😀\/""") = Ret (VStr [97; 10; 195; 169; 240; 159; 152; 128; 47]) /\
  (exists m, parse_string cfg_json (text """\uD83D""") = Throw (EDeser m)) /\
  (exists m, parse_string cfg_json (text """\x41""") = Throw (EDeser m)).
Proof. vm_compute. eauto. Qed.

(** C11.  Blanks between tokens. *)
Theorem C11_blanks : forall cf h c s1 s2 t k p g r, enc_ok (tgt_enc cf) (tgt_ck cf) = true ->
  feeds (src_enc cf) (src_ck cf) (is_open (IStr s1)) (p ++ r) t ->
  feeds (src_enc cf) (src_ck cf) (is_open (IStr s2)) (p ++ g ++ r) t ->
  spot cf k (p ++ r) r -> r <> [] -> gap g -> parse_into cf h c s1 = parse_into cf h c s2.
Proof. exact insert_gap. Qed.
Print Assumptions C11_blanks.

Example C11_case : spot cfg_json KElem (text "[1,2]") (text "2]") /\ gap (text " /*x*/ ") /\
  parse_into cfg_json HNone VNull (text "[1,2]") = parse_into cfg_json HNone VNull (text "[1, /*x*/ 2]").
Proof.
  split.
  - apply st_in. eapply is_arr with (l1 := text "1,2]"); [apply bl_none; vm_compute; intuition discriminate|].
    eapply es_next with (l1 := text ",2]") (l2 := text "2]"); [| |apply (es_here _ []); constructor].
    + apply rfc_val_val with (w := [49]) (v := VInt 1); [|split; vm_compute; intuition discriminate].
      apply rv_num. apply (rn_int plain [] false 1 [49]); [constructor|apply (nm_pos 49 []); [discriminate..|constructor]|vm_compute; discriminate].
    + apply bl_none. vm_compute. intuition discriminate.
  - split; [|vm_compute; reflexivity]. apply gp_space; [left; reflexivity|].
    apply (gp_block [120] [32]); [apply cb_char; [discriminate|constructor]|]. apply gp_space; [left; reflexivity|constructor].
Qed.

(** At the very end of the text a blank can matter: an exponent sign takes
    the next character for a digit, whatever it is. *)
Theorem C11_end_refuted : gap (text "/**/") /\
  parse_string cfg_json (text "1e+") = Ret (VFloat (S754_infinity false)) /\
  exists m, parse_string cfg_json (text "1e+" ++ text "/**/") = Throw (EDeser m).
Proof.
  split; [apply (gp_block [] []); constructor|]. split; [vm_compute; reflexivity|].
  eexists. vm_compute. reflexivity.
Qed.
Print Assumptions C11_end_refuted.

(** C12.  Objects. *)
Theorem C12_object : forall cf s l1 ms l', enc_ok (tgt_enc cf) (tgt_ck cf) = true ->
  feeds (src_enc cf) (src_ck cf) (is_open (IStr s)) (123 :: l1) TEof ->
  members cf l1 ms l' -> blank l' [] ->
  exists m, parse_string cf s = Ret (VObj m) /\ obj_of ms m.
Proof. exact parse_object. Qed.
Print Assumptions C12_object.

Theorem C12_first_wins : forall ms m k v, obj_of ms m -> assoc k v ms -> In (k, v) m.
Proof. exact obj_of_first. Qed.
Print Assumptions C12_first_wins.

Theorem C12_same_keys : forall ms m k, obj_of ms m -> (In k (map fst m) <-> In k (map fst ms)).
Proof. exact obj_of_keys. Qed.
Print Assumptions C12_same_keys.

Theorem C12_order_free : forall ms1 ms2 m1 m2, Permutation ms1 ms2 -> NoDup (map fst ms1) ->
  obj_of ms1 m1 -> obj_of ms2 m2 -> m1 = m2.
Proof. exact obj_of_perm. Qed.
Print Assumptions C12_order_free.

Theorem C12_sorted_everywhere : forall cf s v, enc_ok (tgt_enc cf) (tgt_ck cf) = true ->
  parse_string cf s = Ret v -> ordered v.
Proof. exact parse_ordered. Qed.
Print Assumptions C12_sorted_everywhere.

Example C12_case : parse_string cfg_json (text "{""b"":1,""a"":2,""b"":3}") = Ret (VObj [([97], VInt 2); ([98], VInt 1)]).
Proof. vm_compute. reflexivity. Qed.

(** C13.  Separators. *)
Theorem C13_trailing_comma_array : forall cf h c s1 s2 t p g q, enc_ok (tgt_enc cf) (tgt_ck cf) = true ->
  feeds (src_enc cf) (src_ck cf) (is_open (IStr s1)) (p ++ 44 :: g ++ 93 :: q) t ->
  feeds (src_enc cf) (src_ck cf) (is_open (IStr s2)) (p ++ 93 :: q) t ->
  spot cf KAfterElem (p ++ 44 :: g ++ 93 :: q) (44 :: g ++ 93 :: q) -> gap g ->
  parse_into cf h c s1 = parse_into cf h c s2.
Proof. exact comma_arr. Qed.
Print Assumptions C13_trailing_comma_array.

Theorem C13_trailing_comma_object : forall cf h c s1 s2 t p g q, enc_ok (tgt_enc cf) (tgt_ck cf) = true ->
  feeds (src_enc cf) (src_ck cf) (is_open (IStr s1)) (p ++ 44 :: g ++ 125 :: q) t ->
  feeds (src_enc cf) (src_ck cf) (is_open (IStr s2)) (p ++ 125 :: q) t ->
  spot cf KAfterMem (p ++ 44 :: g ++ 125 :: q) (44 :: g ++ 125 :: q) -> gap g ->
  parse_into cf h c s1 = parse_into cf h c s2.
Proof. exact comma_obj. Qed.
Print Assumptions C13_trailing_comma_object.

Theorem C13_lone_key : forall cf h c s1 s2 t p w u g q, enc_ok (tgt_enc cf) (tgt_ck cf) = true ->
  feeds (src_enc cf) (src_ck cf) (is_open (IStr s1)) (p ++ w ++ g ++ 125 :: q) t ->
  feeds (src_enc cf) (src_ck cf) (is_open (IStr s2)) (p ++ 125 :: q) t ->
  spot cf KKey (p ++ w ++ g ++ 125 :: q) (w ++ g ++ 125 :: q) ->
  strlit (tgt_enc cf) (tgt_ck cf) (w ++ g ++ 125 :: q) u (g ++ 125 :: q) -> gap g ->
  parse_into cf h c s1 = parse_into cf h c s2.
Proof. exact lone_key. Qed.
Print Assumptions C13_lone_key.

(** leading, double comma; comma instead of a value *)
Theorem C13_stray_comma : forall cf s l t k r, enc_ok (tgt_enc cf) (tgt_ck cf) = true ->
  feeds (src_enc cf) (src_ck cf) (is_open (IStr s)) l t -> pos cf k l (44 :: r) ->
  k = KVal \/ k = KElem \/ k = KKey -> exists m, parse_string cf s = Throw (EDeser m).
Proof. exact reject_comma. Qed.
Print Assumptions C13_stray_comma.

(** a value directly after a value (missing comma), after a key (missing
    colon), or after the document *)
Theorem C13_missing_separator : forall cf s l t k r v q, enc_ok (tgt_enc cf) (tgt_ck cf) = true ->
  feeds (src_enc cf) (src_ck cf) (is_open (IStr s)) l t -> pos cf k l r ->
  k = KAfterElem \/ k = KAfterMem \/ k = KColon \/ k = KEnd ->
  val cf r v q -> exists m, parse_string cf s = Throw (EDeser m).
Proof. exact value_reject. Qed.
Print Assumptions C13_missing_separator.

(** any other character that is out of place *)
Theorem C13_stray_character : forall cf s l t k c r, enc_ok (tgt_enc cf) (tgt_ck cf) = true ->
  feeds (src_enc cf) (src_ck cf) (is_open (IStr s)) l t -> pos cf k l (c :: r) ->
  c <> 43 /\ c <> 45 /\ ~ ascii_digit c -> ~ fits k (c :: r) ->
  exists m, parse_string cf s = Throw (EDeser m).
Proof. exact reject_char. Qed.
Print Assumptions C13_stray_character.

(** a text that stops too early *)
Theorem C13_incomplete : forall cf s l k, enc_ok (tgt_enc cf) (tgt_ck cf) = true ->
  feeds (src_enc cf) (src_ck cf) (is_open (IStr s)) l TEof -> pos cf k l [] -> k <> KEnd ->
  exists m, parse_string cf s = Throw (EDeser m).
Proof. exact reject_end. Qed.
Print Assumptions C13_incomplete.

Example C13_case :
  parse_string cfg_json (text "[1, ]") = Ret (VArr [VInt 1]) /\
  parse_string cfg_json (text "{""a"" }") = Ret (VObj []) /\
  (exists m, parse_string cfg_json (text "[1,,]") = Throw (EDeser m)) /\
  (exists m, parse_string cfg_json (text "[,1]") = Throw (EDeser m)) /\
  (exists m, parse_string cfg_json (text "[1 2]") = Throw (EDeser m)) /\
  (exists m, parse_string cfg_json (text "{""a"" 2}") = Throw (EDeser m)).
Proof. vm_compute. repeat split; eauto. Qed.

(** C14.  After the document. *)
Theorem C14_trailing : forall cf s l t v l1 r, enc_ok (tgt_enc cf) (tgt_ck cf) = true ->
  feeds (src_enc cf) (src_ck cf) (is_open (IStr s)) l t ->
  val cf l v l1 -> blank l1 r -> t = TEof \/ r <> [] ->
  ~ bad_sign (src_ck cf) r -> ~ overflow (src_ck cf) (ndebug cf) r ->
  match r with
  | [] => parse_string cf s = Ret v
  | c :: _ => if N.eqb c 0 then parse_string cf s = Ret v else exists m, parse_string cf s = Throw (EDeser m)
  end.
Proof. exact after_document. Qed.
Print Assumptions C14_trailing.

Example C14_case :
  (exists m, parse_string cfg_json (text "[] []") = Throw (EDeser m)) /\
  parse_string cfg_json [49; 0; 91; 91] = Ret (VInt 1) /\
  parse_string cfg_json (text "1 -x") = Abort.
Proof. vm_compute. eauto. Qed.

(** C15.  RFC 8259. *)
Theorem C15_rfc_accepted : forall cf s l v, enc_ok (tgt_enc cf) (tgt_ck cf) = true ->
  feeds (src_enc cf) (src_ck cf) (is_open (IStr s)) l TEof ->
  rfc_text plain (tgt_enc cf) (tgt_ck cf) l v -> parse_string cf s = Ret v.
Proof. exact rfc_accepted. Qed.
Print Assumptions C15_rfc_accepted.

Example C15_case : rfc_text plain Utf8 C8 (text "[0.5e-1] ") (VArr [VFloat (dmul (frac_value (d_of_Z 0) dtenth [53]) (dpow dtenth 1))]).
Proof.
  apply (rt plain Utf8 C8 [] (text "[0.5e-1]") [32]); [constructor| |repeat constructor].
  apply (rv_arr plain Utf8 C8 (text "0.5e-1")). apply (re_one plain Utf8 C8 [] (text "0.5e-1") []); [constructor| |constructor].
  apply rv_num.
  apply (rn_exp plain [] false 0 [48] [46; 53] (frac_value (d_of_Z 0) dtenth [53]) [101; 45; 49]);
    [apply mi_no|apply nm_zero|vm_compute; discriminate| | |discriminate].
  - apply rf_some; [discriminate|repeat constructor; discriminate].
  - apply (rx_minus plain _ 101 [49]); [left; reflexivity|discriminate|repeat constructor; discriminate|].
    intro H. exfalso. apply H. reflexivity.
Qed.

(** Each of the excluded forms is RFC 8259 and is refused or misread. *)
Theorem C15_full_refuted :
  (exists m, parse_string cfg_json (text "0e1") = Throw (EDeser m)) /\
  (exists m, parse_string cfg_json (text "1e0") = Throw (EDeser m)) /\
  parse_string cfg_json (text "9223372036854775808") = UB /\
  parse_string cfg_json (text "1e4294967296") = Ret (VFloat (d_of_Z 1)) /\
  (exists m, parse_string cfg_json (text """\uD800""") = Throw (EDeser m)) /\
  Forall (fun w => exists v, rfc_text any Utf8 C8 w v)
    [text "0e1"; text "1e0"; text "9223372036854775808"; text "1e4294967296"].
Proof. exact rfc_gaps. Qed.
Print Assumptions C15_full_refuted.

(** C16.  Assertion failures and overflow. *)
Theorem C16_abort_iff : forall cf s l t, enc_ok (tgt_enc cf) (tgt_ck cf) = true ->
  feeds (src_enc cf) (src_ck cf) (is_open (IStr s)) l t ->
  (parse_string cf s = Abort <->
   ndebug cf = false /\ exists k r, pos cf k l r /\ bad_sign (src_ck cf) r /\ (t = TEof \/ tl r <> [])).
Proof. exact abort_iff. Qed.
Print Assumptions C16_abort_iff.

Theorem C16_overflow_iff : forall cf s l t, enc_ok (tgt_enc cf) (tgt_ck cf) = true ->
  feeds (src_enc cf) (src_ck cf) (is_open (IStr s)) l t ->
  (parse_string cf s = UB <-> exists k r, pos cf k l r /\ overflow (src_ck cf) (ndebug cf) r).
Proof. exact ub_iff. Qed.
Print Assumptions C16_overflow_iff.

Theorem C16_safe : forall cf s l t, enc_ok (tgt_enc cf) (tgt_ck cf) = true ->
  feeds (src_enc cf) (src_ck cf) (is_open (IStr s)) l t ->
  (forall k r, pos cf k l r -> ~ bad_sign (src_ck cf) r /\ ~ overflow (src_ck cf) (ndebug cf) r) ->
  (exists v, parse_string cf s = Ret v) \/ (exists m, parse_string cf s = Throw (EDeser m)).
Proof. exact no_abort_ub. Qed.
Print Assumptions C16_safe.

(** Disabling assertions changes nothing unless an assertion fails. *)
Theorem C16_ndebug : forall cf h c s,
  fst (snd (parse_into (with_nd false cf) h c s)) <> Abort ->
  parse_into (with_nd true cf) h c s = parse_into (with_nd false cf) h c s.
Proof. exact ndebug_same. Qed.
Print Assumptions C16_ndebug.

Example C16_case : parse_string cfg_json (text "[-x]") = Abort /\
  parse_string (with_nd true cfg_json) (text "[-x]") = Ret (VArr [VInt (-72)]) /\
  pos cfg_json KVal (text "9223372036854775808") (text "9223372036854775808") /\
  overflow C8 false (text "9223372036854775808").
Proof.
  split; [vm_compute; reflexivity|]. split; [vm_compute; reflexivity|]. split.
  - apply ps_start, bl_none. vm_compute. intuition discriminate.
  - apply (ov_plain C8 false 57 (text "223372036854775808") []); [discriminate..| |reflexivity].
    repeat constructor; vm_compute; discriminate.
Qed.

(** C17.  Characters above U+007F outside strings and comments.  The first
    two hold for every char type; the other two need 32-bit characters. *)
Theorem C17_token_start : forall cf s l t k c r, enc_ok (tgt_enc cf) (tgt_ck cf) = true ->
  feeds (src_enc cf) (src_ck cf) (is_open (IStr s)) l t -> pos cf k l (c :: r) -> 127 < c ->
  exists m, parse_string cf s = Throw (EDeser m).
Proof. exact high_reject. Qed.
Print Assumptions C17_token_start.

Theorem C17_after_value : forall cf s l t k r v c q, enc_ok (tgt_enc cf) (tgt_ck cf) = true ->
  feeds (src_enc cf) (src_ck cf) (is_open (IStr s)) l t -> pos cf k l r -> k = KVal \/ k = KElem ->
  val cf r v (c :: q) -> 127 < c -> exists m, parse_string cf s = Throw (EDeser m).
Proof. exact high_after. Qed.
Print Assumptions C17_after_value.

Theorem C17_wide_not_a_digit : forall cf s l t k w v c q, enc_ok (tgt_enc cf) (tgt_ck cf) = true ->
  src_ck cf = C32 -> feeds (src_enc cf) (src_ck cf) (is_open (IStr s)) l t -> pos cf k l (w ++ c :: q) ->
  k = KVal \/ k = KElem -> rfc_val plain (tgt_enc cf) (tgt_ck cf) w v -> 127 < c -> c < 4294967296 ->
  exists m, parse_string cf s = Throw (EDeser m).
Proof. exact wide_after. Qed.
Print Assumptions C17_wide_not_a_digit.

Theorem C17_wide_not_a_letter : forall cf s l t k x w c q, enc_ok (tgt_enc cf) (tgt_ck cf) = true ->
  src_ck cf = C32 -> feeds (src_enc cf) (src_ck cf) (is_open (IStr s)) l t -> pos cf k l (x :: w ++ c :: q) ->
  x = 116 /\ (length w < 3)%nat \/ x = 102 /\ (length w < 4)%nat \/ x = 110 /\ (length w < 3)%nat ->
  127 < c -> c < 4294967296 -> exists m, parse_string cf s = Throw (EDeser m).
Proof. exact literal_reject. Qed.
Print Assumptions C17_wide_not_a_letter.

Example C17_case :
  (exists m, parse_string cfg_wjson [49; 304] = Throw (EDeser m)) /\
  (exists m, parse_string cfg_wjson [116; 370; 117; 101] = Throw (EDeser m)).
Proof. vm_compute. eauto. Qed.

(** With char, U+0130 counts as the digit 0 (and adds 256), and U+0172 as r. *)
Theorem C17_narrow_refuted :
  utf8_text [49; 304] [49; 196; 176] /\ parse_string cfg_json [49; 196; 176] = Ret (VInt 266) /\
  utf8_text [116; 370; 117; 101] [116; 197; 178; 117; 101] /\
  parse_string cfg_json [116; 197; 178; 117; 101] = Ret (VBool true).
Proof. exact narrow_digits. Qed.
Print Assumptions C17_narrow_refuted.
