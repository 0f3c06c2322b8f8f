(** json.hpp json_parser (106-650) and details/parser.hpp basic_parser
    (37-223), function by function. *)
From Coq Require Import Floats.SpecFloat.
From Verif Require Import Base Stream Encoding Value Token Message.

(** Template parameters and options of the parser: source character kind,
    source decoder, target character kind, target encoder
    (details/parser.hpp:77-87), and whether NDEBUG disables CONFIGOR_ASSERT
    (details/exception.hpp:25-28). *)
Record pcfg := mkCfg {
  src_ck : ckind; src_enc : enc;
  tgt_ck : ckind; tgt_enc : enc;
  ndebug : bool
}.

(** json.hpp:645-649 and the stream is_ of details/parser.hpp:219. *)
Record pst := mkP {
  p_is : istream;
  p_cur : N;
  p_neg : bool;
  p_int : Z;
  p_flt : f64
}.

Definition set_neg (st : pst) (b : bool) : pst := mkP (p_is st) (p_cur st) b (p_int st) (p_flt st).
Definition set_int (st : pst) (z : Z) : pst := mkP (p_is st) (p_cur st) (p_neg st) z (p_flt st).
Definition set_flt (st : pst) (f : f64) : pst := mkP (p_is st) (p_cur st) (p_neg st) (p_int st) f.

(** json.hpp:632-635 *)
Definition fail {A} (msg : string) : outcome A := Throw (EDeser msg).
(** json.hpp:637-643 *)
Definition fail_code {A} (msg : string) (code : N) : outcome A := fail (with_code msg code).

(** json.hpp:247-261 *)
Definition read_next (cf : pcfg) (st : pst) : outcome pst :=
  let '(ok, cp, i) := decode (src_enc cf) (src_ck cf) (p_is st) (p_cur st) in
  if ok then
    if is_good i then Ret (mkP i cp (p_neg st) (p_int st) (p_flt st))
    else fail_code "decoding failed with codepoint" cp
  else Ret (mkP i 0 (p_neg st) (p_int st) (p_flt st)).

(** json.hpp:627-630: the argument is narrowed to source_char_type.  (For
    signed char the comparison is on signed values; units of 128 and above are
    negative, hence below '0', which is the same answer.) *)
Definition is_digit (cf : pcfg) (cp : N) : bool :=
  let c := narrow (src_ck cf) cp in (48 <=? c) && (c <=? 57).

Definition is_space (c : N) : bool :=
  (c =? c_space) || (c =? c_tab) || (c =? c_nl) || (c =? c_cr).

(** json.hpp:265-266, the while loop of skip_spaces. *)
Fixpoint skip_ws (cf : pcfg) (fuel : nat) (st : pst) : outcome pst :=
  match fuel with
  | O => OutOfFuel
  | S f =>
      if is_space (p_cur st)
      then let* st := read_next cf st in skip_ws cf f st
      else Ret st
  end.

(** json.hpp:281-296, the one-line comment loop; the boolean says whether the
    loop ended on a newline (then skip_spaces follows) or at end of input. *)
Fixpoint line_comment (cf : pcfg) (fuel : nat) (st : pst) : outcome (bool * pst) :=
  match fuel with
  | O => OutOfFuel
  | S f =>
      let* st := read_next cf st in
      if (p_cur st =? c_nl) || (p_cur st =? c_cr) then Ret (true, st)
      else if is_eof (p_is st) then Ret (false, st)
      else line_comment cf f st
  end.

(** json.hpp:301-316, the block comment loop. *)
Fixpoint block_comment (cf : pcfg) (fuel : nat) (st : pst) : outcome pst :=
  match fuel with
  | O => OutOfFuel
  | S f =>
      let* st := read_next cf st in
      if p_cur st =? c_star then
        let* st := read_next cf st in
        if p_cur st =? c_slash then read_next cf st
        else if is_eof (p_is st) then fail "unexpected eof while reading comment"
        else block_comment cf f st
      else if is_eof (p_is st) then fail "unexpected eof while reading comment"
      else block_comment cf f st
  end.

(** json.hpp:263-323, skip_spaces and skip_comments (mutually recursive in
    the source; skip_comments is inlined at its only call site). *)
Fixpoint skip_spaces (cf : pcfg) (fuel : nat) (st : pst) : outcome pst :=
  match fuel with
  | O => OutOfFuel
  | S f =>
      let* st := skip_ws cf fuel st in
      if p_cur st =? c_slash then
        let* st := read_next cf st in
        if p_cur st =? c_slash then
          let* r := line_comment cf fuel st in
          if fst r then skip_spaces cf f (snd r) else Ret (snd r)
        else if p_cur st =? c_star then
          let* st := block_comment cf fuel st in
          skip_spaces cf f st
        else fail "unexpected character '/'"
      else Ret st
  end.

(** json.hpp:325-342: comparison after narrowing to the source char type.
    [text] is what remains to be compared of the literal [whole]. *)
Fixpoint scan_literal (cf : pcfg) (whole text : list N) (result : token) (st : pst)
  : outcome (token * pst) :=
  match text with
  | [] => Ret (result, st)
  | c :: text' =>
      if c =? narrow (src_ck cf) (p_cur st)
      then let* st := read_next cf st in scan_literal cf whole text' result st
      else fail (literal_msg (p_cur st) whole)
  end.

(** json.hpp:590-593: power by squaring.  The loop runs once per binary digit
    of [exponent]. *)
Fixpoint pow_loop (base power : f64) (e : positive) : f64 :=
  match e with
  | xH => fmul power base
  | xO e' => pow_loop (fmul base base) power e'
  | xI e' => pow_loop (fmul base base) (fmul power base) e'
  end.
Definition power_of (base : f64) (e : N) : f64 :=
  match e with
  | N0 => f64_of_Z 1
  | Npos p => pow_loop base (f64_of_Z 1) p
  end.

(** json.hpp:584-588 *)
Fixpoint exp_digits (cf : pcfg) (fuel : nat) (ex : N) (st : pst) : outcome (N * pst) :=
  match fuel with
  | O => OutOfFuel
  | S f =>
      let* st := read_next cf st in
      if is_digit cf (p_cur st)
      then exp_digits cf f (u32 (u32 (ex * 10) + u32_sub (p_cur st) 48)) st
      else Ret (ex, st)
  end.

(** json.hpp:563-599.  CONFIGOR_ASSERT at 567 holds at both call sites. *)
Definition scan_exponent (cf : pcfg) (fuel : nat) (st : pst) : outcome (token * pst) :=
  let* st := read_next cf st in
  let c := p_cur st in
  if negb ((is_digit cf c && negb (c =? c_0)) || (c =? c_minus) || (c =? c_plus))
  then fail_code "invalid exponent number, got" c
  else
    let base := if c =? c_minus then f64_tenth else f64_of_Z 10 in
    let* st := if (c =? c_plus) || (c =? c_minus) then read_next cf st else Ret st in
    let* r := exp_digits cf fuel (u32_sub (p_cur st) 48) st in
    let '(ex, st) := r in
    Ret (Tfloat, set_flt st (fmul (p_flt st) (power_of base ex))).

(** json.hpp:546-559 *)
Fixpoint frac_digits (cf : pcfg) (fuel : nat) (fraction : f64) (st : pst)
  : outcome (token * pst) :=
  match fuel with
  | O => OutOfFuel
  | S f =>
      let* st := read_next cf st in
      let c := p_cur st in
      if (c =? c_e) || (c =? c_E) then scan_exponent cf (S f) st
      else if is_digit cf c then
        let fraction := fmul fraction f64_tenth in
        frac_digits cf f fraction
          (set_flt st (fadd (p_flt st) (fmul (f64_of_Z (Z.of_N (u32_sub c 48))) fraction)))
      else Ret (Tfloat, st)
  end.

(** json.hpp:529-561.  CONFIGOR_ASSERT at 538 holds at both call sites. *)
Definition scan_float (cf : pcfg) (fuel : nat) (st : pst) : outcome (token * pst) :=
  let st := set_flt st (f64_of_Z (p_int st)) in
  if (p_cur st =? c_e) || (p_cur st =? c_E) then scan_exponent cf fuel st
  else
    let* st := read_next cf st in
    if negb (is_digit cf (p_cur st)) then fail_code "invalid float number, got" (p_cur st)
    else
      frac_digits cf fuel f64_tenth
        (set_flt st (fadd (p_flt st)
                          (fmul (f64_of_Z (Z.of_N (u32_sub (p_cur st) 48))) f64_tenth))).

(** json.hpp:515-525 *)
Fixpoint int_digits (cf : pcfg) (fuel : nat) (st : pst) : outcome (token * pst) :=
  match fuel with
  | O => OutOfFuel
  | S f =>
      let* st := read_next cf st in
      let c := p_cur st in
      if (c =? c_dot) || (c =? c_e) || (c =? c_E) then scan_float cf (S f) st
      else if is_digit cf c then
        let* z := chk64 (p_int st * 10)%Z in
        let* z := chk64 (z + Z.of_N (u32_sub c 48))%Z in
        int_digits cf f (set_int st z)
      else Ret (Tint, st)
  end.

(** json.hpp:508-527, with the assertion at 512. *)
Definition scan_integer (cf : pcfg) (fuel : nat) (st : pst) : outcome (token * pst) :=
  if negb (ndebug cf) && negb (is_digit cf (p_cur st)) then Abort
  else int_digits cf fuel (set_int st (Z.of_N (u32_sub (p_cur st) 48))).

(** json.hpp:482-506 *)
Definition scan_number (cf : pcfg) (fuel : nat) (st : pst) : outcome (token * pst) :=
  let st := set_int (set_neg st false) 0%Z in
  let* st :=
    if (p_cur st =? c_minus) || (p_cur st =? c_plus)
    then read_next cf (set_neg st (p_cur st =? c_minus))
    else Ret st in
  if p_cur st =? c_0 then
    let* st := read_next cf st in
    if p_cur st =? c_dot then scan_float cf fuel st
    else if (p_cur st =? c_e) || (p_cur st =? c_E) then fail "invalid exponent"
    else Ret (Tint, st)
  else scan_integer cf fuel st.

(** The single-character tokens of json.hpp:187-204. *)
Definition punct (c : N) : option token :=
  if c =? c_lbrack then Some Tbegin_arr
  else if c =? c_rbrack then Some Tend_arr
  else if c =? c_lbrace then Some Tbegin_obj
  else if c =? c_rbrace then Some Tend_obj
  else if c =? c_colon then Some Tname_sep
  else if c =? c_comma then Some Tval_sep
  else None.

(** json.hpp:179-245 *)
Definition scan (cf : pcfg) (fuel : nat) (st : pst) : outcome (token * pst) :=
  let* st := skip_spaces cf fuel st in
  if is_eof (p_is st) then Ret (Teoi, st)
  else
    let c := p_cur st in
    match punct c with
    | Some t => let* st := read_next cf st in Ret (t, st)
    | None =>
        if c =? c_t then scan_literal cf lit_true lit_true Ttrue st
        else if c =? c_f then scan_literal cf lit_false lit_false Tfalse st
        else if c =? c_n then scan_literal cf lit_null lit_null Tnull st
        else if c =? c_quote then Ret (Tstring, st)
        else if (c =? c_minus) || (c =? c_plus) || ((48 <=? c) && (c <=? 57))
        then scan_number cf fuel st
        else if c =? 0 then Ret (Teoi, st)
        else fail_code "unexpected character" c
    end.

(** json.hpp:601-625 *)
Definition hex_val (c : N) : option N :=
  if (48 <=? c) && (c <=? 57) then Some (c - 48)
  else if (65 <=? c) && (c <=? 70) then Some (c - 65 + 10)
  else if (97 <=? c) && (c <=? 102) then Some (c - 97 + 10)
  else None.

Fixpoint read_hex (cf : pcfg) (factors : list N) (code : N) (st : pst) : outcome (N * pst) :=
  match factors with
  | [] => Ret (code, st)
  | f :: fs =>
      let* st := read_next cf st in
      match hex_val (p_cur st) with
      | Some h => read_hex cf fs (code + N.shiftl h f) st
      | None => fail_code "'\u' must be followed by 4 hex digits, but got" (p_cur st)
      end
  end.

Definition read_escaped (cf : pcfg) (st : pst) : outcome (N * pst) :=
  read_hex cf [12; 8; 4; 0] 0 st.

(** json.hpp:423-448: \u with surrogate handling; [||] short-circuits. *)
Definition read_u (cf : pcfg) (st : pst) : outcome (N * pst) :=
  let* r := read_escaped cf st in
  let '(cp, st) := r in
  if is_lead_surrogate cp then
    let bad st := fail_code "lead surrogate must be followed by trail surrogate, but got" (p_cur st) in
    let* st := read_next cf st in
    if negb (p_cur st =? c_bslash) then bad st
    else
      let* st := read_next cf st in
      if negb (p_cur st =? c_u) then bad st
      else
        let* r := read_escaped cf st in
        let '(trail, st) := r in
        if negb (is_trail_surrogate trail)
        then fail_code "surrogate U+D800...U+DBFF must be followed by U+DC00...U+DFFF, but got" trail
        else Ret (decode_surrogates cp trail, st)
  else Ret (cp, st).

(** The simple escapes of json.hpp:397-421. *)
Definition simple_escape (c : N) : option N :=
  if c =? c_quote then Some c_quote
  else if c =? c_bslash then Some c_bslash
  else if c =? c_slash then Some c_slash
  else if c =? c_b then Some c_bs
  else if c =? c_f then Some c_ff
  else if c =? c_n then Some c_nl
  else if c =? c_r then Some c_cr
  else if c =? c_t then Some c_tab
  else None.

(** json.hpp:344-480.  [o] is the stream over the output string, so the
    first component is what the caller's string holds afterwards, also when
    an exception is thrown.  The assertion at 346 holds at both call sites
    (scan() has just returned value_string).
    When end of input or an error makes fail() throw, nothing after it in the
    switch is executed. *)
Fixpoint scan_string (cf : pcfg) (fuel : nat) (o : ostream) (st : pst)
  : ostream * outcome pst :=
  match fuel with
  | O => (o, OutOfFuel)
  | S f =>
      match read_next cf st with
      | Ret st =>
          let c := p_cur st in
          if is_eof (p_is st) then (o, fail "unexpected end of string")
          else if c =? c_quote then (o, read_next cf st)
          else if c <=? 31 then (o, fail_code "invalid control character" c)
          else if c =? c_bslash then
            match read_next cf st with
            | Ret st =>
                match simple_escape (p_cur st) with
                | Some e => scan_string cf f (os_put (tgt_ck cf) o e) st
                | None =>
                    if p_cur st =? c_u then
                      match read_u cf st with
                      | Ret (cp, st) =>
                          let o := encode (tgt_enc cf) (tgt_ck cf) o cp in
                          if os_fail o then (o, fail_code "encoding failed with codepoint" cp)
                          else scan_string cf f o st
                      | Throw e => (o, Throw e)
                      | Abort => (o, Abort)
                      | UB => (o, UB)
                      | OutOfFuel => (o, OutOfFuel)
                      end
                    else (o, fail_code "invalid escaped character" (p_cur st))
                end
            | Throw e => (o, Throw e)
            | Abort => (o, Abort)
            | UB => (o, UB)
            | OutOfFuel => (o, OutOfFuel)
            end
          else
            let o := encode (tgt_enc cf) (tgt_ck cf) o c in
            if os_fail o then (o, fail_code "encoding failed with codepoint" c)
            else scan_string cf f o st
      | Throw e => (o, Throw e)
      | Abort => (o, Abort)
      | UB => (o, UB)
      | OutOfFuel => (o, OutOfFuel)
      end
  end.

(** json.hpp:174-177 on an empty string *)
Definition get_string (cf : pcfg) (fuel : nat) (st : pst) : str * outcome pst :=
  let '(o, r) := scan_string cf fuel (mkOs [] false) st in (os_units o, r).

(** json.hpp:164-167.  number_integer_ is never INT64_MIN, so the negation
    cannot overflow; it is checked all the same. *)
Definition get_integer (st : pst) : outcome Z :=
  if p_neg st then chk64 (- p_int st)%Z else Ret (p_int st).
(** json.hpp:169-172 *)
Definition get_float (st : pst) : f64 :=
  if p_neg st then fopp (p_flt st) else p_flt st.

(** Turning an outcome-with-partial-value into another. *)
Definition stop {A B} (r : outcome A) : outcome B :=
  match r with
  | Ret _ => UB (* not used *)
  | Throw e => Throw e
  | Abort => Abort
  | UB => UB
  | OutOfFuel => OutOfFuel
  end.

(** details/parser.hpp:96-204.  The first component of each result is the
    content of the C++ object being filled, also on failure:
    - [do_parse] fills value [c];
    - [arr_loop] (137-167) extends the vector [l] and returns the last token;
    - [obj_loop] (174-195) extends the map [m] and returns the last token.
    [tok = None] stands for read_next = true. *)
Fixpoint do_parse (cf : pcfg) (fuel : nat) (c : value) (tok : option token) (st : pst)
  : value * outcome pst :=
  match fuel with
  | O => (c, OutOfFuel)
  | S f =>
      let r := match tok with None => scan cf fuel st | Some t => Ret (t, st) end in
      match r with
      | Ret (t, st) =>
          match t with
          | Ttrue => (VBool true, Ret st)
          | Tfalse => (VBool false, Ret st)
          | Tnull => (VNull, Ret st)
          | Tstring => let '(s, r) := get_string cf fuel st in (VStr s, r)
          | Tint =>
              match get_integer st with
              | Ret z => (VInt z, Ret st)
              | r => (VInt 0, stop r)
              end
          | Tfloat => (VFloat (get_float st), Ret st)
          | Tbegin_arr =>
              let '(l, r) := arr_loop cf f [] st in
              (VArr l,
               match r with
               | Ret (Tend_arr, st) => Ret st
               | Ret (t, _) => fail (expect_msg t Tend_arr)
               | r => stop r
               end)
          | Tbegin_obj =>
              let '(m, r) := obj_loop cf f [] st in
              (VObj m,
               match r with
               | Ret (Tend_obj, st) => Ret st
               | Ret (t, _) => fail (expect_msg t Tend_obj)
               | r => stop r
               end)
          | _ => (c, fail (token_msg "unexpected token" t))
          end
      | r => (c, stop r)
      end
  end
with arr_loop (cf : pcfg) (fuel : nat) (l : list value) (st : pst)
  : list value * outcome (token * pst) :=
  match fuel with
  | O => (l, OutOfFuel)
  | S f =>
      match scan cf fuel st with
      | Ret (t, st) =>
          if starts_value t then
            let '(v, r) := do_parse cf f VNull (Some t) st in
            match r with
            | Ret st =>
                match scan cf fuel st with
                | Ret (Tval_sep, st) => arr_loop cf f (l ++ [v]) st
                | Ret (t, st) => (l ++ [v], Ret (t, st))
                | r => (l ++ [v], stop r)
                end
            | r => (l ++ [v], stop r)
            end
          else (l, Ret (t, st))
      | r => (l, stop r)
      end
  end
with obj_loop (cf : pcfg) (fuel : nat) (m : list (str * value)) (st : pst)
  : list (str * value) * outcome (token * pst) :=
  match fuel with
  | O => (m, OutOfFuel)
  | S f =>
      match scan cf fuel st with
      | Ret (Tstring, st) =>
          let '(k, r) := get_string cf fuel st in
          match r with
          | Ret st =>
              match scan cf fuel st with
              | Ret (Tname_sep, st) =>
                  let '(v, r) := do_parse cf f VNull None st in
                  match r with
                  | Ret st =>
                      match scan cf fuel st with
                      | Ret (Tval_sep, st) => obj_loop cf f (obj_emplace k v m) st
                      | Ret (t, st) => (obj_emplace k v m, Ret (t, st))
                      | r => (obj_emplace k v m, stop r)
                      end
                  | r => (m, stop r)
                  end
              | Ret (t, st) => (m, Ret (t, st))
              | r => (m, stop r)
              end
          | r => (m, stop r)
          end
      | Ret (t, st) => (m, Ret (t, st))
      | r => (m, stop r)
      end
  end.

(** details/parser.hpp:55-62, the try block. *)
Definition parse_body (cf : pcfg) (fuel : nat) (c : value) (st : pst) : value * outcome unit :=
  let '(v, r) := do_parse cf fuel c None st in
  (v,
   let* st := r in
   let* r := scan cf fuel st in
   match fst r with
   | Teoi => Ret tt
   | _ => fail (token_msg "unexpected token" Teoi)
   end).

(** Error handlers (details/exception.hpp:99-155). *)
Inductive handler := HNone | HStrict | HIgnore | HRecord.

(** is the exception a configor_exception? *)
Definition is_configor_exn (e : exn) : bool :=
  match e with EOutOfRange _ | EAlloc => false | _ => true end.
(** what() (details/exception.hpp:33-97) *)
Definition exn_msg (e : exn) : string :=
  c_str match e with
  | EDeser m => "value deserialization error: " ++ m
  | ESer m => "value serialization error: " ++ m
  | EType m => "value type error: " ++ m
  | EKey m => "invalid value key error: " ++ m
  | EIter m => "invalid value iterator error: " ++ m
  | EOutOfRange m => m
  | EAlloc => "std::bad_alloc"
  end%string.

(** The catch clause of parser.hpp:63-69 / serializer.hpp:64-70 with the
    handler classes; the second component is the [error] member of the
    recording handler, initially empty. *)
Definition handle (h : handler) (r : outcome unit) : outcome unit * string :=
  match r with
  | Throw e =>
      match h with
      | HNone | HStrict => (Throw e, ""%string)
      | HIgnore => (Ret tt, ""%string)
      | HRecord => if is_configor_exn e then (Ret tt, exn_msg e) else (Throw e, ""%string)
      end
  | r => (r, ""%string)
  end.

(** json.hpp:133-140 and 157-162: initial state, first read_next outside the
    try block, then basic_parser::parse.  Results: the value left in [c], the
    outcome, and the recorded message. *)
Definition init_pst (b : ibuf) : pst := mkP (is_open b) 0 false 0%Z f64_zero.

Definition parse_ibuf (cf : pcfg) (h : handler) (fuel : nat) (c : value) (b : ibuf)
  : value * (outcome unit * string) :=
  match read_next cf (init_pst b) with
  | Ret st => let '(v, r) := parse_body cf fuel c st in (v, handle h r)
  | r => (c, (stop r, ""%string))
  end.

(** Enough recursion budget for a finite input (never exhausted, see
    PropParse.v): two levels per nesting bracket. *)
Definition fuel_for (l : list N) : nat := (2 * length l + 3)%nat.

(** json::parse(c, std::string) : details/parser.hpp:263-270 *)
Definition parse_into (cf : pcfg) (h : handler) (c : value) (s : str)
  : value * (outcome unit * string) :=
  parse_ibuf cf h (fuel_for s) c (IStr s).

(** json::parse(std::string) : details/parser.hpp:272-279 and 253-260 *)
Definition parse_string (cf : pcfg) (s : str) : outcome value :=
  let '(v, (r, _)) := parse_into cf HNone VNull s in
  let* _ := r in Ret v.

(** json::parse(const char* ) : details/parser.hpp:291-297 with the length
    computed at stream.hpp:301. *)
Fixpoint until_nul (s : str) : str :=
  match s with
  | [] => []
  | c :: s' => if c =? 0 then [] else c :: until_nul s'
  end.
Definition parse_cstring (cf : pcfg) (s : str) : outcome value := parse_string cf (until_nul s).

(** The default configurations: json (char, UTF-8) and wjson (32-bit wchar_t). *)
Definition cfg_json : pcfg := mkCfg C8 Utf8 C8 Utf8 false.
Definition cfg_wjson : pcfg := mkCfg C32 Utf32 C32 Utf32 false.
