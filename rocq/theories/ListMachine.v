(** The parser restated on the list of code points left to read.

    This is a proof device, not part of the model: each function mirrors one
    of Parser.v but works on a list whose head is the current character ([]
    is end of input) and a flag [t] telling whether reading past the last code
    point is a clean end or a decoding error.  Simulation.v proves that the
    model computes exactly this on every stream that feeds that list. *)
From Verif Require Import Base Stream Encoding Value Token Message Parser Feeds.

Definition hd0 (l : list N) : N := hd 0 l.

(** reading on when [l] is what remains *)
Definition guard {A} (t : term) (l : list N) (k : outcome A) : outcome A :=
  match l, t with
  | [], TBad c => fail_code "decoding failed with codepoint" c
  | _, _ => k
  end.

Inductive smode := MWs | MLine | MBlock.

Definition is_nl (c : N) : bool := (c =? c_nl) || (c =? c_cr).

Fixpoint a_skip (m : smode) (t : term) (l : list N) : outcome (list N) :=
  match l with
  | [] => match m with
          | MBlock => fail "unexpected eof while reading comment"
          | _ => Ret []
          end
  | c :: l1 =>
      match m with
      | MWs =>
          if is_space c then guard t l1 (a_skip MWs t l1)
          else if c =? c_slash then
            guard t l1
              (match l1 with
               | [] => fail "unexpected character '/'"
               | c1 :: _ =>
                   if c1 =? c_slash then a_skip MLine t l1
                   else if c1 =? c_star then a_skip MBlock t l1
                   else fail "unexpected character '/'"
               end)
          else Ret l
      | MLine =>
          guard t l1
            (match l1 with
             | [] => Ret []
             | c1 :: _ => if is_nl c1 then a_skip MWs t l1 else a_skip MLine t l1
             end)
      | MBlock =>
          guard t l1
            (match l1 with
             | [] => fail "unexpected eof while reading comment"
             | c1 :: l2 =>
                 if c1 =? c_star then
                   guard t l2
                     (match l2 with
                      | [] => fail "unexpected eof while reading comment"
                      | c2 :: l3 =>
                          if c2 =? c_slash then guard t l3 (a_skip MWs t l3)
                          else a_skip MBlock t l2
                      end)
                 else a_skip MBlock t l1
             end)
      end
  end.

Fixpoint a_literal (cf : pcfg) (t : term) (whole text : list N) (l : list N) : outcome (list N) :=
  match text with
  | [] => Ret l
  | c :: text' =>
      if c =? narrow (src_ck cf) (hd0 l)
      then guard t (tl l) (a_literal cf t whole text' (tl l))
      else fail (literal_msg (hd0 l) whole)
  end.

Fixpoint a_expd (cf : pcfg) (t : term) (ex : N) (l : list N) : outcome (N * list N) :=
  match l with
  | [] => Ret (ex, [])
  | _ :: l1 =>
      guard t l1
        (if is_digit cf (hd0 l1)
         then a_expd cf t (u32 (u32 (ex * 10) + u32_sub (hd0 l1) 48)) l1
         else Ret (ex, l1))
  end.

Definition a_exponent (cf : pcfg) (t : term) (f : f64) (l : list N) : outcome (f64 * list N) :=
  let l1 := tl l in
  guard t l1
    (let c := hd0 l1 in
     if negb ((is_digit cf c && negb (c =? c_0)) || (c =? c_minus) || (c =? c_plus))
     then fail_code "invalid exponent number, got" c
     else
       let base := if c =? c_minus then f64_tenth else f64_of_Z 10 in
       let l2 := if (c =? c_plus) || (c =? c_minus) then tl l1 else l1 in
       guard t l2
         (let* r := a_expd cf t (u32_sub (hd0 l2) 48) l2 in
          Ret (fmul f (power_of base (fst r)), snd r))).

Fixpoint a_frac (cf : pcfg) (t : term) (fraction f : f64) (l : list N) : outcome (f64 * list N) :=
  match l with
  | [] => Ret (f, [])
  | _ :: l1 =>
      guard t l1
        (let c := hd0 l1 in
         if (c =? c_e) || (c =? c_E) then a_exponent cf t f l1
         else if is_digit cf c then
           let fraction := fmul fraction f64_tenth in
           a_frac cf t fraction (fadd f (fmul (f64_of_Z (Z.of_N (u32_sub c 48))) fraction)) l1
         else Ret (f, l1))
  end.

Definition a_float (cf : pcfg) (t : term) (z : Z) (l : list N) : outcome (f64 * list N) :=
  let f := f64_of_Z z in
  if (hd0 l =? c_e) || (hd0 l =? c_E) then a_exponent cf t f l
  else
    let l1 := tl l in
    guard t l1
      (if negb (is_digit cf (hd0 l1)) then fail_code "invalid float number, got" (hd0 l1)
       else a_frac cf t f64_tenth
              (fadd f (fmul (f64_of_Z (Z.of_N (u32_sub (hd0 l1) 48))) f64_tenth)) l1).

Inductive num := NI (z : Z) | NF (f : f64).

Definition a_float_num (cf : pcfg) (t : term) (z : Z) (l : list N) : outcome (num * list N) :=
  let* r := a_float cf t z l in Ret (NF (fst r), snd r).

Fixpoint a_intd (cf : pcfg) (t : term) (z : Z) (l : list N) : outcome (num * list N) :=
  match l with
  | [] => Ret (NI z, [])
  | _ :: l1 =>
      guard t l1
        (let c := hd0 l1 in
         if (c =? c_dot) || (c =? c_e) || (c =? c_E) then a_float_num cf t z l1
         else if is_digit cf c then
           let* z := chk64 (z * 10)%Z in
           let* z := chk64 (z + Z.of_N (u32_sub c 48))%Z in
           a_intd cf t z l1
         else Ret (NI z, l1))
  end.

Definition a_integer (cf : pcfg) (t : term) (l : list N) : outcome (num * list N) :=
  if negb (ndebug cf) && negb (is_digit cf (hd0 l)) then Abort
  else a_intd cf t (Z.of_N (u32_sub (hd0 l) 48)) l.

(** number after the sign *)
Definition a_unsigned (cf : pcfg) (t : term) (l : list N) : outcome (num * list N) :=
  if hd0 l =? c_0 then
    let l1 := tl l in
    guard t l1
      (if hd0 l1 =? c_dot then a_float_num cf t 0%Z l1
       else if (hd0 l1 =? c_e) || (hd0 l1 =? c_E) then fail "invalid exponent"
       else Ret (NI 0%Z, l1))
  else a_integer cf t l.

Inductive atok := AT (k : token) | AInt (z : Z) | AFlt (f : f64).
Definition tok_of (k : atok) : token :=
  match k with AT k => k | AInt _ => Tint | AFlt _ => Tfloat end.

Definition signed (neg : bool) (n : num) : atok :=
  match n with
  | NI z => AInt (if neg then - z else z)%Z
  | NF f => AFlt (if neg then fopp f else f)
  end.

Definition a_number (cf : pcfg) (t : term) (l : list N) : outcome (atok * list N) :=
  let c := hd0 l in
  let s := (c =? c_minus) || (c =? c_plus) in
  let l1 := if s then tl l else l in
  guard t l1
    (let* r := a_unsigned cf t l1 in Ret (signed (c =? c_minus) (fst r), snd r)).

Definition a_scan_tok (cf : pcfg) (t : term) (l : list N) : outcome (atok * list N) :=
  match l with
  | [] => Ret (AT Teoi, [])
  | c :: l1 =>
      match punct c with
      | Some k => guard t l1 (Ret (AT k, l1))
      | None =>
          if c =? c_t then let* r := a_literal cf t lit_true lit_true l in Ret (AT Ttrue, r)
          else if c =? c_f then let* r := a_literal cf t lit_false lit_false l in Ret (AT Tfalse, r)
          else if c =? c_n then let* r := a_literal cf t lit_null lit_null l in Ret (AT Tnull, r)
          else if c =? c_quote then Ret (AT Tstring, l)
          else if (c =? c_minus) || (c =? c_plus) || ((48 <=? c) && (c <=? 57))
          then a_number cf t l
          else if c =? 0 then Ret (AT Teoi, l)
          else fail_code "unexpected character" c
      end
  end.

Definition a_scan (cf : pcfg) (t : term) (l : list N) : outcome (atok * list N) :=
  let* l := a_skip MWs t l in a_scan_tok cf t l.

Fixpoint a_hex (t : term) (factors : list N) (code : N) (l : list N) : outcome (N * list N) :=
  match factors with
  | [] => Ret (code, l)
  | f :: fs =>
      guard t (tl l)
        (match hex_val (hd0 (tl l)) with
         | Some h => a_hex t fs (code + N.shiftl h f) (tl l)
         | None => fail_code "'\u' must be followed by 4 hex digits, but got" (hd0 (tl l))
         end)
  end.

Definition a_hex4 (t : term) (l : list N) : outcome (N * list N) := a_hex t [12; 8; 4; 0] 0 l.

Definition a_u (t : term) (l : list N) : outcome (N * list N) :=
  let* r := a_hex4 t l in
  let '(cp, l) := r in
  if is_lead_surrogate cp then
    let bad l := fail_code "lead surrogate must be followed by trail surrogate, but got" (hd0 l) in
    guard t (tl l)
      (if negb (hd0 (tl l) =? c_bslash) then bad (tl l)
       else
         guard t (tl (tl l))
           (if negb (hd0 (tl (tl l)) =? c_u) then bad (tl (tl l))
            else
              let* r := a_hex4 t (tl (tl l)) in
              let '(trail, l) := r in
              if negb (is_trail_surrogate trail)
              then fail_code "surrogate U+D800...U+DBFF must be followed by U+DC00...U+DFFF, but got" trail
              else Ret (decode_surrogates cp trail, l)))
  else Ret (cp, l).

Definition bad_code (t : term) : N := match t with TBad c => c | TEof => 0 end.
Definition dec_err {A} (t : term) : outcome A := fail_code "decoding failed with codepoint" (bad_code t).

Definition at_bad (t : term) (l : list N) : bool :=
  match l, t with [], TBad _ => true | _, _ => false end.

Fixpoint a_string (cf : pcfg) (t : term) (n : nat) (o : ostream) (l : list N)
  : ostream * outcome (list N) :=
  match n with
  | O => (o, OutOfFuel)
  | S n' =>
      match tl l with
      | [] => (o, guard t [] (fail "unexpected end of string"))
      | c :: l2 =>
          if c =? c_quote then (o, guard t l2 (Ret l2))
          else if c <=? 31 then (o, fail_code "invalid control character" c)
          else if c =? c_bslash then
            if at_bad t l2 then (o, dec_err t)
            else
              match simple_escape (hd0 l2) with
              | Some e => a_string cf t n' (os_put (tgt_ck cf) o e) l2
              | None =>
                  if hd0 l2 =? c_u then
                    match a_u t l2 with
                    | Ret (cp, l3) =>
                        let o := encode (tgt_enc cf) (tgt_ck cf) o cp in
                        if os_fail o then (o, fail_code "encoding failed with codepoint" cp)
                        else a_string cf t n' o l3
                    | r => (o, stop r)
                    end
                  else (o, fail_code "invalid escaped character" (hd0 l2))
              end
          else
            let o := encode (tgt_enc cf) (tgt_ck cf) o c in
            if os_fail o then (o, fail_code "encoding failed with codepoint" c)
            else a_string cf t n' o (c :: l2)
      end
  end.

Definition a_get_string (cf : pcfg) (t : term) (n : nat) (l : list N) : str * outcome (list N) :=
  let '(o, r) := a_string cf t n (mkOs [] false) l in (os_units o, r).

Definition a_starts (k : atok) : bool :=
  match k with AT k => starts_value k | _ => true end.

Fixpoint a_parse (cf : pcfg) (t : term) (n : nat) (c : value) (tok : option atok) (l : list N)
  : value * outcome (list N) :=
  match n with
  | O => (c, OutOfFuel)
  | S f =>
      let r := match tok with None => a_scan cf t l | Some k => Ret (k, l) end in
      match r with
      | Ret (k, l) =>
          match k with
          | AT Ttrue => (VBool true, Ret l)
          | AT Tfalse => (VBool false, Ret l)
          | AT Tnull => (VNull, Ret l)
          | AT Tstring => let '(s, r) := a_get_string cf t n l in (VStr s, r)
          | AInt z => (VInt z, Ret l)
          | AFlt x => (VFloat x, Ret l)
          | AT Tbegin_arr =>
              let '(vs, r) := a_arr cf t f [] l in
              (VArr vs,
               match r with
               | Ret (AT Tend_arr, l) => Ret l
               | Ret (k, _) => fail (expect_msg (tok_of k) Tend_arr)
               | r => stop r
               end)
          | AT Tbegin_obj =>
              let '(m, r) := a_obj cf t f [] l in
              (VObj m,
               match r with
               | Ret (AT Tend_obj, l) => Ret l
               | Ret (k, _) => fail (expect_msg (tok_of k) Tend_obj)
               | r => stop r
               end)
          | _ => (c, fail (token_msg "unexpected token" (tok_of k)))
          end
      | r => (c, stop r)
      end
  end
with a_arr (cf : pcfg) (t : term) (n : nat) (vs : list value) (l : list N)
  : list value * outcome (atok * list N) :=
  match n with
  | O => (vs, OutOfFuel)
  | S f =>
      match a_scan cf t l with
      | Ret (k, l) =>
          if a_starts k then
            let '(v, r) := a_parse cf t f VNull (Some k) l in
            match r with
            | Ret l =>
                match a_scan cf t l with
                | Ret (AT Tval_sep, l) => a_arr cf t f (vs ++ [v]) l
                | Ret (k, l) => (vs ++ [v], Ret (k, l))
                | r => (vs ++ [v], stop r)
                end
            | r => (vs ++ [v], stop r)
            end
          else (vs, Ret (k, l))
      | r => (vs, stop r)
      end
  end
with a_obj (cf : pcfg) (t : term) (n : nat) (m : list (str * value)) (l : list N)
  : list (str * value) * outcome (atok * list N) :=
  match n with
  | O => (m, OutOfFuel)
  | S f =>
      match a_scan cf t l with
      | Ret (AT Tstring, l) =>
          let '(k, r) := a_get_string cf t n l in
          match r with
          | Ret l =>
              match a_scan cf t l with
              | Ret (AT Tname_sep, l) =>
                  let '(v, r) := a_parse cf t f VNull None l in
                  match r with
                  | Ret l =>
                      match a_scan cf t l with
                      | Ret (AT Tval_sep, l) => a_obj cf t f (obj_emplace k v m) l
                      | Ret (x, l) => (obj_emplace k v m, Ret (x, l))
                      | r => (obj_emplace k v m, stop r)
                      end
                  | r => (m, stop r)
                  end
              | Ret (x, l) => (m, Ret (x, l))
              | r => (m, stop r)
              end
          | r => (m, stop r)
          end
      | Ret (x, l) => (m, Ret (x, l))
      | r => (m, stop r)
      end
  end.

(** details/parser.hpp:55-62 on lists *)
Definition a_body (cf : pcfg) (t : term) (n : nat) (c : value) (l : list N) : value * outcome unit :=
  let '(v, r) := a_parse cf t n c None l in
  (v,
   let* l := r in
   let* r := a_scan cf t l in
   match fst r with
   | AT Teoi => Ret tt
   | _ => fail (token_msg "unexpected token" Teoi)
   end).

(** json.hpp:157-162 on lists *)
Definition a_top (cf : pcfg) (t : term) (h : handler) (n : nat) (c : value) (l : list N)
  : value * (outcome unit * string) :=
  if at_bad t l then (c, (dec_err t, ""%string))
  else let '(v, r) := a_body cf t n c l in (v, handle h r).
