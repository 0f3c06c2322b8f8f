(** The parser for other number types than int64_t and double: the template
    arguments integer_type and float_type of basic_value
    (details/value.hpp:40-66).  The functions of json.hpp:164-172 and 482-599
    and of details/parser.hpp:96-204 again (see Parser.v), with the arithmetic
    as a parameter. *)
From Coq Require Import Floats.SpecFloat.
From Verif Require Import Base Stream Encoding Value Token Message Parser.
Open Scope N_scope.

(** An integer type and a float type with the operations the parser uses. *)
Record numty := mkNum {
  nI : Type;
  nF : Type;
  i_of : N -> nI;                     (* static_cast<integer_type>(uint32_t) *)
  i_step : nI -> N -> outcome nI;     (* n * 10 + static_cast<integer_type>(uint32_t), assigned to n *)
  i_neg : nI -> outcome nI;           (* -n, assigned to an integer_type *)
  f_of : nI -> nF;                    (* static_cast<float_type>(integer_type) *)
  f_dig : N -> nF;                    (* static_cast<float_type>(uint32_t) *)
  f_tenth : nF;                       (* static_cast<float_type>(0.1) *)
  f_ten : nF;
  f_one : nF;
  f_zero : nF;
  f_add : nF -> nF -> nF;
  f_mul : nF -> nF -> nF;
  f_neg : nF -> nF
}.

(** basic_value with these types; objects are std::map *)
Inductive gval (I F : Type) :=
| GNull
| GBool (b : bool)
| GInt (i : I)
| GFloat (f : F)
| GStr (s : str)
| GArr (l : list (gval I F))
| GObj (m : list (str * gval I F)).
Arguments GNull {I F}.
Arguments GBool {I F}.
Arguments GInt {I F}.
Arguments GFloat {I F}.
Arguments GStr {I F}.
Arguments GArr {I F}.
Arguments GObj {I F}.

(** The members of the parser: the stream and the current character (the
    number fields of [pst] are not used), and the numbers. *)
Record nst (T : numty) := mkN { n_p : pst; n_neg : bool; n_int : nI T; n_flt : nF T }.
Arguments mkN {T}.
Arguments n_p {T}.
Arguments n_neg {T}.
Arguments n_int {T}.
Arguments n_flt {T}.

Section Parse.
Variable T : numty.
Variable cf : pcfg.

Definition with_p (s : nst T) (p : pst) : nst T := mkN p (n_neg s) (n_int s) (n_flt s).
Definition with_neg (s : nst T) (b : bool) : nst T := mkN (n_p s) b (n_int s) (n_flt s).
Definition with_int (s : nst T) (i : nI T) : nst T := mkN (n_p s) (n_neg s) i (n_flt s).
Definition with_flt (s : nst T) (f : nF T) : nst T := mkN (n_p s) (n_neg s) (n_int s) f.

Definition n_next (s : nst T) : outcome (nst T) := let* p := read_next cf (n_p s) in Ret (with_p s p).
Definition n_cur (s : nst T) : N := p_cur (n_p s).

(** json.hpp:590-593 *)
Fixpoint n_pow_loop (base power : nF T) (e : positive) : nF T :=
  match e with
  | xH => f_mul T power base
  | xO e' => n_pow_loop (f_mul T base base) power e'
  | xI e' => n_pow_loop (f_mul T base base) (f_mul T power base) e'
  end.
Definition n_power (base : nF T) (e : N) : nF T :=
  match e with N0 => f_one T | Npos p => n_pow_loop base (f_one T) p end.

(** json.hpp:563-599; the digits of the exponent are those of Parser.v *)
Definition n_exponent (fuel : nat) (s : nst T) : outcome (token * nst T) :=
  let* s := n_next s in
  let c := n_cur s in
  if negb ((is_digit cf c && negb (c =? c_0)) || (c =? c_minus) || (c =? c_plus))
  then fail_code "invalid exponent number, got" c
  else
    let base := if c =? c_minus then f_tenth T else f_ten T in
    let* s := if (c =? c_plus) || (c =? c_minus) then n_next s else Ret s in
    let* r := exp_digits cf fuel (u32_sub (n_cur s) 48) (n_p s) in
    let '(ex, p) := r in
    Ret (Tfloat, with_flt (with_p s p) (f_mul T (n_flt s) (n_power base ex))).

(** json.hpp:546-559 *)
Fixpoint n_frac (fuel : nat) (fraction : nF T) (s : nst T) : outcome (token * nst T) :=
  match fuel with
  | O => OutOfFuel
  | S f =>
      let* s := n_next s in
      let c := n_cur s in
      if (c =? c_e) || (c =? c_E) then n_exponent (S f) s
      else if is_digit cf c then
        let fraction := f_mul T fraction (f_tenth T) in
        n_frac f fraction (with_flt s (f_add T (n_flt s) (f_mul T (f_dig T (u32_sub c 48)) fraction)))
      else Ret (Tfloat, s)
  end.

(** json.hpp:529-561 *)
Definition n_float (fuel : nat) (s : nst T) : outcome (token * nst T) :=
  let s := with_flt s (f_of T (n_int s)) in
  if (n_cur s =? c_e) || (n_cur s =? c_E) then n_exponent fuel s
  else
    let* s := n_next s in
    if negb (is_digit cf (n_cur s)) then fail_code "invalid float number, got" (n_cur s)
    else n_frac fuel (f_tenth T) (with_flt s (f_add T (n_flt s) (f_mul T (f_dig T (u32_sub (n_cur s) 48)) (f_tenth T)))).

(** json.hpp:515-525 *)
Fixpoint n_digits (fuel : nat) (s : nst T) : outcome (token * nst T) :=
  match fuel with
  | O => OutOfFuel
  | S f =>
      let* s := n_next s in
      let c := n_cur s in
      if (c =? c_dot) || (c =? c_e) || (c =? c_E) then n_float (S f) s
      else if is_digit cf c then
        let* i := i_step T (n_int s) (u32_sub c 48) in
        n_digits f (with_int s i)
      else Ret (Tint, s)
  end.

(** json.hpp:508-527 *)
Definition n_integer (fuel : nat) (s : nst T) : outcome (token * nst T) :=
  if negb (ndebug cf) && negb (is_digit cf (n_cur s)) then Abort
  else n_digits fuel (with_int s (i_of T (u32_sub (n_cur s) 48))).

(** json.hpp:482-506 *)
Definition n_number (fuel : nat) (s : nst T) : outcome (token * nst T) :=
  let s := with_int (with_neg s false) (i_of T 0) in
  let* s :=
    if (n_cur s =? c_minus) || (n_cur s =? c_plus)
    then n_next (with_neg s (n_cur s =? c_minus))
    else Ret s in
  if n_cur s =? c_0 then
    let* s := n_next s in
    if n_cur s =? c_dot then n_float fuel s
    else if (n_cur s =? c_e) || (n_cur s =? c_E) then fail "invalid exponent"
    else Ret (Tint, s)
  else n_integer fuel s.

(** json.hpp:179-245 *)
Definition n_scan (fuel : nat) (s : nst T) : outcome (token * nst T) :=
  let* p := skip_spaces cf fuel (n_p s) in
  let s := with_p s p in
  if is_eof (p_is p) then Ret (Teoi, s)
  else
    let c := p_cur p in
    let lit r := let* r := r in Ret (fst r, with_p s (snd r)) in
    match punct c with
    | Some t => let* p := read_next cf p in Ret (t, with_p s p)
    | None =>
        if c =? c_t then lit (scan_literal cf lit_true lit_true Ttrue p)
        else if c =? c_f then lit (scan_literal cf lit_false lit_false Tfalse p)
        else if c =? c_n then lit (scan_literal cf lit_null lit_null Tnull p)
        else if c =? c_quote then Ret (Tstring, s)
        else if (c =? c_minus) || (c =? c_plus) || ((48 <=? c) && (c <=? 57))
        then n_number fuel s
        else if c =? 0 then Ret (Teoi, s)
        else fail_code "unexpected character" c
    end.

(** json.hpp:164-172 *)
Definition n_get_int (s : nst T) : outcome (nI T) := if n_neg s then i_neg T (n_int s) else Ret (n_int s).
Definition n_get_flt (s : nst T) : nF T := if n_neg s then f_neg T (n_flt s) else n_flt s.
Definition n_get_str (fuel : nat) (s : nst T) : str * outcome (nst T) :=
  let '(x, r) := get_string cf fuel (n_p s) in (x, let* p := r in Ret (with_p s p)).

(** details/parser.hpp:96-204 *)
Fixpoint n_parse (fuel : nat) (c : gval (nI T) (nF T)) (tok : option token) (s : nst T) : gval (nI T) (nF T) * outcome (nst T) :=
  match fuel with
  | O => (c, OutOfFuel)
  | S f =>
      let r := match tok with None => n_scan fuel s | Some t => Ret (t, s) end in
      match r with
      | Ret (t, s) =>
          match t with
          | Ttrue => (GBool true, Ret s)
          | Tfalse => (GBool false, Ret s)
          | Tnull => (GNull, Ret s)
          | Tstring => let '(x, r) := n_get_str fuel s in (GStr x, r)
          | Tint =>
              match n_get_int s with
              | Ret i => (GInt i, Ret s)
              | r => (GInt (i_of T 0), stop r)
              end
          | Tfloat => (GFloat (n_get_flt s), Ret s)
          | Tbegin_arr =>
              let '(l, r) := n_arr f [] s in
              (GArr l,
               match r with
               | Ret (Tend_arr, s) => Ret s
               | Ret (t, _) => fail (expect_msg t Tend_arr)
               | r => stop r
               end)
          | Tbegin_obj =>
              let '(m, r) := n_obj f [] s in
              (GObj m,
               match r with
               | Ret (Tend_obj, s) => Ret s
               | Ret (t, _) => fail (expect_msg t Tend_obj)
               | r => stop r
               end)
          | _ => (c, fail (token_msg "unexpected token" t))
          end
      | r => (c, stop r)
      end
  end
with n_arr (fuel : nat) (l : list (gval (nI T) (nF T))) (s : nst T) : list (gval (nI T) (nF T)) * outcome (token * nst T) :=
  match fuel with
  | O => (l, OutOfFuel)
  | S f =>
      match n_scan fuel s with
      | Ret (t, s) =>
          if starts_value t then
            let '(v, r) := n_parse f GNull (Some t) s in
            match r with
            | Ret s =>
                match n_scan fuel s with
                | Ret (Tval_sep, s) => n_arr f (l ++ [v]) s
                | Ret (t, s) => (l ++ [v], Ret (t, s))
                | r => (l ++ [v], stop r)
                end
            | r => (l ++ [v], stop r)
            end
          else (l, Ret (t, s))
      | r => (l, stop r)
      end
  end
with n_obj (fuel : nat) (m : list (str * gval (nI T) (nF T))) (s : nst T)
  : list (str * gval (nI T) (nF T)) * outcome (token * nst T) :=
  match fuel with
  | O => (m, OutOfFuel)
  | S f =>
      match n_scan fuel s with
      | Ret (Tstring, s) =>
          let '(k, r) := n_get_str fuel s in
          match r with
          | Ret s =>
              match n_scan fuel s with
              | Ret (Tname_sep, s) =>
                  let '(v, r) := n_parse f GNull None s in
                  match r with
                  | Ret s =>
                      match n_scan fuel s with
                      | Ret (Tval_sep, s) => n_obj f (obj_emplace k v m) s
                      | Ret (t, s) => (obj_emplace k v m, Ret (t, s))
                      | r => (obj_emplace k v m, stop r)
                      end
                  | r => (m, stop r)
                  end
              | Ret (t, s) => (m, Ret (t, s))
              | r => (m, stop r)
              end
          | r => (m, stop r)
          end
      | Ret (t, s) => (m, Ret (t, s))
      | r => (m, stop r)
      end
  end.

(** details/parser.hpp:55-62 *)
Definition n_body (fuel : nat) (c : gval (nI T) (nF T)) (s : nst T) : gval (nI T) (nF T) * outcome unit :=
  let '(v, r) := n_parse fuel c None s in
  (v,
   let* s := r in
   let* r := n_scan fuel s in
   match fst r with
   | Teoi => Ret tt
   | _ => fail (token_msg "unexpected token" Teoi)
   end).

(** json.hpp:143-162 *)
Definition n_init (b : ibuf) : nst T := mkN (init_pst b) false (i_of T 0) (f_zero T).

Definition n_parse_ibuf (h : handler) (fuel : nat) (c : gval (nI T) (nF T)) (b : ibuf)
  : gval (nI T) (nF T) * (outcome unit * string) :=
  match n_next (n_init b) with
  | Ret s => let '(v, r) := n_body fuel c s in (v, handle h r)
  | r => (c, (stop r, ""%string))
  end.

(** details/parser.hpp:272-279 *)
Definition n_parse_string (s : str) : outcome (gval (nI T) (nF T)) :=
  let '(v, (r, _)) := n_parse_ibuf HNone (fuel_for s) GNull (IStr s) in
  let* _ := r in Ret v.
End Parse.

(** ** Integer types *)
Record ity := mkIty { t_signed : bool; t_bits : N }.
Definition t_int8 := mkIty true 8.
Definition t_uint8 := mkIty false 8.
Definition t_int16 := mkIty true 16.
Definition t_uint16 := mkIty false 16.
Definition t_int32 := mkIty true 32.
Definition t_uint32 := mkIty false 32.
Definition t_int64 := mkIty true 64.
Definition t_uint64 := mkIty false 64.

Definition t_mod (t : ity) : Z := 2 ^ Z.of_N (t_bits t).
Definition t_max (t : ity) : Z := if t_signed t then t_mod t / 2 - 1 else t_mod t - 1.
Definition t_min (t : ity) : Z := if t_signed t then - (t_mod t / 2) else 0.

(** conversion to the type (modular; implementation-defined before C++20 for
    signed types, and so in every compiler supported) *)
Definition t_wrap (t : ity) (z : Z) : Z :=
  let r := (z mod t_mod t)%Z in if (r <=? t_max t)%Z then r else (r - t_mod t)%Z.

(** The result of one operation, converted back to the type.  Types below 32
    bits are computed in int, where nothing here overflows; unsigned types
    wrap; signed ones must not overflow. *)
Definition t_arith (t : ity) (z : Z) : outcome Z :=
  if t_signed t && (32 <=? t_bits t)
  then if (t_min t <=? z)%Z && (z <=? t_max t)%Z then Ret z else UB
  else Ret (t_wrap t z).

(** Below 32 bits the two operations are done in int and converted once, which
    comes to the same. *)
Definition t_step (t : ity) (n : Z) (d : N) : outcome Z :=
  let* a := t_arith t (n * 10) in t_arith t (a + t_wrap t (Z.of_N d)).
Definition t_neg (t : ity) (n : Z) : outcome Z := t_arith t (- n).

(** with double as float_type *)
Definition num_of (t : ity) : numty :=
  mkNum Z f64 (fun d => t_wrap t (Z.of_N d)) (t_step t) (t_neg t)
    f64_of_Z (fun d => f64_of_Z (Z.of_N d)) f64_tenth (f64_of_Z 10) (f64_of_Z 1) f64_zero fadd fmul fopp.
