(** Decimal text of integers and doubles, as produced by
    std::basic_ostream::operator<< for int64_t and double in the classic
    numeric locale (details/serializer.hpp:53-54 imbues it).  This models the
    C++ standard library ([facet.num.put.virtuals]) and C printf's %f, %e and
    %g, which configor calls at json.hpp:858-874. *)
From Coq Require Import Floats.SpecFloat.
From Verif Require Import Base Value.

(** Decimal digits of n, most significant first. *)
Fixpoint dec_digits_aux (fuel : nat) (n : N) (acc : list N) : list N :=
  match fuel with
  | O => (48 + n) :: acc
  | S f => if n <? 10 then (48 + n) :: acc
           else dec_digits_aux f (n / 10) ((48 + n mod 10) :: acc)
  end.
Definition dec_digits (n : N) : list N := dec_digits_aux (N.to_nat (N.size n)) n [].

(** os << int64_t *)
Definition dec_of_Z (z : Z) : list N :=
  if (z <? 0)%Z then c_minus :: dec_digits (Z.to_N (- z)) else dec_digits (Z.to_N z).

(** Uppercase hexadecimal digits, most significant first. *)
Definition hex_digit (d : N) : N := if d <? 10 then 48 + d else 55 + d.
Fixpoint hex_digits_aux (fuel : nat) (n : N) (acc : list N) : list N :=
  match fuel with
  | O => hex_digit n :: acc
  | S f => if n <? 16 then hex_digit n :: acc
           else hex_digits_aux f (n / 16) (hex_digit (n mod 16) :: acc)
  end.
Definition hex_digits (n : N) : list N := hex_digits_aux (N.to_nat (N.size n)) n [].

Definition pad_left (w : nat) (c : N) (l : list N) : list N :=
  repeat c (w - length l) ++ l.

(** json.hpp:76-89: "\u" and the number in upper-case hex, padded with '0' to
    setw(sizeof(i.i)), that is width 2 for uint16_t and 4 for uint32_t. *)
Definition json_hex (width : nat) (i : N) : list N :=
  c_bslash :: c_u :: pad_left width c_0 (hex_digits i).

(** Rounding of the non-negative rational p/q to an integer, half to even. *)
Definition div_round (p q : N) : N :=
  let d := p / q in
  let r := p mod q in
  match N.compare (2 * r) q with
  | Lt => d
  | Gt => d + 1
  | Eq => if N.even d then d else d + 1
  end.

(** round(m * 2^e * 10^k) *)
Definition scaled (m : N) (e k : Z) : N :=
  let p := m * 2 ^ Z.to_N e * 10 ^ Z.to_N k in
  let q := 2 ^ Z.to_N (- e) * 10 ^ Z.to_N (- k) in
  div_round p q.

(** floor(log10(m * 2^e)), m > 0, searched downwards from an upper bound;
    the budget covers the exponent range of binary64. *)
Fixpoint find_exp10 (fuel : nat) (m : N) (e x : Z) : Z :=
  match fuel with
  | O => x
  | S f =>
      let p := m * 2 ^ Z.to_N e * 10 ^ Z.to_N (- x) in
      let q := 2 ^ Z.to_N (- e) * 10 ^ Z.to_N x in
      if q <=? p then x else find_exp10 f m e (x - 1)
  end.
Definition exp10 (m : N) (e : Z) : Z :=
  let bits := (Z.of_N (N.size m) + e)%Z in
  (* m*2^e < 2^bits; start at or above the decimal exponent *)
  let start := (if 0 <=? bits then bits * 31 / 100 + 1 else bits * 30 / 100 + 1)%Z in
  find_exp10 64 m e start.

(** Insert the decimal point before the last [p] digits. *)
Definition with_point (p : nat) (l : list N) : list N :=
  let l := pad_left (S p) c_0 l in
  let k := (length l - p)%nat in
  match p with
  | O => l
  | _ => firstn k l ++ c_dot :: skipn k l
  end.

(** %.{p}f *)
Definition fmt_f (p : nat) (m : N) (e : Z) : list N :=
  with_point p (dec_digits (scaled m e (Z.of_nat p))).

(** exponent part e+XX / e-XX *)
Definition fmt_exp (x : Z) : list N :=
  c_e :: (if (x <? 0)%Z then c_minus else c_plus) ::
  pad_left 2 c_0 (dec_digits (Z.to_N (Z.abs x))).

(** significand digits (p+1 of them) and decimal exponent of %.{p}e *)
Definition sci (p : nat) (m : N) (e : Z) : N * Z :=
  let x := exp10 m e in
  let r := scaled m e (Z.of_nat p - x) in
  if 10 ^ N.of_nat (S p) <=? r then (scaled m e (Z.of_nat p - (x + 1)), (x + 1)%Z) else (r, x).

(** %.{p}e *)
Definition fmt_e (p : nat) (m : N) (e : Z) : list N :=
  let '(r, x) := sci p m e in
  with_point p (dec_digits r) ++ fmt_exp x.

(** trailing zeros of the fraction, and a then trailing point, removed *)
Fixpoint strip_zeros (l : list N) : list N := (* on the reversed text *)
  match l with
  | c :: l' => if c =? c_0 then strip_zeros l' else if c =? c_dot then l' else l
  | [] => []
  end.
Definition strip (l : list N) : list N :=
  if existsb (N.eqb c_dot) l then rev (strip_zeros (rev l)) else l.

(** %.{p}g *)
Definition fmt_g (p : nat) (m : N) (e : Z) : list N :=
  let p := match p with O => 1%nat | _ => p end in
  let '(r, x) := sci (p - 1) m e in
  if ((-4 <=? x) && (x <? Z.of_nat p))%Z
  then strip (fmt_f (Z.to_nat (Z.of_nat p - 1 - x)) m e)
  else strip (with_point (p - 1) (dec_digits r)) ++ fmt_exp x.

(** std::ios_base::floatfield: none, fixed, scientific, fixed|scientific. *)
Inductive ffield := FGeneral | FFixed | FSci | FHex.

(** os << double.  Simplifications: the sign of a NaN is not represented, and
    hexfloat is not modelled because prepare() disables it (json.hpp:731-735);
    a negative precision means 6. *)
Definition fmt_float (ff : ffield) (prec : Z) (f : f64) : list N :=
  let p := (if prec <? 0 then 6%nat else Z.to_nat prec)%Z in
  let body m e :=
    match ff with
    | FFixed => fmt_f p m e
    | FSci => fmt_e p m e
    | _ => fmt_g p m e
    end in
  match f with
  | S754_nan => [110; 97; 110]
  | S754_infinity s => (if s then [c_minus] else []) ++ [105; 110; 102]
  | S754_zero s => (if s then [c_minus] else []) ++
                   (match ff with
                    | FFixed => with_point p [c_0]
                    | FSci => with_point p [c_0] ++ fmt_exp 0
                    | _ => [c_0]
                    end)
  | S754_finite s m e => (if s then [c_minus] else []) ++ body (Npos m) e
  end.

(** std::ceil(f) == std::floor(f), json.hpp:865.  True for infinities, false
    for NaN. *)
Definition f64_integral (f : f64) : bool :=
  match f with
  | S754_zero _ => true
  | S754_infinity _ => true
  | S754_nan => false
  | S754_finite _ m e =>
      (0 <=? e)%Z || (Npos m mod 2 ^ Z.to_N (- e) =? 0)
  end.

(** static_cast<int64_t>(f): truncation; UB when it does not fit. *)
Definition f64_trunc (f : f64) : option Z :=
  match f with
  | S754_zero _ => Some 0%Z
  | S754_infinity _ => None
  | S754_nan => None
  | S754_finite s m e =>
      let a := (if 0 <=? e then Zpos m * 2 ^ e else Zpos m / 2 ^ (- e))%Z in
      Some (if s then - a else a)%Z
  end.
Definition f64_to_int64 (f : f64) : outcome Z :=
  match f64_trunc f with
  | Some z => chk64 z
  | None => UB
  end.
