(** Decimal text of numbers as the C standard describes %f, %e and %g, over
    the rationals.  Nothing here calls the model's functions. *)
From Coq Require Import List NArith ZArith QArith Qabs Floats.SpecFloat.
From Verif Require Import Value FloatFmt SpecGrammar SpecText.
Import ListNotations.
Open Scope Z_scope.

(** |m * 2^e| *)
Definition mag (m : positive) (e : Z) : Q := inject_Z (Zpos m) * inject_Z 2 ^ e.

(** n is the integer nearest to x; of two, the even one *)
Definition nearest (x : Q) (n : Z) : Prop :=
  (Qabs (x - inject_Z n) <= 1 # 2)%Q /\ ((Qabs (x - inject_Z n) == 1 # 2)%Q -> Z.even n = true).

(** n / 10^p with exactly p decimals *)
Inductive decimals (p : nat) (n : Z) : list N -> Prop :=
| dcm z ip fp : numeral z ip -> Forall ascii_digit fp -> length fp = p -> ten (ip ++ fp) = n ->
    decimals p n (ip ++ match p with O => [] | _ => 46%N :: fp end).

(** %.pf *)
Definition fixed_text (p : nat) (x : Q) (w : list N) : Prop :=
  exists n, nearest (x * inject_Z 10 ^ Z.of_nat p) n /\ decimals p n w.

(** [sig p x n k]: x rounded to p+1 significant digits is n * 10^(k-p), with
    10^p <= n < 10^(p+1) *)
Inductive sig (p : nat) (x : Q) : Z -> Z -> Prop :=
| sig_in n k : (inject_Z 10 ^ k <= x)%Q -> (x < inject_Z 10 ^ (k + 1))%Q ->
    nearest (x * inject_Z 10 ^ (Z.of_nat p - k)) n -> n < 10 ^ (Z.of_nat p + 1) -> sig p x n k
| sig_up n k : (inject_Z 10 ^ k <= x)%Q -> (x < inject_Z 10 ^ (k + 1))%Q ->
    nearest (x * inject_Z 10 ^ (Z.of_nat p - k)) n -> n = 10 ^ (Z.of_nat p + 1) -> sig p x (10 ^ Z.of_nat p) (k + 1).

(** an exponent has a sign and at least two digits *)
Inductive exponent (k : Z) : list N -> Prop :=
| xp ds : Forall ascii_digit ds -> ten ds = Z.abs k -> length ds = 2%nat \/ ((2 < length ds)%nat /\ hd 0%N ds <> 48%N) ->
    exponent k (101%N :: (if k <? 0 then 45%N else 43%N) :: ds).

(** %.pe *)
Definition sci_text (p : nat) (x : Q) (w : list N) : Prop :=
  exists n k a b, sig p x n k /\ decimals p n a /\ exponent k b /\ w = a ++ b.

(** trailing zeros of the fraction, and the point if nothing is behind it,
    taken away *)
Inductive stripped : list N -> list N -> Prop :=
| sp_none w : ~ In 46%N w -> stripped w w
| sp_all a zs : ~ In 46%N a -> Forall (eq 48%N) zs -> stripped (a ++ 46%N :: zs) a
| sp_some a b d zs : ~ In 46%N a -> d <> 48%N -> d <> 46%N -> Forall (eq 48%N) zs ->
    stripped (a ++ 46%N :: b ++ d :: zs) (a ++ 46%N :: b ++ [d]).

(** %.pg *)
Inductive general_text (p : nat) (x : Q) : list N -> Prop :=
| gt_fixed q n k u w : q = Nat.max 1 p -> sig (q - 1) x n k -> -4 <= k < Z.of_nat q ->
    fixed_text (Z.to_nat (Z.of_nat q - 1 - k)) x u -> stripped u w -> general_text p x w
| gt_sci q n k a a' b : q = Nat.max 1 p -> sig (q - 1) x n k -> ~ (-4 <= k < Z.of_nat q) ->
    decimals (q - 1) n a -> stripped a a' -> exponent k b -> general_text p x (a' ++ b).

(** os << x for x > 0; a negative precision stands for 6 *)
Definition real_text (ff : ffield) (prec : Z) (x : Q) (w : list N) : Prop :=
  let p := if prec <? 0 then 6%nat else Z.to_nat prec in
  match ff with
  | FFixed => fixed_text p x w
  | FSci => sci_text p x w
  | _ => general_text p x w
  end.

(** ** The exact value of a literal *)
(** [written w n x]: w is a number without sign and exponent, with n digits
    after the point; x is its value *)
Inductive written : list N -> nat -> Q -> Prop :=
| wr_int z w : numeral z w -> written w 0 (inject_Z z)
| wr_frac z w fd : numeral z w -> fd <> [] -> Forall ascii_digit fd ->
    written (w ++ 46%N :: fd) (length fd) (inject_Z z + inject_Z (ten fd) * inject_Z 10 ^ (- Z.of_nat (length fd))).

(** [power w k]: w is an exponent part, or nothing, and stands for 10^k *)
Inductive power : list N -> Z -> Prop :=
| pw_none : power [] 0
| pw_plain e d ds : is_e e -> (49 <= d)%N -> (d <= 57)%N -> Forall ascii_digit ds -> power (e :: d :: ds) (ten (d :: ds))
| pw_plus e ds : is_e e -> ds <> [] -> Forall ascii_digit ds -> power (e :: 43%N :: ds) (ten ds)
| pw_minus e ds : is_e e -> ds <> [] -> Forall ascii_digit ds -> power (e :: 45%N :: ds) (- ten ds).
