(** What the comparison operators should mean. *)
From Coq Require Import Floats.SpecFloat.
From Verif Require Import Base Value ValueOps Compare SpecGrammar.
Open Scope Z_scope.

(** Numeric value of a double that is not NaN, as a multiple of the smallest
    positive double 2^-1074.  Infinities lie beyond every finite one. *)
Definition scaled (f : f64) : Z :=
  match f with
  | S754_zero _ | S754_nan => 0
  | S754_finite false m e => Z.pos m * 2 ^ (e + 1074)
  | S754_finite true m e => - (Z.pos m * 2 ^ (e + 1074))
  | S754_infinity false => 2 ^ 2100
  | S754_infinity true => - 2 ^ 2100
  end.

(** a double (not just any pair of mantissa and exponent) *)
Definition a_double (f : f64) : Prop := valid_binary 53 1024 f = true.
Definition a_number (f : f64) : Prop := a_double f /\ f <> S754_nan.

(** Every float in the value satisfies P, every integer satisfies Q. *)
Inductive leaves_ok (P : f64 -> Prop) (Q : Z -> Prop) : value -> Prop :=
| lo_null : leaves_ok P Q VNull
| lo_int z : Q z -> leaves_ok P Q (VInt z)
| lo_float f : P f -> leaves_ok P Q (VFloat f)
| lo_str s : leaves_ok P Q (VStr s)
| lo_bool b : leaves_ok P Q (VBool b)
| lo_arr l : (forall x, In x l -> leaves_ok P Q x) -> leaves_ok P Q (VArr l)
| lo_obj m : (forall k x, In (k, x) m -> leaves_ok P Q x) -> leaves_ok P Q (VObj m).

Definition any {A} (_ : A) : Prop := True.
Definition float_free : value -> Prop := leaves_ok (fun _ => False) any.
Definition nan_free : value -> Prop := leaves_ok (fun f => f <> S754_nan) any.
Definition doubles : value -> Prop := leaves_ok a_double any.
(** integer_type *)
Definition i64 (z : Z) : Prop := - 9223372036854775808 <= z <= 9223372036854775807.
(** integers that are exactly representable as doubles *)
Definition small (z : Z) : Prop := - 2 ^ 53 <= z <= 2 ^ 53.
Definition exact : value -> Prop := leaves_ok a_number small.

(** Equality of content: numbers by value, an integer met by a double being
    rounded to the nearest double first. *)
Inductive same : value -> value -> Prop :=
| sm_null : same VNull VNull
| sm_bool b : same (VBool b) (VBool b)
| sm_str s : same (VStr s) (VStr s)
| sm_int z : same (VInt z) (VInt z)
| sm_float f g : f <> S754_nan -> g <> S754_nan -> scaled f = scaled g -> same (VFloat f) (VFloat g)
| sm_int_float z g : g <> S754_nan -> f64_of_Z z <> S754_nan -> scaled (f64_of_Z z) = scaled g -> same (VInt z) (VFloat g)
| sm_float_int f z : f <> S754_nan -> f64_of_Z z <> S754_nan -> scaled f = scaled (f64_of_Z z) -> same (VFloat f) (VInt z)
| sm_arr l l' : Forall2 same l l' -> same (VArr l) (VArr l')
| sm_obj m m' : Forall2 (fun p q => fst p = fst q /\ same (snd p) (snd q)) m m' -> same (VObj m) (VObj m').

(** ** Values of the same sort: every position of an array and every key of an
    object has its own sort *)
Inductive sort :=
| SNull | SBool | SInt | SNum | SStr
| SArr (g : nat -> sort)
| SObj (g : str -> sort).

Fixpoint of_sort (s : sort) (v : value) : Prop :=
  match s, v with
  | SNull, VNull => True
  | SBool, VBool _ => True
  | SInt, VInt _ => True
  | SNum, VInt z => small z
  | SNum, VFloat f => a_number f
  | SStr, VStr _ => True
  | SArr g, VArr l => forall i x, nth_error l i = Some x -> of_sort (g i) x
  | SObj g, VObj m => forall k x, In (k, x) m -> of_sort (g k) x
  | _, _ => False
  end.

Definition a_num (v : value) : Prop := type_of v = TInteger \/ type_of v = TFloating.

(** numeric value of a number, as a multiple of 2^-1074 *)
Definition num_of (v : value) : option Z :=
  match v with VInt z => Some (z * 2 ^ 1074) | VFloat f => Some (scaled f) | _ => None end.

Definition numkey (v : value) : Z := match num_of v with Some x => x | None => 0 end.

(** ** Lexicographic order: the first place where the entries are not
    unordered decides; a proper prefix is less *)
Inductive lex {A} (lt un : A -> A -> Prop) : list A -> list A -> Prop :=
| lx_here p x t p' y t' : Forall2 un p p' -> lt x y -> lex lt un (p ++ x :: t) (p' ++ y :: t')
| lx_prefix l p y t : Forall2 un l p -> lex lt un l (p ++ y :: t).

Definition less (a b : value) : Prop := v_ltb a b = true.
Definition unordered (a b : value) : Prop := v_ltb a b = false /\ v_ltb b a = false.
(** entries of objects: by key, then by value *)
Definition entry_less (p q : str * value) : Prop := key_lt (fst p) (fst q) \/ (fst p = fst q /\ less (snd p) (snd q)).
Definition entry_unordered (p q : str * value) : Prop := fst p = fst q /\ unordered (snd p) (snd q).
