(** Numerals, broken string bodies and other plain texts, declaratively. *)
From Coq Require Import List NArith ZArith QArith Floats.SpecFloat Ascii String.
From Verif Require Import Stream Encoding Value Parser SpecUnicode SpecGrammar.
Import ListNotations.
Open Scope list_scope.
Open Scope N_scope.

(** ** Decimal numerals *)

Definition ascii_digit (c : N) : Prop := 48 <= c /\ c <= 57.

(** value of a string of decimal digits *)
Definition ten (ds : list N) : Z := fold_left (fun a d => a * 10 + (Z.of_N d - 48))%Z ds 0%Z.

(** [numeral z w]: w is z in decimal without superfluous zeros *)
Inductive numeral : Z -> list N -> Prop :=
| nm_zero : numeral 0 [48]
| nm_pos d ds : 49 <= d -> d <= 57 -> Forall ascii_digit ds -> numeral (ten (d :: ds)) (d :: ds).

Inductive sign : list N -> bool -> Prop :=
| sg_none : sign [] false
| sg_plus : sign [43] false
| sg_minus : sign [45] true.

Definition signed_int (neg : bool) (z : Z) : value := VInt (if neg then - z else z)%Z.
Definition signed_float (neg : bool) (f : f64) : value := VFloat (if neg then SFopp f else f).

(** [mantissa w fr f]: w is a number without sign and exponent, with a
    fraction part iff [fr]; f is its value, accumulated digit by digit. *)
Inductive mantissa : list N -> bool -> f64 -> Prop :=
| ma_int z w : numeral z w -> z <> 0%Z -> (z <= max_int)%Z -> mantissa w false (d_of_Z z)
| ma_frac z w fd : numeral z w -> (z <= max_int)%Z -> fd <> [] -> Forall ascii_digit fd ->
    mantissa (w ++ 46 :: fd) true (frac_value (d_of_Z z) dtenth fd).

(** [expo w g]: w is an exponent part with factor g; the exponent is taken
    modulo 2^32 and, without sign, has no leading zero. *)
Inductive expo : list N -> f64 -> Prop :=
| xp_plain e d ds : is_e e -> 49 <= d -> d <= 57 -> Forall ascii_digit ds ->
    expo (e :: d :: ds) (dpow (d_of_Z 10) (Z.to_N (ten (d :: ds) mod 4294967296)))
| xp_plus e ds : is_e e -> ds <> [] -> Forall ascii_digit ds ->
    expo (e :: 43 :: ds) (dpow (d_of_Z 10) (Z.to_N (ten ds mod 4294967296)))
| xp_minus e ds : is_e e -> ds <> [] -> Forall ascii_digit ds ->
    expo (e :: 45 :: ds) (dpow dtenth (Z.to_N (ten ds mod 4294967296))).

(** ** Exact values of doubles *)

(** the rational number a finite double stands for *)
Definition f64_Q (f : f64) : option Q :=
  match f with
  | S754_zero _ => Some 0%Q
  | S754_finite s m e =>
      let z := if s then Z.neg m else Z.pos m in
      Some (match e with
            | Z0 => inject_Z z
            | Z.pos p => inject_Z (z * 2 ^ Z.pos p)
            | Z.neg p => (z # (2 ^ p))%Q
            end)
  | _ => None
  end.

(** [is_int f z]: f is exactly the integer z *)
Definition is_int (f : f64) (z : Z) : Prop :=
  match f with
  | S754_zero _ => z = 0%Z
  | S754_finite s m e =>
      let v := if s then Z.neg m else Z.pos m in
      if (0 <=? e)%Z then z = (v * 2 ^ e)%Z else v = (z * 2 ^ (- e))%Z
  | _ => False
  end.

(** ** String bodies that cannot be completed *)

(** What follows good characters inside a string literal is [broken] if no
    character can be read from it and it is not the closing quote. *)
Inductive broken : list N -> Prop :=
| br_end : broken []
| br_control c l : c < 32 -> broken (c :: l)
| br_escape_end : broken [92]
| br_escape c l : (forall x, ~ short c x) -> c <> 117 -> broken (92 :: c :: l)
| br_hex l : (forall h cp l', l = h ++ l' -> ~ hex4 h cp) -> broken (92 :: 117 :: l)
| br_lead h hi l : hex4 h hi -> lead hi ->
    (forall h2 lo l', l = 92 :: 117 :: h2 ++ l' -> hex4 h2 lo -> ~ trail lo) ->
    broken (92 :: 117 :: h ++ l).

(** ** Values all of whose objects have strictly increasing keys *)
Inductive ordered : value -> Prop :=
| or_null : ordered VNull
| or_bool b : ordered (VBool b)
| or_int z : ordered (VInt z)
| or_float f : ordered (VFloat f)
| or_str s : ordered (VStr s)
| or_arr vs : (forall x, In x vs -> ordered x) -> ordered (VArr vs)
| or_obj m : sorted m -> (forall k x, In (k, x) m -> ordered x) -> ordered (VObj m).

(** ** ASCII strings as code points, for examples *)
Fixpoint chars (s : String.string) : list N :=
  match s with
  | String.EmptyString => []
  | String.String c s => Ascii.N_of_ascii c :: chars s
  end.
