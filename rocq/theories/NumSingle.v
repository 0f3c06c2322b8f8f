(** basic_value with float as float_type (details/value.hpp:40-66): the parser
    of NumType.v with the arithmetic of float, and the serializer of NumDump.v
    (json.hpp:863-874). *)
From Coq Require Import Floats.SpecFloat.
From Verif Require Import Base Stream Encoding Value Token Message Parser Serializer Cpp NumType NumDump.
Open Scope N_scope.

(** static_cast<float>(integer) *)
Definition s_of_Z (z : Z) : spec_float := binary_normalize 24 128 z 0 false.

(** float: 24 bits, exponents below 128, each operation rounded to nearest even *)
Definition num_single (t : ity) : numty :=
  mkNum Z spec_float (fun d => t_wrap t (Z.of_N d)) (t_step t) (t_neg t)
    s_of_Z (fun d => s_of_Z (Z.of_N d)) (to_single f64_tenth) (s_of_Z 10) (s_of_Z 1) (S754_zero false) (SFadd 24 128) (SFmul 24 128) SFopp.

(** The serializer asks for std::ceil and std::floor of the float, converts it
    to int64_t, or prints it with operator<<(float), which converts it to double;
    the conversion is exact, so that all of this can be done with the double. *)
Fixpoint widen (v : gval Z spec_float) : gval Z f64 :=
  match v with
  | GNull => GNull
  | GBool b => GBool b
  | GInt z => GInt z
  | GFloat f => GFloat (to_double f)
  | GStr s => GStr s
  | GArr l => GArr (map widen l)
  | GObj m => GObj (map (fun p => (fst p, widen (snd p))) m)
  end.
Definition s_dump_string (t : ity) (cf : scfg) (v : gval Z spec_float) : outcome (list N) := n_dump_string t cf (widen v).
