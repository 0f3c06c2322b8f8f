(** C34-C35: comparison operators. *)
From Coq Require Import ZArith Floats.SpecFloat.
From Verif Require Import Base Value ValueOps Compare SpecGrammar SpecText SpecRfc SpecCompare CompareProofs CompareOrder CompareMore.
Open Scope Z_scope.

Notation text s := (chars s%string).

(** C34.  Equality. *)
Theorem C34_symmetric : forall a b, v_eqb a b = v_eqb b a.
Proof. exact eqb_sym. Qed.
Print Assumptions C34_symmetric.

Theorem C34_reflexive : forall a, v_eqb a a = true <-> nan_free a.
Proof. exact eqb_refl_iff. Qed.
Print Assumptions C34_reflexive.

Theorem C34_structural : forall a b, float_free a -> float_free b -> (v_eqb a b = true <-> a = b).
Proof. exact eqb_structural. Qed.
Print Assumptions C34_structural.

Theorem C34_content : forall a b, leaves_ok a_double i64 a -> leaves_ok a_double i64 b -> (v_eqb a b = true <-> same a b).
Proof. exact eqb_same. Qed.
Print Assumptions C34_content.

Theorem C34_transitive_exact : forall a b c, exact a -> exact b -> exact c ->
  v_eqb a b = true -> v_eqb b c = true -> v_eqb a c = true.
Proof. exact eqb_trans. Qed.
Print Assumptions C34_transitive_exact.

Theorem C34_transitive_refuted : exists a b c, leaves_ok a_number i64 a /\ leaves_ok a_number i64 b /\ leaves_ok a_number i64 c /\
  v_eqb a b = true /\ v_eqb b c = true /\ v_eqb a c = false.
Proof. exact eqb_not_trans. Qed.
Print Assumptions C34_transitive_refuted.

Theorem C34_not_equal : forall a b, v_neb a b = true <-> v_eqb a b <> true.
Proof. exact neb_iff. Qed.
Print Assumptions C34_not_equal.

Example C34_case : v_eqb (VArr [VInt 2; VStr (text "x")]) (VArr [VFloat (f64_of_Z 2); VStr (text "x")]) = true /\
  v_eqb (VFloat S754_nan) (VFloat S754_nan) = false /\ v_eqb (VFloat (S754_zero true)) (VInt 0) = true /\ v_eqb (VInt 0) (VBool false) = false.
Proof. vm_compute. repeat split. Qed.

(** C35.  Order. *)
Theorem C35_irreflexive : forall a, v_ltb a a = false.
Proof. exact ltb_irrefl. Qed.
Print Assumptions C35_irreflexive.

Theorem C35_asymmetric : forall a b, v_ltb a b = true -> v_ltb b a = false.
Proof. exact ltb_asym. Qed.
Print Assumptions C35_asymmetric.

(** On values of one sort, < is a strict order, total up to ==. *)
Theorem C35_total_on_sorts : forall s a b c, of_sort s a -> of_sort s b -> of_sort s c ->
  (v_ltb a b = true -> v_ltb b c = true -> v_ltb a c = true) /\
  (v_eqb a b = true -> v_eqb b c = true -> v_eqb a c = true) /\
  (v_eqb a b = true -> v_ltb b c = v_ltb a c /\ v_ltb c b = v_ltb c a) /\
  ((v_ltb a b = true /\ v_eqb a b = false /\ v_ltb b a = false) \/
   (v_ltb a b = false /\ v_eqb a b = true /\ v_ltb b a = false) \/
   (v_ltb a b = false /\ v_eqb a b = false /\ v_ltb b a = true)).
Proof. exact sort_order. Qed.
Print Assumptions C35_total_on_sorts.

(** [numkey] is the exact numeric value. *)
Theorem C35_numeric : forall a b, of_sort SNum a -> of_sort SNum b -> (v_ltb a b = true <-> numkey a < numkey b).
Proof. exact ltb_num. Qed.
Print Assumptions C35_numeric.

Theorem C35_scalars :
  (forall p q, v_ltb (VBool p) (VBool q) = true <-> p = false /\ q = true) /\
  (forall x y, v_ltb (VInt x) (VInt y) = true <-> x < y) /\
  (forall s s', v_ltb (VStr s) (VStr s') = true <-> key_lt s s') /\
  (forall b, v_ltb VNull b = false) /\ (forall a, v_ltb a VNull = false).
Proof. exact ltb_scalar_iff. Qed.
Print Assumptions C35_scalars.

Theorem C35_across_types : forall a b, type_of a <> type_of b -> ~ (a_num a /\ a_num b) -> v_ltb a b = false /\ v_eqb a b = false.
Proof. exact ltb_types. Qed.
Print Assumptions C35_across_types.

Theorem C35_lexicographic_array : forall l l', v_ltb (VArr l) (VArr l') = true <-> lex less unordered l l'.
Proof. exact ltb_lex_arr. Qed.
Print Assumptions C35_lexicographic_array.

Theorem C35_lexicographic_object : forall m m', v_ltb (VObj m) (VObj m') = true <-> lex entry_less entry_unordered m m'.
Proof. exact ltb_lex_obj. Qed.
Print Assumptions C35_lexicographic_object.

Theorem C35_derived : forall a b, v_gtb a b = v_ltb b a /\ (v_leb a b = true <-> v_ltb b a = false) /\ (v_geb a b = true <-> v_ltb a b = false).
Proof. exact derived_ops. Qed.
Print Assumptions C35_derived.

(** In general < has cycles, and <= holds both ways between unequal values. *)
Theorem C35_transitive_refuted : exists a b c, v_ltb a b = true /\ v_ltb b c = true /\ v_ltb c a = true.
Proof. exact ltb_cycle. Qed.
Print Assumptions C35_transitive_refuted.

Theorem C35_antisymmetric_refuted : exists a b, v_leb a b = true /\ v_leb b a = true /\ v_eqb a b = false.
Proof. exact leb_not_antisym. Qed.
Print Assumptions C35_antisymmetric_refuted.

Example C35_case : v_ltb (VArr [VInt 1; VInt 2]) (VArr [VInt 1; VFloat (S754_finite false 5629499534213120 (-51))]) = true /\
  v_ltb (VObj [(text "a", VInt 2)]) (VObj [(text "b", VInt 1)]) = true /\ v_ltb (VStr (text "b")) (VStr (text "abc")) = false.
Proof. vm_compute. repeat split. Qed.
