(** Values of other integer types the text of which reads back. *)
From Verif Require Import Base Stream Encoding Value Token Parser SpecGrammar SpecText SpecRfc Serializer SpecDump NumType SpecNumType.
Open Scope N_scope.

(** integers within the type, of a signed type as wide as int not the least one,
    floats integral and of a size within the type, strings that can be written *)
Inductive plain_val (t : ity) (cf : scfg) : gval Z f64 -> Prop :=
| pv_null : plain_val t cf GNull
| pv_bool b : plain_val t cf (GBool b)
| pv_int z : (t_min t <= z <= t_max t)%Z -> (wide t -> z <> t_min t) -> plain_val t cf (GInt z)
| pv_float f : ok_float f -> (forall z, is_int f z -> (Z.abs z <= t_max t)%Z) -> plain_val t cf (GFloat f)
| pv_str s : ok_string SpecRfc.plain cf s -> plain_val t cf (GStr s)
| pv_arr l : Forall (plain_val t cf) l -> plain_val t cf (GArr l)
| pv_obj m : sorted m -> Forall (fun p => ok_string SpecRfc.plain cf (fst p) /\ plain_val t cf (snd p)) m -> plain_val t cf (GObj m).

(** integers are printed in decimal: all but the types of 8 bits on a stream of char *)
Definition by_number (t : ity) (cf : scfg) : Prop := 8 < t_bits t \/ out_ck cf <> C8.
