(** Values with float as float_type the text of which reads back: as in
    SpecNumRound.v, with floats of 24 bits. *)
From Coq Require Import Floats.SpecFloat.
From Verif Require Import Base Stream Encoding Value Token Parser SpecGrammar SpecText SpecRfc Serializer SpecDump NumType SpecNumType.
Open Scope N_scope.

Inductive plain_single (t : ity) (cf : scfg) : gval Z spec_float -> Prop :=
| ps_null : plain_single t cf GNull
| ps_bool b : plain_single t cf (GBool b)
| ps_int z : (t_min t <= z <= t_max t)%Z -> (wide t -> z <> t_min t) -> plain_single t cf (GInt z)
| ps_float f z : valid_binary 24 128 f = true -> f <> S754_zero true -> is_int f z -> (Z.abs z <= t_max t)%Z ->
    (Z.abs z < 9223372036854775808)%Z -> plain_single t cf (GFloat f)
| ps_str s : ok_string SpecRfc.plain cf s -> plain_single t cf (GStr s)
| ps_arr l : Forall (plain_single t cf) l -> plain_single t cf (GArr l)
| ps_obj m : sorted m -> Forall (fun p => ok_string SpecRfc.plain cf (fst p) /\ plain_single t cf (snd p)) m -> plain_single t cf (GObj m).
