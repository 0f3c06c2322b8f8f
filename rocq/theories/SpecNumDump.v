(** The text of values of other integer types: SpecDump.rend with the text of
    integers as a parameter. *)
From Verif Require Import Base Stream Encoding Value Token Parser SpecGrammar SpecText Serializer SpecDump NumType SpecNumType SpecNumRound.
Open Scope N_scope.

Section Rend.
Variables (int_text : Z -> list N -> Prop) (str_text : str -> list N -> Prop) (flt_text : f64 -> list N -> Prop) (la : layout).

Inductive n_rend : N -> gval Z f64 -> list N -> Prop :=
| nd_null d : n_rend d GNull [110; 117; 108; 108]
| nd_true d : n_rend d (GBool true) [116; 114; 117; 101]
| nd_false d : n_rend d (GBool false) [102; 97; 108; 115; 101]
| nd_int d z w : int_text z w -> n_rend d (GInt z) w
| nd_float d f w : flt_text f w -> n_rend d (GFloat f) w
| nd_str d s w : str_text s w -> n_rend d (GStr s) w
| nd_arr_nil d : n_rend d (GArr []) (91 :: nl la ++ ind la d ++ [93])
| nd_arr d v vs w : n_elems (d + 1) (v :: vs) w -> n_rend d (GArr (v :: vs)) (91 :: w ++ nl la ++ ind la d ++ [93])
| nd_obj_nil d : n_rend d (GObj []) (123 :: nl la ++ ind la d ++ [125])
| nd_obj d p m w : n_members (d + 1) (p :: m) w -> n_rend d (GObj (p :: m)) (123 :: w ++ nl la ++ ind la d ++ [125])
with n_elems : N -> list (gval Z f64) -> list N -> Prop :=
| nde_one d v w : n_rend d v w -> n_elems d [v] (nl la ++ ind la d ++ w)
| nde_more d v w v' vs ws : n_rend d v w -> n_elems d (v' :: vs) ws ->
    n_elems d (v :: v' :: vs) (nl la ++ ind la d ++ w ++ 44 :: ws)
with n_members : N -> list (str * gval Z f64) -> list N -> Prop :=
| ndm_one d k wk v w : str_text k wk -> n_rend d v w ->
    n_members d [(k, v)] (nl la ++ ind la d ++ wk ++ 58 :: sp la ++ w)
| ndm_more d k wk v w p m ws : str_text k wk -> n_rend d v w -> n_members d (p :: m) ws ->
    n_members d ((k, v) :: p :: m) (nl la ++ ind la d ++ wk ++ 58 :: sp la ++ w ++ 44 :: ws).
End Rend.

(** the unit of a stream of char that stands for z: itself, or for a negative
    number of a signed type 256 more *)
Inductive byte_of : Z -> list N -> Prop :=
| by_pos b : b < 256 -> byte_of (Z.of_N b) [b]
| by_neg b : 128 <= b < 256 -> byte_of (Z.of_N b - 256) [b].

Inductive n_int (t : ity) (cf : scfg) (z : Z) (w : list N) : Prop :=
| ni_dec : by_number t cf -> SpecDump.int_text z w -> n_int t cf z w
| ni_byte : ~ by_number t cf -> byte_of z w -> n_int t cf z w.

Fixpoint n_height (v : gval Z f64) : N :=
  match v with
  | GArr l => 1 + fold_right N.max 0 (map n_height l)
  | GObj m => 1 + fold_right N.max 0 (map (fun p => n_height (snd p)) m)
  | _ => 0
  end.

(** every integer is one of the type *)
Inductive ints_in (t : ity) : gval Z f64 -> Prop :=
| ii_null : ints_in t GNull
| ii_bool b : ints_in t (GBool b)
| ii_int z : (t_min t <= z <= t_max t)%Z -> ints_in t (GInt z)
| ii_float f : ints_in t (GFloat f)
| ii_str s : ints_in t (GStr s)
| ii_arr l : Forall (ints_in t) l -> ints_in t (GArr l)
| ii_obj m : Forall (fun p => ints_in t (snd p)) m -> ints_in t (GObj m).
