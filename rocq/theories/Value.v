(** The value tree (details/value.hpp:41-81) and the container primitives the
    parser and serializer use.  The tree is the abstract content of a
    basic_value; heap ownership is modelled separately in Heap.v. *)
From Coq Require Import Floats.SpecFloat.
From Verif Require Import Base.

(** double: IEEE binary64 as Coq's [spec_float] with 53-bit significand and
    exponent range 1024, round to nearest even. *)
Definition f64 := spec_float.
Definition fadd (a b : f64) : f64 := SFadd 53 1024 a b.
Definition fmul (a b : f64) : f64 := SFmul 53 1024 a b.
Definition fopp (a : f64) : f64 := SFopp a.
(** static_cast<double>(integer) *)
Definition f64_of_Z (z : Z) : f64 := binary_normalize 53 1024 z 0 false.
(** static_cast<float_type>(0.1) : 0x1.999999999999ap-4 *)
Definition f64_tenth : f64 := S754_finite false 7205759403792794 (-56).
Definition f64_zero : f64 := S754_zero false.

(** string_type: a list of code units. *)
Definition str := list N.

(** details/value.hpp:72-80 and declare.hpp value_constant.
    object_type is std::map<string, value>: an association list kept in
    strictly increasing key order (see [obj_wf]). *)
Inductive value :=
| VNull
| VInt (z : Z)
| VFloat (f : f64)
| VStr (s : str)
| VArr (l : list value)
| VObj (m : list (str * value))
| VBool (b : bool).

(** std::less<string_type>: lexicographic order on units.  For char,
    char_traits::lt compares as unsigned char, which is the order on N.
    Simplification: for wchar_t (signed 32 bit) units of 2^31 and above would
    compare as negative; decoded code points never reach that range. *)
Fixpoint str_ltb (a b : str) : bool :=
  match a, b with
  | [], [] => false
  | [], _ :: _ => true
  | _ :: _, [] => false
  | x :: a', y :: b' => (x <? y) || ((x =? y) && str_ltb a' b')
  end.

Fixpoint str_eqb (a b : str) : bool :=
  match a, b with
  | [], [] => true
  | x :: a', y :: b' => (x =? y) && str_eqb a' b'
  | _, _ => false
  end.

(** std::map::find *)
Fixpoint obj_find {A} (k : str) (m : list (str * A)) : option A :=
  match m with
  | [] => None
  | (k', v) :: m' => if str_eqb k k' then Some v else obj_find k m'
  end.

(** std::map::emplace: inserts only if the key is absent. *)
Fixpoint obj_emplace {A} (k : str) (v : A) (m : list (str * A)) : list (str * A) :=
  match m with
  | [] => [(k, v)]
  | (k', v') :: m' =>
      if str_ltb k k' then (k, v) :: (k', v') :: m'
      else if str_eqb k k' then (k', v') :: m'
      else (k', v') :: obj_emplace k v m'
  end.

(** map[key] = v: insert or overwrite. *)
Fixpoint obj_set {A} (k : str) (v : A) (m : list (str * A)) : list (str * A) :=
  match m with
  | [] => [(k, v)]
  | (k', v') :: m' =>
      if str_ltb k k' then (k, v) :: (k', v') :: m'
      else if str_eqb k k' then (k', v) :: m'
      else (k', v') :: obj_set k v m'
  end.

(** std::map::erase(key) *)
Fixpoint obj_erase {A} (k : str) (m : list (str * A)) : list (str * A) :=
  match m with
  | [] => []
  | (k', v') :: m' => if str_eqb k k' then m' else (k', v') :: obj_erase k m'
  end.
