(** Comparison operators of basic_value (details/value.hpp:818-1000). *)
From Coq Require Import Floats.SpecFloat.
From Verif Require Import Base Value.

(** std::vector::operator== : same size and element-wise equal. *)
Fixpoint list_eqb {A} (eq : A -> A -> bool) (a b : list A) : bool :=
  match a, b with
  | [], [] => true
  | x :: a', y :: b' => eq x y && list_eqb eq a' b'
  | _, _ => false
  end.

(** std::lexicographical_compare *)
Fixpoint list_ltb {A} (lt : A -> A -> bool) (a b : list A) : bool :=
  match a, b with
  | _, [] => false
  | [], _ :: _ => true
  | x :: a', y :: b' => if lt x y then true else if lt y x then false else list_ltb lt a' b'
  end.

(** operator== on values, value.hpp:821-854.  The recursion is on the left
    value; the element comparisons are written out as local fixpoints. *)
Fixpoint v_eqb (a b : value) {struct a} : bool :=
  match a, b with
  | VArr l, VArr l' =>
      (fix go (l l' : list value) : bool :=
         match l, l' with
         | [], [] => true
         | x :: t, y :: t' => v_eqb x y && go t t'
         | _, _ => false
         end) l l'
  | VObj m, VObj m' =>
      (fix go (m m' : list (str * value)) : bool :=
         match m, m' with
         | [], [] => true
         | (k, x) :: t, (k', y) :: t' => (str_eqb k k' && v_eqb x y) && go t t'
         | _, _ => false
         end) m m'
  | VNull, VNull => true
  | VStr s, VStr s' => str_eqb s s'
  | VBool p, VBool q => Bool.eqb p q
  | VInt x, VInt y => Z.eqb x y
  | VFloat f, VFloat g => SFeqb f g
  | VInt x, VFloat g => SFeqb (f64_of_Z x) g
  | VFloat f, VInt y => SFeqb f (f64_of_Z y)
  | _, _ => false
  end.

(** operator!= , value.hpp:868-871 *)
Definition v_neb (a b : value) : bool := negb (v_eqb a b).

(** operator< on values, value.hpp:889-933, with std::lexicographical_compare
    for arrays and, for objects, std::pair's operator< on the entries: first
    by key, then by value.  Both directions of an element comparison are
    computed together so that the recursion stays structural: [cmp a b] is
    (a < b, b < a). *)
Fixpoint v_cmp (a b : value) {struct a} : bool * bool :=
  match a, b with
  | VArr l, VArr l' =>
      (fix go (l l' : list value) : bool * bool :=
         match l, l' with
         | [], [] => (false, false)
         | [], _ :: _ => (true, false)
         | _ :: _, [] => (false, true)
         | x :: t, y :: t' =>
             let '(lt, gt) := v_cmp x y in
             (* a<b : if x<y then true else if y<x then false else tails *)
             let '(lt', gt') := go t t' in
             (if lt then true else if gt then false else lt',
              if gt then true else if lt then false else gt')
         end) l l'
  | VObj m, VObj m' =>
      (fix go (m m' : list (str * value)) : bool * bool :=
         match m, m' with
         | [], [] => (false, false)
         | [], _ :: _ => (true, false)
         | _ :: _, [] => (false, true)
         | (k, x) :: t, (k', y) :: t' =>
             let '(lt0, gt0) := v_cmp x y in
             (* std::pair: k<k' or (not k'<k and x<y) *)
             let lt := str_ltb k k' || (negb (str_ltb k' k) && lt0) in
             let gt := str_ltb k' k || (negb (str_ltb k k') && gt0) in
             let '(lt', gt') := go t t' in
             (if lt then true else if gt then false else lt',
              if gt then true else if lt then false else gt')
         end) m m'
  | VStr s, VStr s' => (str_ltb s s', str_ltb s' s)
  | VBool p, VBool q => (negb p && q, negb q && p)
  | VInt x, VInt y => (Z.ltb x y, Z.ltb y x)
  | VFloat f, VFloat g => (SFltb f g, SFltb g f)
  | VInt x, VFloat g => (SFltb (f64_of_Z x) g, SFltb g (f64_of_Z x))
  | VFloat f, VInt y => (SFltb f (f64_of_Z y), SFltb (f64_of_Z y) f)
  | _, _ => (false, false)
  end.

Definition v_ltb (a b : value) : bool := fst (v_cmp a b).
(** operator<= , > , >= : value.hpp:946-1000 *)
Definition v_leb (a b : value) : bool := negb (v_ltb b a).
Definition v_gtb (a b : value) : bool := v_ltb b a.
Definition v_geb (a b : value) : bool := negb (v_ltb a b).
