(** The C++ side of conversions: the types a basic_value converts to and from,
    their values, and what the C++ language and standard library say about
    value-initialisation, comparison and containers.  Nothing here is code of
    the library.

    A value of any of the types is a [cval]; [typed] in SpecConv.v says which
    are values of which type.  Simplifications: std::unique_ptr and std::shared_ptr own what
    they point to and are compared only with nullptr, so a pointer is an
    optional value; unordered containers are kept in sorted order, their
    iteration order being supplied separately where it is used; long double
    and enumerations are left out, and so are key types other than the string
    type itself. *)
From Coq Require Import Floats.SpecFloat Sorted.
From Verif Require Import Base Value Compare.

Inductive seqk := KVector | KDeque | KList | KForward | KSet | KUSet.

Inductive cty :=
| TyBool
| TyInt (w : N) (sg : bool)            (* any other integral type: width, signed? *)
| TyDouble
| TyFloat                              (* float: IEEE binary32 *)
| TyString
| TyJson                               (* the basic_value itself *)
| TyRaw (raw : bool)                   (* array_type; if [raw], object_type: vectors and maps of basic_values *)
| TyPtr (t : cty)                      (* std::unique_ptr, std::shared_ptr *)
| TyArray (n : nat) (t : cty)          (* std::array and C arrays *)
| TySeq (k : seqk) (t : cty)
| TyMap (hashed : bool) (t : cty)      (* std::map, std::unordered_map *)
| TyStruct (fs : list (str * bool * cty)). (* bound fields: name, REQUIRED?, type *)

Inductive cval :=
| CBool (b : bool)
| CInt (z : Z)
| CDbl (f : f64)
| CFlt (f : spec_float)
| CStr (s : str)
| CJson (v : value)
| CPtr (p : option cval)
| CSeq (l : list cval)
| CMap (m : list (str * cval))
| CRec (l : list cval).

(** T{} *)
Fixpoint dflt (t : cty) : cval :=
  match t with
  | TyBool => CBool false
  | TyInt _ _ => CInt 0
  | TyDouble => CDbl f64_zero
  | TyFloat => CFlt f64_zero
  | TyString => CStr []
  | TyJson => CJson VNull
  | TyRaw raw => CJson (if raw then VObj [] else VArr [])
  | TyPtr _ => CPtr None
  | TyArray n t' => CSeq (repeat (dflt t') n)
  | TySeq _ _ => CSeq []
  | TyMap _ _ => CMap []
  | TyStruct fs => CRec (map (fun f => dflt (snd f)) fs)
  end.

(** x == y *)
Fixpoint ceqb (a b : cval) {struct a} : bool :=
  match a, b with
  | CBool p, CBool q => Bool.eqb p q
  | CInt x, CInt y => Z.eqb x y
  | CDbl f, CDbl g | CFlt f, CFlt g => SFeqb f g
  | CStr s, CStr s' => str_eqb s s'
  | CJson v, CJson v' => v_eqb v v'
  | CPtr None, CPtr None => true
  | CSeq l, CSeq l' | CRec l, CRec l' =>
      (fix go (l l' : list cval) : bool :=
         match l, l' with
         | [], [] => true
         | x :: t, y :: t' => ceqb x y && go t t'
         | _, _ => false
         end) l l'
  | CMap m, CMap m' =>
      (fix go (m m' : list (str * cval)) : bool :=
         match m, m' with
         | [], [] => true
         | (k, x) :: t, (k', y) :: t' => (str_eqb k k' && ceqb x y) && go t t'
         | _, _ => false
         end) m m'
  | _, _ => false
  end.

(** (x < y, y < x), as in Compare.v *)
Fixpoint ccmp (a b : cval) {struct a} : bool * bool :=
  match a, b with
  | CBool p, CBool q => (negb p && q, negb q && p)
  | CInt x, CInt y => (Z.ltb x y, Z.ltb y x)
  | CDbl f, CDbl g | CFlt f, CFlt g => (SFltb f g, SFltb g f)
  | CStr s, CStr s' => (str_ltb s s', str_ltb s' s)
  | CJson v, CJson v' => v_cmp v v'
  | CSeq l, CSeq l' =>
      (fix go (l l' : list cval) : bool * bool :=
         match l, l' with
         | [], [] => (false, false)
         | [], _ :: _ => (true, false)
         | _ :: _, [] => (false, true)
         | x :: t, y :: t' =>
             let '(lt, gt) := ccmp x y in
             let '(lt', gt') := go t t' in
             (if lt then true else if gt then false else lt',
              if gt then true else if lt then false else gt')
         end) l l'
  | _, _ => (false, false)
  end.
Definition clt (a b : cval) : bool := fst (ccmp a b).

(** std::set::insert.  It requires < to order the elements: a NaN inside an
    element is undefined behaviour, and such an element is not equal to itself. *)
Fixpoint set_insert (x : cval) (l : list cval) : list cval :=
  match l with
  | [] => [x]
  | y :: l' => if clt x y then x :: l else if clt y x then y :: set_insert x l' else l
  end.

(** std::vector::resize(n) *)
Definition resize (d : cval) (n : nat) (l : list cval) : list cval :=
  firstn n l ++ repeat d (n - length l).

(** static_cast to an integral type of width w: the value modulo 2^w *)
Definition wrap (w : N) (sg : bool) (z : Z) : Z :=
  let m := (z mod 2 ^ Z.of_N w)%Z in
  if sg && (2 ^ (Z.of_N w - 1) <=? m)%Z then (m - 2 ^ Z.of_N w)%Z else m.
Definition int_range (w : N) (sg : bool) (z : Z) : Prop :=
  if sg then (- 2 ^ (Z.of_N w - 1) <= z < 2 ^ (Z.of_N w - 1))%Z else (0 <= z < 2 ^ Z.of_N w)%Z.

(** static_cast between double and float: the nearest value, ties to even *)
Definition recast (prec emax : Z) (f : spec_float) : spec_float :=
  match f with
  | S754_finite s m e => binary_normalize prec emax (cond_Zopp s (Zpos m)) e s
  | _ => f
  end.
Definition to_double : spec_float -> f64 := recast 53 1024.
Definition to_single : f64 -> spec_float := recast 24 128.
