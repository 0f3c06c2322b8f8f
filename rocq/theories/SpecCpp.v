(** What C++ says about value-initialisation, == and <, and std::set, for the
    types of Cpp.v. *)
From Coq Require Import Sorted Floats.SpecFloat.
From Verif Require Import Base Value Compare SpecGrammar SpecCompare Cpp.
Open Scope N_scope.

(** x is T{} *)
Inductive initial : cty -> cval -> Prop :=
| ini_bool : initial TyBool (CBool false)
| ini_int w sg : initial (TyInt w sg) (CInt 0)
| ini_double : initial TyDouble (CDbl (S754_zero false))
| ini_float : initial TyFloat (CFlt (S754_zero false))
| ini_string : initial TyString (CStr [])
| ini_json : initial TyJson (CJson VNull)
| ini_array_type : initial (TyRaw false) (CJson (VArr []))
| ini_object_type : initial (TyRaw true) (CJson (VObj []))
| ini_ptr t : initial (TyPtr t) (CPtr None)
| ini_array n t l : length l = n -> Forall (initial t) l -> initial (TyArray n t) (CSeq l)
| ini_seq k t : initial (TySeq k t) (CSeq [])
| ini_map h t : initial (TyMap h t) (CMap [])
| ini_struct fs l : Forall2 (fun f x => initial (snd f) x) fs l -> initial (TyStruct fs) (CRec l).

(** x == y.  Floats: IEEE equality; pointers: only nullptr equals nullptr,
    distinct objects being at distinct addresses; values: C34. *)
Inductive equals : cval -> cval -> Prop :=
| cq_bool b : equals (CBool b) (CBool b)
| cq_int z : equals (CInt z) (CInt z)
| cq_dbl f g : SFcompare f g = Some Eq -> equals (CDbl f) (CDbl g)
| cq_flt f g : SFcompare f g = Some Eq -> equals (CFlt f) (CFlt g)
| cq_str s : equals (CStr s) (CStr s)
| cq_json v w : v_eqb v w = true -> equals (CJson v) (CJson w)
| cq_null : equals (CPtr None) (CPtr None)
| cq_seq l l' : Forall2 equals l l' -> equals (CSeq l) (CSeq l')
| cq_map m m' : Forall2 (fun p q => fst p = fst q /\ equals (snd p) (snd q)) m m' -> equals (CMap m) (CMap m')
| cq_rec l l' : Forall2 equals l l' -> equals (CRec l) (CRec l').

(** x < y, for the element types of sets *)
Fixpoint earlier (t : cty) (x y : cval) : Prop :=
  match t, x, y with
  | TyBool, CBool p, CBool q => p = false /\ q = true
  | TyInt _ _, CInt a, CInt b => (a < b)%Z
  | TyDouble, CDbl f, CDbl g => SFcompare f g = Some Lt
  | TyFloat, CFlt f, CFlt g => SFcompare f g = Some Lt
  | TyString, CStr s, CStr s' => key_lt s s'
  | TyArray _ t, CSeq l, CSeq l' => lex (earlier t) (fun x y => ~ earlier t x y /\ ~ earlier t y x) l l'
  | TySeq _ t, CSeq l, CSeq l' => lex (earlier t) (fun x y => ~ earlier t x y /\ ~ earlier t y x) l l'
  | _, _, _ => False
  end.

(** the set made of the elements ys, one after the other: sorted, and of
    equivalent ones the first *)
Definition set_of (t : cty) (ys s : list cval) : Prop :=
  StronglySorted (earlier t) s /\
  forall y, In y s <-> exists a b, ys = a ++ y :: b /\ Forall (fun x => earlier t x y \/ earlier t y x) a.
