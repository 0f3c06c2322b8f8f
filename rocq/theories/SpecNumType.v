(** What a text says when numbers are left as they are written: the grammar of
    SpecGrammar.v with literals in place of numbers, and what literals mean in
    a number type. *)
From Verif Require Import Base Stream Encoding Value Token Parser SpecGrammar NumType.
Open Scope N_scope.

(** ** Literals *)

(** The exponent: base 1/10 or 10, the first character (0 for the end of the
    text, 48 for none) and the digits after it. *)
Record lexp := mkExp { e_neg : bool; e_first : N; e_more : list N }.
(** A number: sign, first character, further digits before the point, digits
    after it, exponent. *)
Record lit := mkLit { l_neg : bool; l_first : N; l_more : list N; l_frac : list N; l_exp : option lexp }.

(** a literal without point and exponent is an integer *)
Definition l_int (x : lit) : Prop := l_frac x = [] /\ l_exp x = None.

Inductive exponent_lit (ck : ckind) : list N -> lexp -> list N -> Prop :=
| xl_plain c ds l' : digit ck c -> c <> 48 -> Forall (digit ck) ds -> no_digit ck l' ->
    exponent_lit ck (c :: ds ++ l') (mkExp false c ds) l'
| xl_plus l c ds l' : next l c (ds ++ l') -> Forall (digit ck) ds -> no_digit ck l' ->
    exponent_lit ck (43 :: l) (mkExp false c ds) l'
| xl_minus l c ds l' : next l c (ds ++ l') -> Forall (digit ck) ds -> no_digit ck l' ->
    exponent_lit ck (45 :: l) (mkExp true c ds) l'.

Inductive exp_lit (ck : ckind) : list N -> option lexp -> list N -> Prop :=
| el_none l : no_exp l -> exp_lit ck l None l
| el_some e l x l' : is_e e -> exponent_lit ck l x l' -> exp_lit ck (e :: l) (Some x) l'.

Inductive fraction_lit (ck : ckind) : list N -> list N * option lexp -> list N -> Prop :=
| fl d ds l1 x l' : Forall (digit ck) (d :: ds) -> no_digit ck l1 -> exp_lit ck l1 x l' ->
    fraction_lit ck (d :: ds ++ l1) (d :: ds, x) l'.

Inductive unsigned_lit (ck : ckind) (nd b : bool) : list N -> lit -> list N -> Prop :=
| ul_zero l : no_frac l -> unsigned_lit ck nd b (48 :: l) (mkLit b 48 [] [] None) l
| ul_zero_frac l fr x l' : fraction_lit ck l (fr, x) l' -> unsigned_lit ck nd b (48 :: 46 :: l) (mkLit b 48 [] fr x) l'
| ul_int l c ds l' : next l c (ds ++ l') -> c <> 48 -> (nd = true \/ digit ck c) ->
    Forall (digit ck) ds -> no_digit ck l' -> no_frac l' -> unsigned_lit ck nd b l (mkLit b c ds [] None) l'
| ul_frac l c ds l1 fr x l' : next l c (ds ++ 46 :: l1) -> c <> 48 -> (nd = true \/ digit ck c) ->
    Forall (digit ck) ds -> fraction_lit ck l1 (fr, x) l' -> unsigned_lit ck nd b l (mkLit b c ds fr x) l'
| ul_exp l c ds e l1 x l' : next l c (ds ++ e :: l1) -> c <> 48 -> (nd = true \/ digit ck c) ->
    is_e e -> Forall (digit ck) ds -> exponent_lit ck l1 x l' -> unsigned_lit ck nd b l (mkLit b c ds [] (Some x)) l'.

Inductive number_lit (ck : ckind) (nd : bool) : list N -> lit -> list N -> Prop :=
| nl_plain c l x l' : 48 <= c -> c <= 57 -> unsigned_lit ck nd false (c :: l) x l' -> number_lit ck nd (c :: l) x l'
| nl_plus l x l' : unsigned_lit ck nd false l x l' -> number_lit ck nd (43 :: l) x l'
| nl_minus l x l' : unsigned_lit ck nd true l x l' -> number_lit ck nd (45 :: l) x l'.

(** ** Documents of literals *)
Inductive ldoc :=
| LNum (x : lit)
| LVal (v : value)
| LStr (s : str)
| LArr (l : list ldoc)
| LObj (m : list (str * ldoc)).

Inductive says (cf : pcfg) : list N -> ldoc -> list N -> Prop :=
| sy_lit l l1 v l' : blank l l1 -> literal (src_ck cf) l1 v l' -> says cf l (LVal v) l'
| sy_num l l1 x l' : blank l l1 -> number_lit (src_ck cf) (ndebug cf) l1 x l' -> says cf l (LNum x) l'
| sy_str l l1 s l' : blank l l1 -> strlit (tgt_enc cf) (tgt_ck cf) l1 s l' -> says cf l (LStr s) l'
| sy_arr l l1 ds l' : blank l (91 :: l1) -> says_elems cf l1 ds l' -> says cf l (LArr ds) l'
| sy_obj l l1 ms l' : blank l (123 :: l1) -> says_members cf l1 ms l' -> says cf l (LObj ms) l'
with says_elems (cf : pcfg) : list N -> list ldoc -> list N -> Prop :=
| se_end l l' : blank l (93 :: l') -> says_elems cf l [] l'
| se_last l d l1 l' : says cf l d l1 -> blank l1 (93 :: l') -> says_elems cf l [d] l'
| se_more l d l1 l2 ds l' : says cf l d l1 -> blank l1 (44 :: l2) -> says_elems cf l2 ds l' ->
    says_elems cf l (d :: ds) l'
with says_members (cf : pcfg) : list N -> list (str * ldoc) -> list N -> Prop :=
| sm_end l l' : blank l (125 :: l') -> says_members cf l [] l'
| sm_key l l1 k l2 l' : blank l l1 -> strlit (tgt_enc cf) (tgt_ck cf) l1 k l2 ->
    blank l2 (125 :: l') -> says_members cf l [] l'
| sm_last l l1 k l2 l3 d l4 l' : blank l l1 -> strlit (tgt_enc cf) (tgt_ck cf) l1 k l2 ->
    blank l2 (58 :: l3) -> says cf l3 d l4 -> blank l4 (125 :: l') -> says_members cf l [(k, d)] l'
| sm_more l l1 k l2 l3 d l4 l5 ms l' : blank l l1 -> strlit (tgt_enc cf) (tgt_ck cf) l1 k l2 ->
    blank l2 (58 :: l3) -> says cf l3 d l4 -> blank l4 (44 :: l5) -> says_members cf l5 ms l' ->
    says_members cf l ((k, d) :: ms) l'.

Inductive said (cf : pcfg) : list N -> ldoc -> list N -> Prop :=
| sd_end l d l1 : says cf l d l1 -> blank l1 [] -> said cf l d []
| sd_nul l d l1 l2 : says cf l d l1 -> blank l1 (0 :: l2) -> said cf l d (0 :: l2).

(** ** Meaning *)
Section Meaning.
Variable T : numty.

(** the digits before the point; None where the arithmetic has no result *)
Fixpoint run_digits (i : nI T) (ds : list N) : option (nI T) :=
  match ds with
  | [] => Some i
  | d :: ds' => match i_step T i (dval d) with Ret j => run_digits j ds' | _ => None end
  end.
Definition whole (x : lit) : option (nI T) := run_digits (i_of T (dval (l_first x))) (l_more x).

(** f + d1*p + d2*(p*0.1) + ... *)
Fixpoint run_frac (f p : nF T) (ds : list N) : nF T :=
  match ds with
  | [] => f
  | d :: ds' => run_frac (f_add T f (f_mul T (f_dig T (dval d)) p)) (f_mul T p (f_tenth T)) ds'
  end.
(** base to the power e by squaring: the binary digits of e from the lowest *)
Fixpoint run_pow (base acc : nF T) (e : positive) : nF T :=
  match e with
  | xH => f_mul T acc base
  | xO e' => run_pow (f_mul T base base) acc e'
  | xI e' => run_pow (f_mul T base base) (f_mul T acc base) e'
  end.
Definition run_exp (f : nF T) (x : option lexp) : nF T :=
  match x with
  | None => f
  | Some e =>
      let base := if e_neg e then f_tenth T else f_ten T in
      f_mul T f (match dec32 (dval (e_first e)) (e_more e) with N0 => f_one T | Npos p => run_pow base (f_one T) p end)
  end.

(** the number a literal stands for *)
Inductive stands : lit -> gval (nI T) (nF T) -> Prop :=
| st_int x i j : l_int x -> whole x = Some i -> (if l_neg x then i_neg T i = Ret j else j = i) -> stands x (GInt j)
| st_float x i f : ~ l_int x -> whole x = Some i ->
    f = run_exp (run_frac (f_of T i) (f_tenth T) (l_frac x)) (l_exp x) ->
    stands x (GFloat (if l_neg x then f_neg T f else f)).

(** [obj_of] for any kind of value: sorted, of members with the same key the first *)
Definition obj_of_any {A} (ms m : list (str * A)) : Prop := sorted m /\ forall k v, assoc k v ms <-> assoc k v m.

(** the value of a document; every literal must have a meaning, also one that
    is dropped because its key came before *)
Inductive gives : ldoc -> gval (nI T) (nF T) -> Prop :=
| gi_num x v : stands x v -> gives (LNum x) v
| gi_true : gives (LVal (VBool true)) (GBool true)
| gi_false : gives (LVal (VBool false)) (GBool false)
| gi_null : gives (LVal VNull) GNull
| gi_str s : gives (LStr s) (GStr s)
| gi_arr ds vs : gives_all ds vs -> gives (LArr ds) (GArr vs)
| gi_obj ms vs m : gives_members ms vs -> obj_of_any vs m -> gives (LObj ms) (GObj m)
with gives_all : list ldoc -> list (gval (nI T) (nF T)) -> Prop :=
| ga_nil : gives_all [] []
| ga_cons d v ds vs : gives d v -> gives_all ds vs -> gives_all (d :: ds) (v :: vs)
with gives_members : list (str * ldoc) -> list (str * gval (nI T) (nF T)) -> Prop :=
| gm_nil : gives_members [] []
| gm_cons k d v ms vs : gives d v -> gives_members ms vs -> gives_members ((k, d) :: ms) ((k, v) :: vs).
End Meaning.

(** ** Values that differ in their numbers only *)
Inductive alike {I F I' F'} (RI : I -> I' -> Prop) (RF : F -> F' -> Prop) : gval I F -> gval I' F' -> Prop :=
| al_null : alike RI RF GNull GNull
| al_bool b : alike RI RF (GBool b) (GBool b)
| al_int i i' : RI i i' -> alike RI RF (GInt i) (GInt i')
| al_float f f' : RF f f' -> alike RI RF (GFloat f) (GFloat f')
| al_str s : alike RI RF (GStr s) (GStr s)
| al_arr l l' : Forall2 (alike RI RF) l l' -> alike RI RF (GArr l) (GArr l')
| al_obj m m' : Forall2 (fun p q => fst p = fst q /\ alike RI RF (snd p) (snd q)) m m' -> alike RI RF (GObj m) (GObj m').

(** integer arithmetic that always has a result *)
Definition total (T : numty) : Prop := (forall i d, exists j, i_step T i d = Ret j) /\ (forall i, exists j, i_neg T i = Ret j).

(** a value with these types as one of int64_t and double *)
Fixpoint emb (v : gval Z f64) : value :=
  match v with
  | GNull => VNull
  | GBool b => VBool b
  | GInt i => VInt i
  | GFloat f => VFloat f
  | GStr s => VStr s
  | GArr l => VArr (map emb l)
  | GObj m => VObj (map (fun p => (fst p, emb (snd p))) m)
  end.

(** ** Arbitrary precision *)
Definition num_z : numty :=
  mkNum Z f64 Z.of_N (fun n d => Ret (n * 10 + Z.of_N d)%Z) (fun n => Ret (- n)%Z)
    f64_of_Z (fun d => f64_of_Z (Z.of_N d)) f64_tenth (f64_of_Z 10) (f64_of_Z 1) f64_zero fadd fmul fopp.

(** the digits before the point as a number, and with the sign *)
Definition decimal (x : lit) : Z := dec (Z.of_N (dval (l_first x))) (l_more x).
Definition signed_decimal (x : lit) : Z := if l_neg x then (- decimal x)%Z else decimal x.
(** with ASCII digits only (any other character is possible after a sign in a
    build without assertions, and characters that only look like digits after
    narrowing elsewhere) *)
Definition ascii_lit (x : lit) : Prop := Forall (fun c => 48 <= c <= 57) (l_first x :: l_more x).

(** the integer types there are *)
Definition cpp_ity (t : ity) : Prop := t_bits t = 8 \/ t_bits t = 16 \/ t_bits t = 32 \/ t_bits t = 64.
(** signed types as wide as int: overflow is undefined; all others wrap *)
Definition wide (t : ity) : Prop := t_signed t = true /\ 32 <= t_bits t.

(** the literal is within the type *)
Definition fits (t : ity) (x : lit) : Prop :=
  ascii_lit x /\ (decimal x <= t_max t)%Z /\ (l_int x -> (t_min t <= signed_decimal x)%Z).
Inductive every (Q : lit -> Prop) : ldoc -> Prop :=
| ev_num x : Q x -> every Q (LNum x)
| ev_val v : every Q (LVal v)
| ev_str s : every Q (LStr s)
| ev_arr l : Forall (every Q) l -> every Q (LArr l)
| ev_obj m : Forall (fun p => every Q (snd p)) m -> every Q (LObj m).
