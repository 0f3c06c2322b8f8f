(** The dialect json::parse accepts, as a declarative grammar over code
    points, with the meaning of each phrase.  Nothing here calls the model's
    functions; only its data types (values, character kinds, encodings,
    parser configuration) are shared.

    Phrases are written "text l starts with a phrase of meaning x and l' is
    what follows it". *)
From Coq Require Import List NArith ZArith Floats.SpecFloat.
From Verif Require Import Stream Encoding Value Parser SpecUnicode.
Import ListNotations.
Open Scope N_scope.

(** ** Blanks: white space and comments *)

Definition space (c : N) : Prop := c = 32 \/ c = 9 \/ c = 10 \/ c = 13.
Definition newline (c : N) : Prop := c = 10 \/ c = 13.

(** Body of a block comment.  A star and the character after it are read as a
    pair, so "***/" does not close a comment that "**/" ... would: a star
    directly before the closing "*/" hides it. *)
Inductive comment_body : list N -> Prop :=
| cb_nil : comment_body []
| cb_char c b : c <> 42 -> comment_body b -> comment_body (c :: b)
| cb_star c b : c <> 47 -> comment_body b -> comment_body (42 :: c :: b).

(** [blank l l']: l' is l without its leading blanks.  The last line comment
    may be ended by the end of the text. *)
Inductive blank : list N -> list N -> Prop :=
| bl_none l : match l with [] => True | c :: _ => ~ space c /\ c <> 47 end -> blank l l
| bl_space c l l' : space c -> blank l l' -> blank (c :: l) l'
| bl_line b n l l' : Forall (fun c => ~ newline c) b -> newline n -> blank l l' ->
    blank (47 :: 47 :: b ++ n :: l) l'
| bl_line_end b : Forall (fun c => ~ newline c) b -> blank (47 :: 47 :: b) []
| bl_block b l l' : comment_body b -> blank l l' ->
    blank (47 :: 42 :: b ++ 42 :: 47 :: l) l'.

(** ** Numbers *)

(** What a code point looks like after conversion to the source char type. *)
Definition low (ck : ckind) (c : N) : N :=
  c mod (match ck with C8 => 256 | C16 => 65536 | C32 => 4294967296 end).

Definition digit (ck : ckind) (c : N) : Prop := 48 <= low ck c /\ low ck c <= 57.
Definition no_digit (ck : ckind) (l : list N) : Prop :=
  match l with [] => True | c :: _ => ~ digit ck c end.
(** not at a '.', 'e' or 'E' *)
Definition no_frac (l : list N) : Prop :=
  match l with [] => True | c :: _ => c <> 46 /\ c <> 101 /\ c <> 69 end.
Definition no_exp (l : list N) : Prop :=
  match l with [] => True | c :: _ => c <> 101 /\ c <> 69 end.
Definition is_e (c : N) : Prop := c = 101 \/ c = 69.

(** uint32_t difference c - '0' *)
Definition dval (c : N) : N := (c + 4294967296 - 48) mod 4294967296.

(** decimal value of digits [ds] after an initial value *)
Fixpoint dec (acc : Z) (ds : list N) : Z :=
  match ds with
  | [] => acc
  | d :: ds' => dec (acc * 10 + Z.of_N (dval d)) ds'
  end.

(** exponents are accumulated modulo 2^32 *)
Fixpoint dec32 (acc : N) (ds : list N) : N :=
  match ds with
  | [] => acc
  | d :: ds' => dec32 ((acc * 10 + dval d) mod 4294967296) ds'
  end.

(** IEEE double operations, round to nearest even *)
Definition dadd (a b : f64) : f64 := SFadd 53 1024 a b.
Definition dmul (a b : f64) : f64 := SFmul 53 1024 a b.
Definition d_of_Z (z : Z) : f64 := binary_normalize 53 1024 z 0 false.
(** the double nearest to 1/10 *)
Definition dtenth : f64 := SFdiv 53 1024 (d_of_Z 1) (d_of_Z 10).

(** fraction digits: f + d1*0.1 + d2*(0.1*0.1) + ..., each step rounded *)
Fixpoint frac_value (f p : f64) (ds : list N) : f64 :=
  match ds with
  | [] => f
  | d :: ds' => frac_value (dadd f (dmul (d_of_Z (Z.of_N (dval d))) p)) (dmul p dtenth) ds'
  end.

(** base to the power e by repeated squaring *)
Fixpoint pow_acc (base acc : f64) (e : positive) : f64 :=
  match e with
  | xH => dmul acc base
  | xO e' => pow_acc (dmul base base) acc e'
  | xI e' => pow_acc (dmul base base) (dmul acc base) e'
  end.
Definition dpow (base : f64) (e : N) : f64 :=
  match e with N0 => d_of_Z 1 | Npos p => pow_acc base (d_of_Z 1) p end.

(** The next character, reading end of input as character 0. *)
Inductive next : list N -> N -> list N -> Prop :=
| next_end : next [] 0 []
| next_char c l : next (c :: l) c l.

(** What follows the 'e': a non-zero digit and digits, or a sign, *any*
    character, and digits. *)
Inductive exponent (ck : ckind) (f : f64) : list N -> f64 -> list N -> Prop :=
| ex_plain c ds l' : digit ck c -> c <> 48 ->
    Forall (digit ck) ds -> no_digit ck l' ->
    exponent ck f (c :: ds ++ l') (dmul f (dpow (d_of_Z 10) (dec32 (dval c) ds))) l'
| ex_plus l c ds l' : next l c (ds ++ l') -> Forall (digit ck) ds -> no_digit ck l' ->
    exponent ck f (43 :: l) (dmul f (dpow (d_of_Z 10) (dec32 (dval c) ds))) l'
| ex_minus l c ds l' : next l c (ds ++ l') -> Forall (digit ck) ds -> no_digit ck l' ->
    exponent ck f (45 :: l) (dmul f (dpow dtenth (dec32 (dval c) ds))) l'.

Inductive exp_opt (ck : ckind) (f : f64) : list N -> f64 -> list N -> Prop :=
| eo_none l : no_exp l -> exp_opt ck f l f l
| eo_some e l f' l' : is_e e -> exponent ck f l f' l' -> exp_opt ck f (e :: l) f' l'.

(** What follows the '.': digits and an optional exponent. *)
Inductive fraction (ck : ckind) (z : Z) : list N -> f64 -> list N -> Prop :=
| fr d ds l1 f l' : Forall (digit ck) (d :: ds) -> no_digit ck l1 ->
    exp_opt ck (frac_value (d_of_Z z) dtenth (d :: ds)) l1 f l' ->
    fraction ck z (d :: ds ++ l1) f l'.

Definition max_int : Z := 9223372036854775807.

(** A number without its sign.  A leading zero stands alone before the point
    and takes no exponent.  With assertions on ([nd] = false) the first
    character must be a digit; it always is when there was no sign. *)
Inductive unsigned (ck : ckind) (nd : bool) : list N -> value -> list N -> Prop :=
| un_zero l : no_frac l -> unsigned ck nd (48 :: l) (VInt 0) l
| un_zero_frac l f l' : fraction ck 0 l f l' -> unsigned ck nd (48 :: 46 :: l) (VFloat f) l'
| un_int l c ds l' : next l c (ds ++ l') -> c <> 48 -> (nd = true \/ digit ck c) ->
    Forall (digit ck) ds -> no_digit ck l' -> no_frac l' ->
    (dec (Z.of_N (dval c)) ds <= max_int)%Z ->
    unsigned ck nd l (VInt (dec (Z.of_N (dval c)) ds)) l'
| un_frac l c ds l1 f l' : next l c (ds ++ 46 :: l1) -> c <> 48 -> (nd = true \/ digit ck c) ->
    Forall (digit ck) ds -> (dec (Z.of_N (dval c)) ds <= max_int)%Z ->
    fraction ck (dec (Z.of_N (dval c)) ds) l1 f l' ->
    unsigned ck nd l (VFloat f) l'
| un_exp l c ds e l1 f l' : next l c (ds ++ e :: l1) -> c <> 48 -> (nd = true \/ digit ck c) ->
    is_e e -> Forall (digit ck) ds -> (dec (Z.of_N (dval c)) ds <= max_int)%Z ->
    exponent ck (d_of_Z (dec (Z.of_N (dval c)) ds)) l1 f l' ->
    unsigned ck nd l (VFloat f) l'.

Definition negate (v : value) : value :=
  match v with
  | VInt z => VInt (- z)
  | VFloat f => VFloat (SFopp f)
  | v => v
  end.

Inductive number (ck : ckind) (nd : bool) : list N -> value -> list N -> Prop :=
| nu_plain c l v l' : 48 <= c -> c <= 57 -> unsigned ck nd (c :: l) v l' -> number ck nd (c :: l) v l'
| nu_plus l v l' : unsigned ck nd l v l' -> number ck nd (43 :: l) v l'
| nu_minus l v l' : unsigned ck nd l v l' -> number ck nd (45 :: l) (negate v) l'.

(** ** Literals: the first letter is exact, the others after narrowing *)
Inductive literal (ck : ckind) : list N -> value -> list N -> Prop :=
| li_true w l : map (low ck) w = [114; 117; 101] -> literal ck (116 :: w ++ l) (VBool true) l
| li_false w l : map (low ck) w = [97; 108; 115; 101] -> literal ck (102 :: w ++ l) (VBool false) l
| li_null w l : map (low ck) w = [117; 108; 108] -> literal ck (110 :: w ++ l) VNull l.

(** ** Strings *)

Inductive hexd : N -> N -> Prop :=
| hx_num c : 48 <= c -> c <= 57 -> hexd c (c - 48)
| hx_up c : 65 <= c -> c <= 70 -> hexd c (c - 55)
| hx_low c : 97 <= c -> c <= 102 -> hexd c (c - 87).

Inductive hex4 : list N -> N -> Prop :=
| hx4 a b c d x y z w : hexd a x -> hexd b y -> hexd c z -> hexd d w ->
    hex4 [a; b; c; d] (x * 4096 + y * 256 + z * 16 + w).

Inductive short : N -> N -> Prop :=
| sh_quote : short 34 34
| sh_bslash : short 92 92
| sh_slash : short 47 47
| sh_b : short 98 8
| sh_f : short 102 12
| sh_n : short 110 10
| sh_r : short 114 13
| sh_t : short 116 9.

Definition lead (cp : N) : Prop := 55296 <= cp /\ cp <= 56319.
Definition trail (cp : N) : Prop := 56320 <= cp /\ cp <= 57343.

(** one character of a string literal *)
Inductive item : list N -> N -> Prop :=
| it_raw c : 32 <= c -> c <> 34 -> c <> 92 -> item [c] c
| it_short e c : short e c -> item [92; e] c
| it_u h cp : hex4 h cp -> ~ lead cp -> item (92 :: 117 :: h) cp
| it_pair h1 hi h2 lo : hex4 h1 hi -> lead hi -> hex4 h2 lo -> trail lo ->
    item (92 :: 117 :: h1 ++ 92 :: 117 :: h2) (65536 + (hi - 55296) * 1024 + (lo - 56320)).

Inductive items : list N -> list N -> Prop :=
| its_nil : items [] []
| its_cons w cp b cps : item w cp -> items b cps -> items (w ++ b) (cp :: cps).

(** Units of a code point in the target encoding.  None: not encodable, which
    includes the one unit equal to the end-of-file value. *)
Definition out_units (e : enc) (ck : ckind) (cp : N) : option (list N) :=
  match (match e with
         | Ignore => Some [low ck cp]
         | Utf8 => units8 cp
         | Utf16 => units16 cp
         | Utf32 => units32 cp
         end) with
  | Some us =>
      if existsb (fun u => match ck with C8 => false | C16 => u =? 65535 | C32 => u =? 4294967295 end) us
      then None else Some us
  | None => None
  end.

Fixpoint out_text (e : enc) (ck : ckind) (cps : list N) : option (list N) :=
  match cps with
  | [] => Some []
  | cp :: cps' =>
      match out_units e ck cp, out_text e ck cps' with
      | Some us, Some s => Some (us ++ s)
      | _, _ => None
      end
  end.

Inductive strlit (e : enc) (ck : ckind) : list N -> str -> list N -> Prop :=
| sl b cps s l' : items b cps -> out_text e ck cps = Some s ->
    strlit e ck (34 :: b ++ 34 :: l') s l'.

(** ** Objects: keys in strictly increasing order, first occurrence wins *)

Inductive key_lt : str -> str -> Prop :=
| kl_nil c k : key_lt [] (c :: k)
| kl_head a b k k' : a < b -> key_lt (a :: k) (b :: k')
| kl_tail a k k' : key_lt k k' -> key_lt (a :: k) (a :: k').

Inductive sorted {A} : list (str * A) -> Prop :=
| so_nil : sorted []
| so_cons k v m : Forall (fun p => key_lt k (fst p)) m -> sorted m -> sorted ((k, v) :: m).

(** [assoc k v ms]: the first entry of ms with key k has value v *)
Inductive assoc {A} (k : str) (v : A) : list (str * A) -> Prop :=
| as_here ms : assoc k v ((k, v) :: ms)
| as_next k' v' ms : k' <> k -> assoc k v ms -> assoc k v ((k', v') :: ms).

Definition obj_of (ms m : list (str * value)) : Prop :=
  sorted m /\ forall k v, assoc k v ms <-> assoc k v m.

(** ** Values *)

Inductive val (cf : pcfg) : list N -> value -> list N -> Prop :=
| v_lit l l1 v l' : blank l l1 -> literal (src_ck cf) l1 v l' -> val cf l v l'
| v_num l l1 v l' : blank l l1 -> number (src_ck cf) (ndebug cf) l1 v l' -> val cf l v l'
| v_str l l1 s l' : blank l l1 -> strlit (tgt_enc cf) (tgt_ck cf) l1 s l' -> val cf l (VStr s) l'
| v_arr l l1 vs l' : blank l (91 :: l1) -> elems cf l1 vs l' -> val cf l (VArr vs) l'
| v_obj l l1 ms m l' : blank l (123 :: l1) -> members cf l1 ms l' -> obj_of ms m ->
    val cf l (VObj m) l'
(** array contents, up to and including the closing bracket; a comma may
    precede it *)
with elems (cf : pcfg) : list N -> list value -> list N -> Prop :=
| el_end l l' : blank l (93 :: l') -> elems cf l [] l'
| el_last l v l1 l' : val cf l v l1 -> blank l1 (93 :: l') -> elems cf l [v] l'
| el_more l v l1 l2 vs l' : val cf l v l1 -> blank l1 (44 :: l2) -> elems cf l2 vs l' ->
    elems cf l (v :: vs) l'
(** object contents; a comma or a key without value may precede the brace *)
with members (cf : pcfg) : list N -> list (str * value) -> list N -> Prop :=
| me_end l l' : blank l (125 :: l') -> members cf l [] l'
| me_key l l1 k l2 l' : blank l l1 -> strlit (tgt_enc cf) (tgt_ck cf) l1 k l2 ->
    blank l2 (125 :: l') -> members cf l [] l'
| me_last l l1 k l2 l3 v l4 l' : blank l l1 -> strlit (tgt_enc cf) (tgt_ck cf) l1 k l2 ->
    blank l2 (58 :: l3) -> val cf l3 v l4 -> blank l4 (125 :: l') -> members cf l [(k, v)] l'
| me_more l l1 k l2 l3 v l4 l5 ms l' : blank l l1 -> strlit (tgt_enc cf) (tgt_ck cf) l1 k l2 ->
    blank l2 (58 :: l3) -> val cf l3 v l4 -> blank l4 (44 :: l5) -> members cf l5 ms l' ->
    members cf l ((k, v) :: ms) l'.

(** A document: a value, blanks, then the end of the text or a NUL (and
    whatever follows it). *)
Inductive document (cf : pcfg) : list N -> value -> list N -> Prop :=
| doc_end l v l1 : val cf l v l1 -> blank l1 [] -> document cf l v []
| doc_nul l v l1 l2 : val cf l v l1 -> blank l1 (0 :: l2) -> document cf l v (0 :: l2).
