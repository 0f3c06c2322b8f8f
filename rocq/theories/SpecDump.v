(** The text json::dump writes, as a declarative relation.  Nothing here calls
    the serializer's functions; the data types, the codec specification and
    (for non-integral numbers) the standard library's number formatting are
    shared. *)
From Coq Require Import List NArith ZArith Floats.SpecFloat.
From Verif Require Import Base Stream Encoding Value FloatFmt Serializer Feeds SpecUnicode SpecGrammar SpecText SpecRfc.
Import ListNotations.
Open Scope N_scope.

(** ** Hexadecimal numbers, upper case *)
Definition uhex (c d : N) : Prop := (48 <= c <= 57 /\ d = c - 48) \/ (65 <= c <= 70 /\ d = c - 55).
Inductive hexnum : N -> list N -> Prop :=
| hn_nil : hexnum 0 []
| hn_snoc n w c d : hexnum n w -> uhex c d -> hexnum (16 * n + d) (w ++ [c]).

(** n in hexadecimal with at least [k] digits and no superfluous zeros beyond *)
Definition padded (k : nat) (n : N) (w : list N) : Prop :=
  hexnum n w /\ (length w = k \/ ((k < length w)%nat /\ hd 0 w <> 48)).

(** ** Strings *)

(** Text of one character.  [raw c w]: w is the unescaped character c. *)
Inductive char_text (esc : bool) (raw : N -> list N -> Prop) : N -> list N -> Prop :=
| ct_short c e : short e c -> c <> 47 -> char_text esc raw c [92; e]
| ct_u c w : (forall e, ~ short e c \/ c = 47) -> c < 32 \/ (esc = true /\ 127 <= c) -> c <= 65535 ->
    padded 2 c w -> char_text esc raw c (92 :: 117 :: w)
(* the reductions modulo 2^16 only matter for numbers that are not Unicode
   code points, which only the "ignore" encoding lets through *)
| ct_pair c w1 w2 : esc = true -> 65535 < c -> c < 4294967296 ->
    padded 4 ((55296 + (c - 65536) / 1024) mod 65536) w1 ->
    padded 4 (56320 + (c - 65536) mod 1024) w2 ->
    char_text esc raw c (92 :: 117 :: w1 ++ 92 :: 117 :: w2)
| ct_raw c w : 32 <= c -> c <> 34 -> c <> 92 -> (esc = true -> c < 127) -> raw c w -> char_text esc raw c w.

Inductive chars_text (esc : bool) (raw : N -> list N -> Prop) : list N -> list N -> Prop :=
| cst_nil : chars_text esc raw [] []
| cst_cons c w cps ws : char_text esc raw c w -> chars_text esc raw cps ws ->
    chars_text esc raw (c :: cps) (w ++ ws).

(** ** Numbers *)
Inductive int_text : Z -> list N -> Prop :=
| itx_pos z w : numeral z w -> int_text z w
| itx_neg z w : (z < 0)%Z -> numeral (- z) w -> int_text z (45 :: w).

Definition int64 (z : Z) : Prop := (-9223372036854775808 <= z <= 9223372036854775807)%Z.

Inductive float_text (ff : ffield) (prec : Z) (f : f64) : list N -> Prop :=
| ftx_int z w : is_int f z -> int64 z -> int_text z w -> float_text ff prec f (w ++ [46; 48])
| ftx_frac : (forall z, ~ is_int f z) -> (forall s, f <> S754_infinity s) ->
    float_text ff prec f (fmt_float ff prec f).

(** ** Layout *)
Record layout := mkLay {
  nl : list N;               (* line break *)
  ind : N -> list N;         (* indentation at a depth *)
  sp : list N                (* after a colon *)
}.

Definition compact : layout := mkLay [] (fun _ => []) [].
Definition indented (step ch : N) : layout :=
  mkLay [10] (fun d => repeat ch (N.to_nat (d * step))) [ch].

Section Rend.
(** [str s w]: w is the quoted text of string s.  [flt f w]: w is the text of
    the number f. *)
Variables (str_text : str -> list N -> Prop) (flt_text : f64 -> list N -> Prop) (la : layout).

Inductive rend : N -> value -> list N -> Prop :=
| rd_null d : rend d VNull [110; 117; 108; 108]
| rd_true d : rend d (VBool true) [116; 114; 117; 101]
| rd_false d : rend d (VBool false) [102; 97; 108; 115; 101]
| rd_int d z w : int_text z w -> rend d (VInt z) w
| rd_float d f w : flt_text f w -> rend d (VFloat f) w
| rd_str d s w : str_text s w -> rend d (VStr s) w
| rd_arr_nil d : rend d (VArr []) (91 :: nl la ++ ind la d ++ [93])
| rd_arr d v vs w : rend_elems (d + 1) (v :: vs) w -> rend d (VArr (v :: vs)) (91 :: w ++ nl la ++ ind la d ++ [93])
| rd_obj_nil d : rend d (VObj []) (123 :: nl la ++ ind la d ++ [125])
| rd_obj d p m w : rend_members (d + 1) (p :: m) w -> rend d (VObj (p :: m)) (123 :: w ++ nl la ++ ind la d ++ [125])
with rend_elems : N -> list value -> list N -> Prop :=
| rde_one d v w : rend d v w -> rend_elems d [v] (nl la ++ ind la d ++ w)
| rde_more d v w v' vs ws : rend d v w -> rend_elems d (v' :: vs) ws ->
    rend_elems d (v :: v' :: vs) (nl la ++ ind la d ++ w ++ 44 :: ws)
with rend_members : N -> list (str * value) -> list N -> Prop :=
| rdm_one d k wk v w : str_text k wk -> rend d v w ->
    rend_members d [(k, v)] (nl la ++ ind la d ++ wk ++ 58 :: sp la ++ w)
| rdm_more d k wk v w p m ws : str_text k wk -> rend d v w -> rend_members d (p :: m) ws ->
    rend_members d ((k, v) :: p :: m) (nl la ++ ind la d ++ wk ++ 58 :: sp la ++ w ++ 44 :: ws).
End Rend.

(** Strings as units: the value's encoding is decoded to code points, each of
    which is written escaped or in the target encoding. *)
Inductive unit_string (cf : scfg) (s : str) : list N -> Prop :=
| us cps w : feeds (val_enc cf) (val_ck cf) (is_open (IStr s)) cps TEof ->
    chars_text (s_esc cf) (fun c w => out_text (out_enc cf) (out_ck cf) [c] = Some w) cps w ->
    unit_string cf s (34 :: w ++ [34]).

(** nesting of containers *)
Fixpoint height (v : value) : N :=
  match v with
  | VArr l => 1 + fold_right N.max 0 (map height l)
  | VObj m => 1 + fold_right N.max 0 (map (fun p => height (snd p)) m)
  | _ => 0
  end.

(** the scalars and keys of a value in document order *)
Inductive leaf := LStr (s : str) | LFloat (f : f64).
Fixpoint leaves (v : value) : list leaf :=
  match v with
  | VArr l => concat (map leaves l)
  | VObj m => concat (map (fun p => LStr (fst p) :: leaves (snd p)) m)
  | VStr s => [LStr s]
  | VFloat f => [LFloat f]
  | _ => []
  end.

(** [sub x v]: x is v or one of the values inside it *)
Inductive sub (x : value) : value -> Prop :=
| sub_refl : sub x x
| sub_arr v l : In v l -> sub x v -> sub x (VArr l)
| sub_obj k v m : In (k, v) m -> sub x v -> sub x (VObj m).

(** ** Values that are read back as they were *)

(** characters whose text is JSON for the character; [A LoneLead] allows
    unpaired lead surrogates *)
Definition ok_char (A : feature -> Prop) (esc : bool) (c : N) : Prop :=
  c <= 1114111 /\ (SpecGrammar.lead c -> A LoneLead) /\
  (c < 32 -> c = 8 \/ c = 9 \/ c = 10 \/ c = 12 \/ c = 13) /\
  (esc = true -> c < 127 \/ 4096 <= c).
(** an encoding that decodes the character to itself *)
Definition faithful (e : enc) (c : N) : Prop :=
  match e with
  | Ignore => c < 128
  | Utf16 => ~ SpecGrammar.lead c
  | _ => True
  end.
Inductive ok_string (A : feature -> Prop) (cf : scfg) (s : str) : Prop :=
| oks cps : out_text (val_enc cf) (val_ck cf) cps = Some s ->
    Forall (fun c => ok_char A (s_esc cf) c /\ faithful (val_enc cf) c) cps -> ok_string A cf s.
(** an integral double other than -0.0 *)
Definition ok_float (f : f64) : Prop :=
  valid_binary 53 1024 f = true /\ f <> S754_zero true /\ exists z, is_int f z /\ (- 9223372036854775808 < z < 9223372036854775808)%Z.

Definition ok_node_but (F : f64 -> Prop) (A : feature -> Prop) (cf : scfg) (v : value) : Prop :=
  match v with
  | VInt z => int64 z /\ (z = -9223372036854775808 -> A BigInt)%Z
  | VFloat f => F f
  | VStr s => ok_string A cf s
  | VObj m => sorted m /\ Forall (fun p => ok_string A cf (fst p)) m
  | _ => True
  end.
Definition ok_value_but (F : f64 -> Prop) (A : feature -> Prop) (cf : scfg) (v : value) : Prop :=
  forall x, sub x v -> ok_node_but F A cf x.
Definition ok_value : (feature -> Prop) -> scfg -> value -> Prop := ok_value_but ok_float.

(** ** Values that are read back except for the precision of numbers *)

(** a finite double, if integral within the range of the integers *)
Definition finite_float (f : f64) : Prop :=
  valid_binary 53 1024 f = true /\ f <> S754_nan /\ (forall s, f <> S754_infinity s) /\
  forall z, is_int f z -> (- 9223372036854775808 < z < 9223372036854775808)%Z.

(** v' is v with every number f of floating type replaced by an x with [F f x] *)
Inductive echo (F : f64 -> value -> Prop) : value -> value -> Prop :=
| ec_float f x : F f x -> echo F (VFloat f) x
| ec_arr l l' : Forall2 (echo F) l l' -> echo F (VArr l) (VArr l')
| ec_obj m m' : Forall2 (fun p q => fst p = fst q /\ echo F (snd p) (snd q)) m m' -> echo F (VObj m) (VObj m')
| ec_same v : match v with VFloat _ | VArr _ | VObj _ => False | _ => True end -> echo F v v.

(** the number that the text of f denotes in JSON *)
Definition number_read (A : feature -> Prop) (ff : ffield) (prec : Z) (f : f64) (x : value) : Prop :=
  exists w, float_text ff prec f w /\ rfc_number A w x.

(** ** Values that cannot be written *)
(** the character needs encoding and the target encoding has no units for it *)
Definition unwritable (cf : scfg) (c : N) : Prop :=
  32 <= c /\ c <> 34 /\ c <> 92 /\ (s_esc cf = true -> c < 127) /\ out_text (out_enc cf) (out_ck cf) [c] = None.
Inductive bad_leaf (cf : scfg) : leaf -> Prop :=
| bl_decode s cps x : feeds (val_enc cf) (val_ck cf) (is_open (IStr s)) cps (TBad x) -> bad_leaf cf (LStr s)
| bl_encode s cps t : feeds (val_enc cf) (val_ck cf) (is_open (IStr s)) cps t -> Exists (unwritable cf) cps ->
    bad_leaf cf (LStr s)
| bl_inf b : bad_leaf cf (LFloat (S754_infinity b))
| bl_big f z : is_int f z -> ~ int64 z -> bad_leaf cf (LFloat f).

(** ** Options: the last one of a kind decides *)
Inductive chosen {A} (says : sopt -> option A) (default : A) : list sopt -> A -> Prop :=
| ch_none opts : (forall o, In o opts -> says o = None) -> chosen says default opts default
| ch_last before o after x : says o = Some x -> (forall o', In o' after -> says o' = None) ->
    chosen says default (before ++ o :: after) x.

(** pretty?, step, character *)
Definition says_indent (o : sopt) : option (bool * N * N) :=
  match o with OIndent step ch => Some (negb (step =? 0), step, ch) | _ => None end.
Definition says_escape (o : sopt) : option bool := match o with OEscape b => Some b | _ => None end.
Definition says_precision (o : sopt) : option (Z * ffield) := match o with OPrecision p ff => Some (p, ff) | _ => None end.
Definition says_source (o : sopt) : option enc := match o with OSrcEnc e | OEnc e => Some e | _ => None end.
Definition says_target (o : sopt) : option enc := match o with OTgtEnc e | OEnc e => Some e | _ => None end.
