(** RFC 8259 (JSON), its ABNF transcribed, with meanings as configor values.
    Independent of the model's functions and of configor's dialect in
    SpecGrammar.v, except for the meaning of fraction digits and powers, which
    RFC 8259 leaves to the implementation. *)
From Coq Require Import List NArith ZArith Floats.SpecFloat.
From Verif Require Import Stream Encoding Value Parser SpecUnicode SpecGrammar SpecText.
Import ListNotations.
Open Scope N_scope.

(** Things RFC 8259 allows that configor does not take, or takes in another
    sense.  The grammar below is parameterised by the features allowed. *)
Inductive feature :=
| BigInt      (* integer part above 2^63 - 1 *)
| ZeroExp     (* exponent after a plain 0: 0e1 *)
| ExpZero     (* unsigned exponent starting with 0: 1e0, 1e05 *)
| HugeExp     (* exponent of 2^32 or more *)
| LoneLead.   (* \uD800..\uDBFF not followed by \uDC00..\uDFFF *)

Definition ws (g : list N) : Prop := Forall (fun c => c = 32 \/ c = 9 \/ c = 10 \/ c = 13) g.

Section Rfc.
Variable A : feature -> Prop.

(** number = [ minus ] int [ frac ] [ exp ] *)
Inductive minus : list N -> bool -> Prop :=
| mi_no : minus [] false
| mi_yes : minus [45] true.

(** int = zero / ( digit1-9 *DIGIT ) is [numeral] *)

Inductive rfc_frac (z : Z) : list N -> f64 -> Prop :=
| rf_none : rfc_frac z [] (d_of_Z z)
| rf_some fd : fd <> [] -> Forall ascii_digit fd -> rfc_frac z (46 :: fd) (frac_value (d_of_Z z) dtenth fd).

(** exp = e [ minus / plus ] 1*DIGIT *)
Inductive rfc_exp (f : f64) : list N -> f64 -> Prop :=
| rx_plain e ds : is_e e -> ds <> [] -> Forall ascii_digit ds ->
    (hd 0 ds = 48 -> A ExpZero) -> ((4294967296 <= ten ds)%Z -> A HugeExp) ->
    rfc_exp f (e :: ds) (dmul f (dpow (d_of_Z 10) (Z.to_N (ten ds))))
| rx_plus e ds : is_e e -> ds <> [] -> Forall ascii_digit ds -> ((4294967296 <= ten ds)%Z -> A HugeExp) ->
    rfc_exp f (e :: 43 :: ds) (dmul f (dpow (d_of_Z 10) (Z.to_N (ten ds))))
| rx_minus e ds : is_e e -> ds <> [] -> Forall ascii_digit ds -> ((4294967296 <= ten ds)%Z -> A HugeExp) ->
    rfc_exp f (e :: 45 :: ds) (dmul f (dpow dtenth (Z.to_N (ten ds)))).

Inductive rfc_number : list N -> value -> Prop :=
| rn_int p neg z w : minus p neg -> numeral z w -> ((max_int < z)%Z -> A BigInt) ->
    rfc_number (p ++ w) (signed_int neg z)
| rn_frac p neg z w fr f : minus p neg -> numeral z w -> ((max_int < z)%Z -> A BigInt) ->
    rfc_frac z fr f -> fr <> [] -> rfc_number (p ++ w ++ fr) (signed_float neg f)
| rn_exp p neg z w fr f x g : minus p neg -> numeral z w -> ((max_int < z)%Z -> A BigInt) ->
    rfc_frac z fr f -> rfc_exp f x g -> (z = 0%Z -> fr = [] -> A ZeroExp) ->
    rfc_number (p ++ w ++ fr ++ x) (signed_float neg g).

(** char = unescaped / escape ( ... ) *)
Inductive rfc_char : list N -> N -> Prop :=
| rc_raw c : 32 <= c -> c <= 1114111 -> c <> 34 -> c <> 92 -> rfc_char [c] c
| rc_short e c : short e c -> rfc_char [92; e] c
| rc_u h cp : hex4 h cp -> ~ lead cp -> rfc_char (92 :: 117 :: h) cp
| rc_pair h1 hi h2 lo : hex4 h1 hi -> lead hi -> hex4 h2 lo -> trail lo ->
    rfc_char (92 :: 117 :: h1 ++ 92 :: 117 :: h2) (65536 + (hi - 55296) * 1024 + (lo - 56320))
| rc_lone h cp : hex4 h cp -> lead cp -> A LoneLead -> rfc_char (92 :: 117 :: h) cp.

Inductive rfc_chars : list N -> list N -> Prop :=
| rcs_nil : rfc_chars [] []
| rcs_cons w cp b cps : rfc_char w cp -> rfc_chars b cps -> rfc_chars (w ++ b) (cp :: cps).

(** string = quotation-mark *char quotation-mark, with its units in the target
    encoding *)
Inductive rfc_string (e : enc) (ck : ckind) : list N -> str -> Prop :=
| rs b cps s : rfc_chars b cps -> out_text e ck cps = Some s -> rfc_string e ck (34 :: b ++ [34]) s.

Inductive rfc_val (e : enc) (ck : ckind) : list N -> value -> Prop :=
| rv_true : rfc_val e ck [116; 114; 117; 101] (VBool true)
| rv_false : rfc_val e ck [102; 97; 108; 115; 101] (VBool false)
| rv_null : rfc_val e ck [110; 117; 108; 108] VNull
| rv_num w v : rfc_number w v -> rfc_val e ck w v
| rv_str w s : rfc_string e ck w s -> rfc_val e ck w (VStr s)
| rv_arr_empty g : ws g -> rfc_val e ck (91 :: g ++ [93]) (VArr [])
| rv_arr w vs : rfc_elems e ck w vs -> rfc_val e ck (91 :: w ++ [93]) (VArr vs)
| rv_obj_empty g : ws g -> rfc_val e ck (123 :: g ++ [125]) (VObj [])
| rv_obj w ms m : rfc_members e ck w ms -> obj_of ms m -> rfc_val e ck (123 :: w ++ [125]) (VObj m)
with rfc_elems (e : enc) (ck : ckind) : list N -> list value -> Prop :=
| re_one a w b v : ws a -> rfc_val e ck w v -> ws b -> rfc_elems e ck (a ++ w ++ b) [v]
| re_more a w b v r vs : ws a -> rfc_val e ck w v -> ws b -> rfc_elems e ck r vs ->
    rfc_elems e ck (a ++ w ++ b ++ 44 :: r) (v :: vs)
with rfc_members (e : enc) (ck : ckind) : list N -> list (str * value) -> Prop :=
| rm_one a k b c w d key v : ws a -> rfc_string e ck k key -> ws b -> ws c -> rfc_val e ck w v -> ws d ->
    rfc_members e ck (a ++ k ++ b ++ 58 :: c ++ w ++ d) [(key, v)]
| rm_more a k b c w d key v r ms : ws a -> rfc_string e ck k key -> ws b -> ws c -> rfc_val e ck w v -> ws d ->
    rfc_members e ck r ms -> rfc_members e ck (a ++ k ++ b ++ 58 :: c ++ w ++ d ++ 44 :: r) ((key, v) :: ms).

(** JSON-text = ws value ws *)
Inductive rfc_text (e : enc) (ck : ckind) : list N -> value -> Prop :=
| rt a w b v : ws a -> rfc_val e ck w v -> ws b -> rfc_text e ck (a ++ w ++ b) v.
End Rfc.

(** no exceptions *)
Definition plain (f : feature) : Prop := False.
(** all of RFC 8259 *)
Definition any (f : feature) : Prop := True.
