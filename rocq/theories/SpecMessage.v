(** What the error says: which complaint a text gets, and where.  Declarative,
    on top of SpecGrammar.v; the wording is spelled out here and not taken
    from the model. *)
From Coq Require Import List NArith ZArith Ascii String.
From Verif Require Import Stream Encoding Value Parser Feeds SpecGrammar SpecPos SpecGap.
Import ListNotations.
Open Scope string_scope.
Open Scope list_scope.
Open Scope N_scope.

(** ** Wording *)

(** a number in base 16, upper case, at least four places *)
Definition hexc (d : N) : ascii := ascii_of_N (if d <? 10 then 48 + d else 55 + d).
Fixpoint hexs (k : nat) (n : N) (s : string) : string :=
  match k with
  | O => s
  | S k => hexs k (n / 16) (String (hexc (n mod 16)) s)
  end.
Definition places (n : N) : nat := Nat.max 4 (S (N.to_nat (N.log2 n / 4))).
Definition with_number (msg : string) (n : N) : string :=
  (msg ++ " '\u" ++ hexs (places n) n "" ++ "'")%string.

(** [t] says how the text ends: cleanly, or with something that cannot be
    decoded; then the error names what the decoder left behind *)
Definition undecodable (t : term) (m : string) : Prop :=
  exists c, t = TBad c /\ m = with_number "decoding failed with codepoint" c.

(** the character that comes next; a clean end of the text reads as 0 *)
Definition sees (t : term) (l : list N) (c : N) : Prop :=
  match l with
  | [] => t = TEof /\ c = 0
  | x :: _ => c = x
  end.
(** reading on does not hit an undecodable end *)
Definition more (t : term) (l : list N) : Prop := l <> [] \/ t = TEof.

(** ** Tokens and their names *)

Inductive token_at (cf : pcfg) (t : term) : list N -> string -> Prop :=
| tn_larr l : more t l -> token_at cf t (91 :: l) "begin_array"
| tn_rarr l : more t l -> token_at cf t (93 :: l) "end_array"
| tn_lobj l : more t l -> token_at cf t (123 :: l) "begin_object"
| tn_robj l : more t l -> token_at cf t (125 :: l) "end_object"
| tn_colon l : more t l -> token_at cf t (58 :: l) "name_separator"
| tn_comma l : more t l -> token_at cf t (44 :: l) "value_separator"
| tn_true r l : literal (src_ck cf) r (VBool true) l -> more t l -> token_at cf t r "literal_true"
| tn_false r l : literal (src_ck cf) r (VBool false) l -> more t l -> token_at cf t r "literal_false"
| tn_null r l : literal (src_ck cf) r VNull l -> more t l -> token_at cf t r "literal_null"
| tn_int r z l : number (src_ck cf) (ndebug cf) r (VInt z) l -> more t l -> token_at cf t r "value_integer"
| tn_float r f l : number (src_ck cf) (ndebug cf) r (VFloat f) l -> more t l -> token_at cf t r "value_float"
| tn_string l : token_at cf t (34 :: l) "value_string"
| tn_end : t = TEof -> token_at cf t [] "end_of_input"
| tn_nul l : token_at cf t (0 :: l) "end_of_input".

Definition value_token (n : string) : Prop :=
  In n ["literal_true"; "literal_false"; "literal_null"; "value_string"; "value_integer"; "value_float";
        "begin_array"; "begin_object"].

(** the tokens that may come *)
Definition welcome (k : kind) (n : string) : Prop :=
  match k with
  | KVal => value_token n
  | KElem => value_token n \/ n = "end_array"
  | KAfterElem => n = "value_separator" \/ n = "end_array"
  | KKey => n = "value_string" \/ n = "end_object"
  | KColon => n = "name_separator" \/ n = "end_object"
  | KAfterMem => n = "value_separator" \/ n = "end_object"
  | KEnd => n = "end_of_input"
  end.

(** and what is said of another one.  After the document the message names
    the token that was wanted, not the one that came. *)
Definition unwelcome (k : kind) (n : string) : string :=
  match k with
  | KVal => ("unexpected token '" ++ n ++ "'")%string
  | KElem | KAfterElem => ("unexpected token, expect 'end_array', but got '" ++ n ++ "'")%string
  | KKey | KColon | KAfterMem => ("unexpected token, expect 'end_object', but got '" ++ n ++ "'")%string
  | KEnd => "unexpected token 'end_of_input'"
  end.

(** ** Blanks *)

(** what follows the opening of a block comment that is not closed *)
Definition unclosed (b : list N) : Prop :=
  comment_body b \/ exists b', b = b' ++ [42] /\ comment_body b'.

(** blanks up to the end of the text, the last one possibly unfinished *)
Inductive blank_tail : list N -> Prop :=
| bt_gap g : gap g -> blank_tail g
| bt_slash g : gap g -> blank_tail (g ++ [47])
| bt_line g b : gap g -> Forall (fun c => ~ newline c) b -> blank_tail (g ++ 47 :: 47 :: b)
| bt_block g b : gap g -> unclosed b -> blank_tail (g ++ 47 :: 42 :: b).

(** ** Literals *)

Definition words : list (string * list N) :=
  [("true", [116; 114; 117; 101]); ("false", [102; 97; 108; 115; 101]); ("null", [110; 117; 108; 108])].

(** the characters [w] agree with the word and the next one, [c], does not *)
Inductive bad_literal (ck : ckind) (t : term) : list N -> string -> Prop :=
| blt name x0 w x rest l c : In (name, x0 :: map (low ck) w ++ x :: rest) words ->
    sees t l c -> low ck c <> x ->
    bad_literal ck t (x0 :: w ++ l)
      ("unexpected character '" ++ String (ascii_of_N (c mod 256)) "" ++ "' (expected literal '" ++ name ++ "')")%string.

(** ** Numbers *)

(** integer part and the rest *)
Inductive whole (ck : ckind) (nd : bool) : list N -> list N -> Prop :=
| wh_zero l : whole ck nd (48 :: l) l
| wh_int c ds l : c <> 48 -> nd = true \/ digit ck c -> Forall (digit ck) ds ->
    (dec (Z.of_N (dval c)) ds <= max_int)%Z -> whole ck nd (c :: ds ++ l) l.

(** what follows 'e' is neither a digit from 1 to 9 nor a sign *)
Inductive bad_exponent (ck : ckind) (t : term) : list N -> string -> Prop :=
| bex l c : sees t l c -> ~ (digit ck c /\ c <> 48) -> c <> 43 -> c <> 45 ->
    bad_exponent ck t l (with_number "invalid exponent number, got" c).

Inductive bad_unsigned (ck : ckind) (nd : bool) (t : term) : list N -> string -> Prop :=
| bu_zero e l : is_e e -> bad_unsigned ck nd t (48 :: e :: l) "invalid exponent"
| bu_dot r l c : whole ck nd r (46 :: l) -> sees t l c -> ~ digit ck c ->
    bad_unsigned ck nd t r (with_number "invalid float number, got" c)
| bu_exp r e l m : whole ck nd r (e :: l) -> r <> 48 :: e :: l -> is_e e -> bad_exponent ck t l m ->
    bad_unsigned ck nd t r m
| bu_frac_exp r d ds e l m : whole ck nd r (46 :: d :: ds ++ e :: l) -> Forall (digit ck) (d :: ds) -> is_e e ->
    bad_exponent ck t l m -> bad_unsigned ck nd t r m.

Inductive bad_number (ck : ckind) (nd : bool) (t : term) : list N -> string -> Prop :=
| bn_plain c l m : 48 <= c -> c <= 57 -> bad_unsigned ck nd t (c :: l) m -> bad_number ck nd t (c :: l) m
| bn_sign s l m : s = 43 \/ s = 45 -> bad_unsigned ck nd t l m -> bad_number ck nd t (s :: l) m.

(** ** Strings *)

(** less than four hex digits *)
Definition few_hex (h : list N) : Prop := Forall (fun x => exists v, hexd x v) h /\ (List.length h < 4)%nat.

(** and then something else *)
Inductive bad_hex (t : term) : list N -> string -> Prop :=
| bh h l c : few_hex h -> sees t l c -> (forall v, ~ hexd c v) ->
    bad_hex t (h ++ l) (with_number "'\u' must be followed by 4 hex digits, but got" c).

(** the beginnings of an escape, read without objection *)
Inductive cut_item : list N -> Prop :=
| ci_none : cut_item []
| ci_escape : cut_item [92]
| ci_hex h : few_hex h -> cut_item (92 :: 117 :: h)
| ci_lead h hi : hex4 h hi -> lead hi -> cut_item (92 :: 117 :: h)
| ci_lead_escape h hi : hex4 h hi -> lead hi -> cut_item (92 :: 117 :: h ++ [92])
| ci_lead_hex h hi h2 : hex4 h hi -> lead hi -> few_hex h2 -> cut_item (92 :: 117 :: h ++ 92 :: 117 :: h2).

(** the next character of a string literal cannot be read *)
Inductive bad_item (e : enc) (ck : ckind) (t : term) : list N -> string -> Prop :=
| bi_end : t = TEof -> bad_item e ck t [] "unexpected end of string"
| bi_lost l m : undecodable t m -> cut_item l -> bad_item e ck t l m
| bi_control c l : c < 32 -> bad_item e ck t (c :: l) (with_number "invalid control character" c)
| bi_escape l c : sees t l c -> c <> 117 -> (forall x, ~ short c x) ->
    bad_item e ck t (92 :: l) (with_number "invalid escaped character" c)
| bi_hex l m : bad_hex t l m -> bad_item e ck t (92 :: 117 :: l) m
| bi_lone h hi l c : hex4 h hi -> lead hi -> sees t l c -> c <> 92 ->
    bad_item e ck t (92 :: 117 :: h ++ l)
      (with_number "lead surrogate must be followed by trail surrogate, but got" c)
| bi_lone2 h hi l c : hex4 h hi -> lead hi -> sees t l c -> c <> 117 ->
    bad_item e ck t (92 :: 117 :: h ++ 92 :: l)
      (with_number "lead surrogate must be followed by trail surrogate, but got" c)
| bi_hex2 h hi l m : hex4 h hi -> lead hi -> bad_hex t l m -> bad_item e ck t (92 :: 117 :: h ++ 92 :: 117 :: l) m
| bi_trail h hi h2 lo l : hex4 h hi -> lead hi -> hex4 h2 lo -> ~ trail lo ->
    bad_item e ck t (92 :: 117 :: h ++ 92 :: 117 :: h2 ++ l)
      (with_number "surrogate U+D800...U+DBFF must be followed by U+DC00...U+DFFF, but got" lo)
| bi_encode w cp l : item w cp -> out_units e ck cp = None ->
    bad_item e ck t (w ++ l) (with_number "encoding failed with codepoint" cp).

Inductive bad_string (e : enc) (ck : ckind) (t : term) : list N -> string -> Prop :=
| bst b cps s l m : items b cps -> out_text e ck cps = Some s -> bad_item e ck t l m ->
    bad_string e ck t (34 :: b ++ l) m
| bst_lost b cps s m : items b cps -> out_text e ck cps = Some s -> undecodable t m ->
    bad_string e ck t (34 :: b ++ [34]) m.

(** ** Complaints *)

Definition no_token (c : N) : Prop :=
  ~ space c /\ ~ starts_val c /\ c <> 0 /\ c <> 47 /\ c <> 93 /\ c <> 125 /\ c <> 58 /\ c <> 44.

(** [complaint cf t k r m]: looking for k at r, the text is rejected with m *)
Inductive complaint (cf : pcfg) (t : term) : kind -> list N -> string -> Prop :=
| cp_blank k r m : undecodable t m -> r <> [] -> blank_tail r -> complaint cf t k r m
| cp_slash k l c : sees t l c -> c <> 47 -> c <> 42 -> complaint cf t k (47 :: l) "unexpected character '/'"
| cp_comment k b : t = TEof -> unclosed b ->
    complaint cf t k (47 :: 42 :: b) "unexpected eof while reading comment"
| cp_token k r r' n : blank r r' -> token_at cf t r' n -> ~ welcome k n -> complaint cf t k r (unwelcome k n)
| cp_char k c l : no_token c -> complaint cf t k (c :: l) (with_number "unexpected character" c)
| cp_literal k r m : bad_literal (src_ck cf) t r m -> complaint cf t k r m
| cp_number k r m : bad_number (src_ck cf) (ndebug cf) t r m -> complaint cf t k r m
| cp_string k r m : welcome k "value_string" -> bad_string (tgt_enc cf) (tgt_ck cf) t r m -> complaint cf t k r m
| cp_cut_punct k c m : undecodable t m -> In c [91; 93; 123; 125; 58; 44] -> complaint cf t k [c] m
| cp_cut_literal k r w v m : undecodable t m -> r <> [] -> literal (src_ck cf) (r ++ w) v [] -> complaint cf t k r m
| cp_cut_number k r w v m : undecodable t m -> r <> [] -> number (src_ck cf) (ndebug cf) (r ++ w) v [] ->
    complaint cf t k r m.

Inductive objection (cf : pcfg) (t : term) (l : list N) : string -> Prop :=
| ob_empty m : undecodable t m -> l = [] -> objection cf t l m
| ob_at k r m : spot cf k l r -> complaint cf t k r m -> objection cf t l m.

(** ** Reading the message back *)

(** what() hands out a C string: what is seen ends at the first NUL *)
Fixpoint nul_free (s : string) : Prop :=
  match s with
  | EmptyString => True
  | String c s => c <> Ascii.zero /\ nul_free s
  end.
Definition seen (s r : string) : Prop :=
  nul_free r /\ (s = r \/ exists rest, s = (r ++ String Ascii.zero rest)%string).
