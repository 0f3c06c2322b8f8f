(** The texts of the error messages. *)
From Coq Require Import Ascii.
From Verif Require Import Base Value ValueOps Token FloatFmt.

(** details/token.hpp:50-86 *)
Definition token_name (t : token) : string :=
  match t with
  | Tuninit => "uninitialized"
  | Ttrue => "literal_true"
  | Tfalse => "literal_false"
  | Tnull => "literal_null"
  | Tstring => "value_string"
  | Tint => "value_integer"
  | Tfloat => "value_float"
  | Tbegin_arr => "begin_array"
  | Tend_arr => "end_array"
  | Tbegin_obj => "begin_object"
  | Tend_obj => "end_object"
  | Tname_sep => "name_separator"
  | Tval_sep => "value_separator"
  | Teoi => "end_of_input"
  end.

(** details/declare.hpp:69-89 *)
Definition type_name (t : vtype) : string :=
  match t with
  | TNull => "null"
  | TInteger => "integer"
  | TFloating => "float"
  | TString => "string"
  | TArray => "array"
  | TObject => "object"
  | TBoolean => "boolean"
  end.

(** static_cast<char> of each number *)
Fixpoint bytes (l : list N) : string :=
  match l with
  | [] => ""
  | c :: l => String (ascii_of_N (c mod 256)) (bytes l)
  end.

(** json.hpp:637-643 and 993-998: a number of type uint32_t is appended in
    hexadecimal (json.hpp:76-89) *)
Definition with_code (msg : string) (code : N) : string :=
  msg ++ " '" ++ bytes (json_hex 4 code) ++ "'".

(** json.hpp:331-336, scan_literal *)
Definition literal_msg (code : N) (text : list N) : string :=
  "unexpected character '" ++ bytes [code] ++ "' (expected literal '" ++ bytes text ++ "')".

(** details/parser.hpp:206-211 *)
Definition token_msg (msg : string) (t : token) : string := msg ++ " '" ++ token_name t ++ "'".
(** details/parser.hpp:213-216 *)
Definition expect_msg (t want : token) : string :=
  token_msg ("unexpected token" ++ ", expect '" ++ token_name want ++ "', but got") t.

(** what() returns a C string: it ends at the first NUL *)
Fixpoint c_str (s : string) : string :=
  match s with
  | EmptyString => ""
  | String c s => if Ascii.eqb c zero then "" else String c (c_str s)
  end.
