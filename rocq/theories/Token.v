(** details/token.hpp:26-49 *)
Inductive token :=
| Tuninit | Ttrue | Tfalse | Tnull | Tstring | Tint | Tfloat
| Tbegin_arr | Tend_arr | Tbegin_obj | Tend_obj | Tname_sep | Tval_sep | Teoi.

Definition token_eqb (a b : token) : bool :=
  match a, b with
  | Tuninit, Tuninit | Ttrue, Ttrue | Tfalse, Tfalse | Tnull, Tnull
  | Tstring, Tstring | Tint, Tint | Tfloat, Tfloat
  | Tbegin_arr, Tbegin_arr | Tend_arr, Tend_arr
  | Tbegin_obj, Tbegin_obj | Tend_obj, Tend_obj
  | Tname_sep, Tname_sep | Tval_sep, Tval_sep | Teoi, Teoi => true
  | _, _ => false
  end.

(** The tokens that start a value: the case lists at
    details/parser.hpp:144-152 and json.hpp:748-757, 770-780. *)
Definition starts_value (t : token) : bool :=
  match t with
  | Ttrue | Tfalse | Tnull | Tstring | Tint | Tfloat | Tbegin_arr | Tbegin_obj => true
  | _ => false
  end.
