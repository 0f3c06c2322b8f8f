(** The serializer for other integer types than int64_t (details/value.hpp:40-66),
    with double as float_type: details/serializer.hpp:97-197 and json.hpp:858-861
    again (see Serializer.v). *)
From Coq Require Import Floats.SpecFloat.
From Verif Require Import Base Stream Encoding Value Token FloatFmt Message Parser Serializer NumType.
Open Scope N_scope.

Section Dump.
Variable t : ity.
Variable cf : scfg.

(** json.hpp:858-861, os_ << i.  The types of 8 bits are signed char and
    unsigned char, which a stream of char prints as a character.  For other
    streams only the overload for int is viable without a conversion. *)
Definition n_put_integer (z : Z) (s : sst) : sst :=
  if match out_ck cf with C8 => t_bits t <=? 8 | _ => false end then output [Z.to_N (z mod 256)] s else put_integer z s.

Fixpoint n_dump (v : gval Z f64) (s : sst) : sres :=
  match v with
  | GObj m =>
      do* s := next cf Tbegin_obj s in
      match m with
      | [] => next cf Tend_obj s
      | _ =>
          do* s := (fix members (m : list (str * gval Z f64)) (s : sst) : sres :=
             match m with
             | [] => sret s
             | (k, v) :: m' =>
                 do* s := next cf Tstring s in
                 do* s := put_string cf k s in
                 do* s := next cf Tname_sep s in
                 do* s := n_dump v s in
                 match m' with
                 | [] => sret s
                 | _ => do* s := next cf Tval_sep s in members m' s
                 end
             end) m s in
          next cf Tend_obj s
      end
  | GArr l =>
      do* s := next cf Tbegin_arr s in
      match l with
      | [] => next cf Tend_arr s
      | _ =>
          do* s := (fix elems (l : list (gval Z f64)) (s : sst) : sres :=
             match l with
             | [] => sret s
             | v :: l' =>
                 do* s := n_dump v s in
                 match l' with
                 | [] => sret s
                 | _ => do* s := next cf Tval_sep s in elems l' s
                 end
             end) l s in
          next cf Tend_arr s
      end
  | GStr x => do* s := next cf Tstring s in put_string cf x s
  | GBool true => next cf Ttrue s
  | GBool false => next cf Tfalse s
  | GInt z => do* s := next cf Tint s in sret (n_put_integer z s)
  | GFloat f => do* s := next cf Tfloat s in put_float cf f s
  | GNull => next cf Tnull s
  end.

(** details/serializer.hpp:57-71 and 244-251 *)
Definition n_dump_string (v : gval Z f64) : outcome (list N) :=
  let '(s, r) := (do* s := n_dump v (init_sst cf (mkOs [] false)) in next cf Teoi s) in
  let* _ := fst (handle HNone r) in Ret (os_units (s_os s)).
End Dump.
