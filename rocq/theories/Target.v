(** The serializer writing to an arbitrary stream buffer: a basic_oadapterstream
    (details/stream.hpp:38-112), a file, or any other target, which may refuse
    characters.

    basic_serializer writes through an ostream of its own on the buffer of the
    stream it was given (details/serializer.hpp:47-55).  An exception thrown by
    the buffer is caught by the ostream, which sets badbit; so throwing is
    refusing.

    Simplifications: a number, and an escaped code unit, is written at once.

    The serializer is that of Serializer, with the operations of the ostream
    below in place of those of Stream. *)
From Coq Require Import Floats.SpecFloat.
From Verif Require Import Base Stream Encoding Value Token FloatFmt Message Parser Serializer.

(** what a stream buffer is asked to do: sputc, sputn *)
Inductive call := Put (u : N) | Write (l : list N).

Section Target.
Context {T : Type}.
(** the buffer's next state, and whether it took all *)
Variable take : T -> call -> T * bool.

Record tstream := mkTs { ts_buf : T; ts_fail : bool }.

(** ostream::put: badbit also when the unit is eof(), whatever the buffer
    does with it *)
Definition ts_put (ck : ckind) (o : tstream) (u : N) : tstream :=
  if ts_fail o then o
  else let '(t, ok) := take (ts_buf o) (Put u) in mkTs t (negb ok || Z.eqb (Z.of_N u) (eof_int ck)).
Definition ts_write (o : tstream) (l : list N) : tstream :=
  if ts_fail o then o
  else let '(t, ok) := take (ts_buf o) (Write l) in mkTs t (negb ok).
Definition ts_setfail (o : tstream) : tstream := mkTs (ts_buf o) true.

(** encoding.hpp:89-92, 111-148, 222-239, 282-289 *)
Definition t_encode (e : enc) (ck : ckind) (o : tstream) (cp : N) : tstream :=
  match e with
  | Ignore => ts_put ck o (narrow ck cp)
  | Utf8 =>
      if cp <? 128 then ts_put ck o (narrow ck cp)
      else if cp <=? 2047 then
        let o := ts_put ck o (narrow ck (N.lor 192 (N.shiftr cp 6))) in
        ts_put ck o (narrow ck (N.lor 128 (N.land cp 63)))
      else if cp <=? 65535 then
        let o := ts_put ck o (narrow ck (N.lor 224 (N.shiftr cp 12))) in
        let o := ts_put ck o (narrow ck (N.lor 128 (N.land (N.shiftr cp 6) 63))) in
        ts_put ck o (narrow ck (N.lor 128 (N.land cp 63)))
      else if cp <=? 1114111 then
        let o := ts_put ck o (narrow ck (N.lor 240 (N.shiftr cp 18))) in
        let o := ts_put ck o (narrow ck (N.lor 128 (N.land (N.shiftr cp 12) 63))) in
        let o := ts_put ck o (narrow ck (N.lor 128 (N.land (N.shiftr cp 6) 63))) in
        ts_put ck o (narrow ck (N.lor 128 (N.land cp 63)))
      else ts_setfail o
  | Utf16 =>
      if cp <=? 65535 then ts_put ck o (narrow ck cp)
      else if cp <=? 1114111 then
        let '(lead, trail) := encode_surrogates cp in
        ts_put ck (ts_put ck o (narrow ck lead)) (narrow ck trail)
      else ts_setfail o
  | Utf32 => ts_put ck (if 1114111 <? cp then ts_setfail o else o) (narrow ck cp)
  end.

(** the members of Serializer.sst *)
Record tst := mkT { t_os : tstream; t_began : bool; t_last : token; t_depth : N; t_ilen : N }.
Definition tres := (tst * outcome unit)%type.
Definition tret (s : tst) : tres := (s, Ret tt).
Definition tthen (r : tres) (k : tst -> tres) : tres :=
  match r with
  | (s, Ret _) => k s
  | (s, x) => (s, x)
  end.
Notation "'dot' s ':=' m 'in' k" := (tthen m (fun s => k))
  (at level 200, s name, m at level 100, k at level 200, right associativity).

Definition t_set_os (s : tst) (o : tstream) : tst := mkT o (t_began s) (t_last s) (t_depth s) (t_ilen s).
Definition t_set_began (s : tst) (b : bool) : tst := mkT (t_os s) b (t_last s) (t_depth s) (t_ilen s).
Definition t_set_last (s : tst) (t : token) : tst := mkT (t_os s) (t_began s) t (t_depth s) (t_ilen s).

(** serializer.hpp:306-315, 274-283 *)
Definition t_ind_reserve (cf : scfg) (len : N) (s : tst) : tst :=
  if s_ichar cf =? 0 then s
  else if t_ilen s <? len
       then mkT (t_os s) (t_began s) (t_last s) (t_depth s) (len + s_step cf * 2)
       else s.
Definition t_ind_inc (cf : scfg) (s : tst) : tst :=
  let d := u16 (t_depth s + 1) in
  t_ind_reserve cf (d * s_step cf) (mkT (t_os s) (t_began s) (t_last s) d (t_ilen s)).
Definition t_ind_dec (s : tst) : tst :=
  mkT (t_os s) (t_began s) (t_last s) (u16 (t_depth s + 65535)) (t_ilen s).

(** serializer.hpp:285-303, json.hpp:965-991 *)
Definition t_ind_write (cf : scfg) (n : N) (s : tst) : tres :=
  if n <=? t_ilen s then
    tret (t_set_os s (ts_write (t_os s) (repeat (s_ichar cf) (N.to_nat n))))
  else if n =? t_ilen s + 1 then
    tret (t_set_os s (ts_write (t_os s) (repeat (s_ichar cf) (N.to_nat (t_ilen s)) ++ [0])))
  else (s, UB).
Definition t_output_indent (cf : scfg) (s : tst) : tres :=
  if s_pretty cf then
    if negb (s_ichar cf =? 0) && (0 <? s_step cf) && (0 <? t_depth s)
    then t_ind_write cf (t_depth s * s_step cf) s
    else tret s
  else tret s.
Definition t_output_indent_n (cf : scfg) (n : N) (s : tst) : tres :=
  if s_pretty cf then t_ind_write cf n (t_ind_reserve cf n s) else tret s.
Definition t_output1 (cf : scfg) (c : N) (s : tst) : tst := t_set_os s (ts_put (out_ck cf) (t_os s) c).
Definition t_output (l : list N) (s : tst) : tst := t_set_os s (ts_write (t_os s) l).
Definition t_output_newline (cf : scfg) (s : tst) : tst :=
  if s_pretty cf then t_output1 cf c_nl s else s.

(** json.hpp:738-856 *)
Definition t_next (cf : scfg) (t : token) (s : tst) : tres :=
  let s := if t_began s then
             let s := t_set_began s false in
             if starts_value t then t_output_newline cf s else s
           else s in
  dot s := if s_pretty cf && negb (token_eqb (t_last s) Tname_sep) && starts_value t
           then t_output_indent cf s else tret s in
  dot s := match t with
           | Ttrue => tret (t_output lit_true s)
           | Tfalse => tret (t_output lit_false s)
           | Tnull => tret (t_output lit_null s)
           | Tbegin_arr => tret (t_ind_inc cf (t_set_began (t_output1 cf c_lbrack s) true))
           | Tbegin_obj => tret (t_ind_inc cf (t_set_began (t_output1 cf c_lbrace s) true))
           | Tend_arr =>
               dot s := t_output_indent cf (t_output_newline cf (t_ind_dec s)) in
               tret (t_output1 cf c_rbrack s)
           | Tend_obj =>
               dot s := t_output_indent cf (t_output_newline cf (t_ind_dec s)) in
               tret (t_output1 cf c_rbrace s)
           | Tname_sep => t_output_indent_n cf 1 (t_output1 cf c_colon s)
           | Tval_sep => tret (t_output_newline cf (t_output1 cf c_comma s))
           | _ => tret s
           end in
  tret (t_set_last s t).

(** json.hpp:858-874 *)
Definition t_put_integer (z : Z) (s : tst) : tst := t_output (dec_of_Z z) s.
Definition t_put_float (cf : scfg) (f : f64) (s : tst) : tres :=
  if f64_integral f then
    match f64_to_int64 f with
    | Ret z => tret (t_output [c_dot; c_0] (t_output (dec_of_Z z) s))
    | r => (s, stop r)
    end
  else tret (t_output (fmt_float (s_ff cf) (s_prec cf) f) s).

(** json.hpp:876-963 *)
Definition t_put_default (cf : scfg) (cp : N) (o : tstream) : tstream :=
  if (cp <=? 31) || (s_esc cf && (127 <=? cp)) then
    if cp <=? 65535 then ts_write o (json_hex 2 (u16 cp))
    else let '(lead, trail) := encode_surrogates cp in
         ts_write (ts_write o (json_hex 4 lead)) (json_hex 4 trail)
  else t_encode (out_enc cf) (out_ck cf) o cp.
Fixpoint t_put_chars (cf : scfg) (fuel : nat) (i : istream) (cur : N) (s : tst) : tres :=
  match fuel with
  | O => (s, OutOfFuel)
  | S f =>
      let '(ok, cp, i) := decode (val_enc cf) (val_ck cf) i cur in
      if negb ok then tret s
      else if negb (is_good i) then (s, Throw (ESer (with_code "unexpected character" cp)))
      else
        match short_escape cp with
        | Some e => t_put_chars cf f i cp (t_output [c_bslash; e] s)
        | None =>
            let s := t_set_os s (t_put_default cf cp (t_os s)) in
            if ts_fail (t_os s) then (s, Throw (ESer (with_code "encoding failed with codepoint" cp)))
            else t_put_chars cf f i cp s
        end
  end.
Definition t_put_string (cf : scfg) (str : str) (s : tst) : tres :=
  dot s := t_put_chars cf (fuel_for str) (is_open (IStr str)) 0 (t_output1 cf c_quote s) in
  tret (t_output1 cf c_quote s).

(** details/serializer.hpp:97-197 *)
Fixpoint t_do_dump (cf : scfg) (v : value) (s : tst) : tres :=
  match v with
  | VObj m =>
      dot s := t_next cf Tbegin_obj s in
      match m with
      | [] => t_next cf Tend_obj s
      | _ =>
          dot s := (fix members (m : list (str * value)) (s : tst) : tres :=
             match m with
             | [] => tret s
             | (k, v) :: m' =>
                 dot s := t_next cf Tstring s in
                 dot s := t_put_string cf k s in
                 dot s := t_next cf Tname_sep s in
                 dot s := t_do_dump cf v s in
                 match m' with
                 | [] => tret s
                 | _ => dot s := t_next cf Tval_sep s in members m' s
                 end
             end) m s in
          t_next cf Tend_obj s
      end
  | VArr l =>
      dot s := t_next cf Tbegin_arr s in
      match l with
      | [] => t_next cf Tend_arr s
      | _ =>
          dot s := (fix elems (l : list value) (s : tst) : tres :=
             match l with
             | [] => tret s
             | v :: l' =>
                 dot s := t_do_dump cf v s in
                 match l' with
                 | [] => tret s
                 | _ => dot s := t_next cf Tval_sep s in elems l' s
                 end
             end) l s in
          t_next cf Tend_arr s
      end
  | VStr x => dot s := t_next cf Tstring s in t_put_string cf x s
  | VBool true => t_next cf Ttrue s
  | VBool false => t_next cf Tfalse s
  | VInt z => dot s := t_next cf Tint s in tret (t_put_integer z s)
  | VFloat f => dot s := t_next cf Tfloat s in t_put_float cf f s
  | VNull => t_next cf Tnull s
  end.

(** json.hpp:716-726, details/serializer.hpp:57-71: the target afterwards,
    the outcome, the message recorded by an error handler *)
Definition t_dump_to (cf : scfg) (h : handler) (t : T) (v : value) : T * (outcome unit * string) :=
  let init := mkT (mkTs t false) false Tuninit 0 (if s_ichar cf =? 0 then 0 else s_step cf * 4) in
  let '(s, r) := (dot s := t_do_dump cf v init in t_next cf Teoi s) in
  (ts_buf (t_os s), handle h r).

(** dump(os, v, options), details/serializer.hpp:222-232: of the stream it is
    given it uses the buffer and the formatting, and clears the width
    (json.hpp:725); the state bits it neither reads nor sets *)
Record ustream := mkU { u_buf : T; u_good : bool; u_fmt : osfmt }.
Definition t_dump (vck ock : ckind) (opts : list sopt) (o : ustream) (v : value) : ustream * outcome unit :=
  let '(t, (r, _)) := t_dump_to (ser_cfg vck ock (u_fmt o) opts) HNone (u_buf o) v in
  (mkU t (u_good o) (mkFmt 0 (f_fill (u_fmt o)) (f_prec (u_fmt o)) (f_ff (u_fmt o))), r).
End Target.

(** ** basic_oadapterstream, stream.hpp:86-102, with an adapter that keeps what
    write(ch) is called with and the inherited write(str, size), 48-55.  The
    test c != EOF compares with -1, which a 16-bit int_type never is. *)
Definition adapter_take (ck : ckind) (t : list N) (c : call) : list N * bool :=
  match c with
  | Put u => if match ck with C16 => true | _ => negb (Z.eqb (Z.of_N u) (eof_int ck)) end then (t ++ [u], true) else (t, true)
  | Write l => (t ++ l, true)
  end.

(** a buffer with room for a limited number of characters, as on a full disk *)
Definition limited_take (t : list N * nat) (c : call) : (list N * nat) * bool :=
  let '(w, n) := t in
  let l := match c with Put u => [u] | Write l => l end in
  ((w ++ firstn n l, n - length l)%nat, Nat.leb (length l) n).
