(** dump when requests for memory may be refused (json.hpp:716-1006,
    details/serializer.hpp:39-322).

    The characters go to a stream buffer that may refuse them, as in Target; a
    string that cannot grow is such a buffer, since the ostream catches
    std::bad_alloc and sets badbit.  Memory of its own the serializer needs for
    its locale, for the indentation, and for the message of an exception.  These
    requests are numbered; [deny] says which are refused.  A request that is in
    fact none (short strings) is one that is granted.

    Simplifications: those of Target; what num_put may need to format a number is
    left out, as a refusal there sets badbit too. *)
From Coq Require Import Floats.SpecFloat.
From Verif Require Import Base Stream Encoding Value Token FloatFmt Message Parser Serializer Options Target.

Section DumpMem.
Context {T : Type}.
Variable take : T -> call -> T * bool.
Variable deny : nat -> bool.

(** the serializer, and how many requests there have been *)
Definition dst := (tst (T := T) * nat)%type.
Definition dres := (dst * outcome unit)%type.
Definition dret (s : dst) : dres := (s, Ret tt).
Definition dthen (r : dres) (k : dst -> dres) : dres :=
  match r with
  | (s, Ret _) => k s
  | (s, x) => (s, x)
  end.
Notation "'dom' s ':=' m 'in' k" := (dthen m (fun s => k))
  (at level 200, s name, m at level 100, k at level 200, right associativity).
(** what needs no memory *)
Definition quietly (f : tst -> tres) (s : dst) : dres := let '(g, r) := f (fst s) in ((g, snd s), r).
Definition plainly (f : tst (T := T) -> tst) (s : dst) : dst := (f (fst s), snd s).

Definition request (s : dst) : dres :=
  ((fst s, S (snd s)), if deny (snd s) then Throw EAlloc else Ret tt).

(** serializer.hpp:306-315, 274-278 *)
Definition d_ind_reserve (cf : scfg) (len : N) (s : dst) : dres :=
  if s_ichar cf =? 0 then dret s
  else if t_ilen (fst s) <? len
       then dom s := request s in dret (plainly (t_ind_reserve cf len) s)
       else dret s.
Definition d_ind_inc (cf : scfg) (s : dst) : dres :=
  let d := u16 (t_depth (fst s) + 1) in
  d_ind_reserve cf (d * s_step cf) (plainly (fun g => mkT (t_os g) (t_began g) (t_last g) d (t_ilen g)) s).
(** serializer.hpp:290-294, json.hpp:981-985 *)
Definition d_output_indent_n (cf : scfg) (n : N) (s : dst) : dres :=
  if s_pretty cf then dom s := d_ind_reserve cf n s in quietly (t_ind_write take cf n) s else dret s.

(** json.hpp:738-856 *)
Definition d_next (cf : scfg) (t : token) (s : dst) : dres :=
  let s := if t_began (fst s) then
             let s := plainly (fun g => t_set_began g false) s in
             if starts_value t then plainly (t_output_newline take cf) s else s
           else s in
  dom s := if s_pretty cf && negb (token_eqb (t_last (fst s)) Tname_sep) && starts_value t
           then quietly (t_output_indent take cf) s else dret s in
  dom s := match t with
           | Ttrue => dret (plainly (t_output take lit_true) s)
           | Tfalse => dret (plainly (t_output take lit_false) s)
           | Tnull => dret (plainly (t_output take lit_null) s)
           | Tbegin_arr => d_ind_inc cf (plainly (fun g => t_set_began (t_output1 take cf c_lbrack g) true) s)
           | Tbegin_obj => d_ind_inc cf (plainly (fun g => t_set_began (t_output1 take cf c_lbrace g) true) s)
           | Tend_arr =>
               dom s := quietly (t_output_indent take cf) (plainly (fun g => t_output_newline take cf (t_ind_dec g)) s) in
               dret (plainly (t_output1 take cf c_rbrack) s)
           | Tend_obj =>
               dom s := quietly (t_output_indent take cf) (plainly (fun g => t_output_newline take cf (t_ind_dec g)) s) in
               dret (plainly (t_output1 take cf c_rbrace) s)
           | Tname_sep => d_output_indent_n cf 1 (plainly (t_output1 take cf c_colon) s)
           | Tval_sep => dret (plainly (fun g => t_output_newline take cf (t_output1 take cf c_comma g)) s)
           | _ => dret s
           end in
  dret (plainly (fun g => t_set_last g t) s).

(** what << writes for the message, json.hpp:996 and 76-89; the stream keeps
    the pieces before the first that finds no memory *)
Definition code_pieces (msg : string) (code : N) : list string :=
  [msg; " '"; bytes [c_bslash]; bytes [c_u]; bytes (pad_left 4 c_0 (hex_digits code)); "'"]%string.
Fixpoint piled (l : list string) (n : nat) : string * nat :=
  match l with
  | [] => (""%string, n)
  | x :: l' => if deny n then (""%string, S n) else let '(m, n') := piled l' (S n) in ((x ++ m)%string, n')
  end.
(** json.hpp:993-998 and exception.hpp:39-48, 87-96: the parameter, the pieces,
    the sum with the beginning, the copy in std::runtime_error *)
Definition d_fail (msg : string) (code : N) (s : dst) : dres :=
  dom s := request s in
  let '(m, n) := piled (code_pieces msg code) (snd s) in
  dom s := request (fst s, n) in
  dom s := request s in
  (s, Throw (ESer m)).

(** json.hpp:876-963 *)
Fixpoint d_put_chars (cf : scfg) (fuel : nat) (i : istream) (cur : N) (s : dst) : dres :=
  match fuel with
  | O => (s, OutOfFuel)
  | S f =>
      let '(ok, cp, i) := decode (val_enc cf) (val_ck cf) i cur in
      if negb ok then dret s
      else if negb (is_good i) then d_fail "unexpected character" cp s
      else
        match short_escape cp with
        | Some e => d_put_chars cf f i cp (plainly (t_output take [c_bslash; e]) s)
        | None =>
            let s := plainly (fun g => t_set_os g (t_put_default take cf cp (t_os g))) s in
            if ts_fail (t_os (fst s)) then d_fail "encoding failed with codepoint" cp s
            else d_put_chars cf f i cp s
        end
  end.
Definition d_put_string (cf : scfg) (str : str) (s : dst) : dres :=
  dom s := d_put_chars cf (fuel_for str) (is_open (IStr str)) 0 (plainly (t_output1 take cf c_quote) s) in
  dret (plainly (t_output1 take cf c_quote) s).

(** details/serializer.hpp:97-197 *)
Fixpoint d_do_dump (cf : scfg) (v : value) (s : dst) : dres :=
  match v with
  | VObj m =>
      dom s := d_next cf Tbegin_obj s in
      match m with
      | [] => d_next cf Tend_obj s
      | _ =>
          dom s := (fix members (m : list (str * value)) (s : dst) : dres :=
             match m with
             | [] => dret s
             | (k, v) :: m' =>
                 dom s := d_next cf Tstring s in
                 dom s := d_put_string cf k s in
                 dom s := d_next cf Tname_sep s in
                 dom s := d_do_dump cf v s in
                 match m' with
                 | [] => dret s
                 | _ => dom s := d_next cf Tval_sep s in members m' s
                 end
             end) m s in
          d_next cf Tend_obj s
      end
  | VArr l =>
      dom s := d_next cf Tbegin_arr s in
      match l with
      | [] => d_next cf Tend_arr s
      | _ =>
          dom s := (fix elems (l : list value) (s : dst) : dres :=
             match l with
             | [] => dret s
             | v :: l' =>
                 dom s := d_do_dump cf v s in
                 match l' with
                 | [] => dret s
                 | _ => dom s := d_next cf Tval_sep s in elems l' s
                 end
             end) l s in
          d_next cf Tend_arr s
      end
  | VStr x => dom s := d_next cf Tstring s in d_put_string cf x s
  | VBool true => d_next cf Ttrue s
  | VBool false => d_next cf Tfalse s
  | VInt z => dom s := d_next cf Tint s in dret (plainly (t_put_integer take z) s)
  | VFloat f => dom s := d_next cf Tfloat s in quietly (t_put_float take cf f) s
  | VNull => d_next cf Tnull s
  end.

(** the catch clause, serializer.hpp:64-70 and exception.hpp:115-151; to keep
    the message needs memory *)
Definition d_handle (h : handler) (n : nat) (r : outcome unit) : outcome unit * string :=
  match h, r with
  | HRecord, Throw e => if is_configor_exn e && deny n then (Throw EAlloc, ""%string) else handle h r
  | _, _ => handle h r
  end.

(** details/serializer.hpp:57-71, when n requests have been made *)
Definition d_dump_to (cf : scfg) (h : handler) (t : T) (n : nat) (v : value) : T * nat * (outcome unit * string) :=
  let init := mkT (mkTs t false) false Tuninit 0 (if s_ichar cf =? 0 then 0 else s_step cf * 4) in
  let '((g, n), r) := (dom s := d_do_dump cf v (init, n) in d_next cf Teoi s) in
  (ts_buf (t_os g), n, d_handle h n r).

(** the indent's constructor, serializer.hpp:265-272, 306-315 *)
Definition ind_asks (step ch : N) : nat := if (ch =? 0) || (step =? 0) then 0 else 1.
(** the options, json.hpp:666-732 *)
Fixpoint opt_asks (opts : list dopt) : nat :=
  match opts with
  | DOpt (OIndent step ch) :: l => ind_asks step ch + opt_asks l
  | _ :: l => opt_asks l
  | [] => 0
  end.
Definition denied (n k : nat) : bool := existsb deny (seq n k).

(** dump(os, v, options), details/serializer.hpp:222-232, 47-55 and json.hpp:716-736:
    the stream afterwards, the outcome, the recorded message *)
Definition d_dump (dflt : ckind -> enc) (vck ock : ckind) (opts : list dopt) (o : ustream (T := T)) (v : value) : ustream * (outcome unit * string) :=
  let f := u_fmt o in
  let made := S (ind_asks (Z.to_N (f_width f mod 256)) (f_fill f)) in
  if denied 0 made then (o, (Throw EAlloc, ""%string)) else
  let f' := mkFmt 0 (f_fill f) (f_prec f) (f_ff f) in
  if denied made (opt_asks opts) then (mkU (u_buf o) (u_good o) f', (Throw EAlloc, ""%string)) else
  let '(cf, h) := serializer_of dflt vck ock f opts in
  let '((t, _), r) := d_dump_to cf h (u_buf o) (made + opt_asks opts) v in
  (mkU t (u_good o) f', r).
End DumpMem.

(** a string that may not grow at certain requests, details/stream.hpp:211-242 *)
Definition room_take (ck : ckind) (full : nat -> bool) (t : str * nat) (c : call) : (str * nat) * bool :=
  let more := match c with Put u => if Z.eqb (Z.of_N u) (eof_int ck) then [] else [u] | Write l => l end in
  match more with
  | [] => (t, true)
  | _ => if full (snd t) then ((fst t, S (snd t)), false) else ((fst t ++ more, S (snd t)), true)
  end.

(** auto s = json::dump(v, options), details/serializer.hpp:235-251 *)
Definition dump_new (full deny : nat -> bool) (dflt : ckind -> enc) (vck ock : ckind) (opts : list dopt) (v : value) : outcome (list N) * string :=
  let '(o, (r, m)) := d_dump (room_take ock full) deny dflt vck ock opts (mkU ([], O) true fmt_default) v in
  (let* _ := r in Ret (fst (u_buf o)), m).
