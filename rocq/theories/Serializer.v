(** json.hpp json_serializer (656-1006) and details/serializer.hpp
    basic_serializer (39-204), indent (258-322), function by function. *)
From Coq Require Import Floats.SpecFloat.
From Verif Require Import Base Stream Encoding Value Token FloatFmt Message Parser.

(** Template parameters and options of the serializer. *)
Record scfg := mkSc {
  val_ck : ckind; val_enc : enc;     (* source: the value's strings *)
  out_ck : ckind; out_enc : enc;     (* target *)
  s_pretty : bool;                   (* pretty_print_ *)
  s_step : N;                        (* indent step_, uint8_t *)
  s_ichar : N;                       (* indent_char_ *)
  s_esc : bool;                      (* unicode_escaping_ *)
  s_prec : Z; s_ff : ffield          (* os_ precision and floatfield *)
}.

(** Mutable state: os_, object_or_array_began_, last_token_, and the
    indent's depth_ (uint16_t) and indent_string_.size(). *)
Record sst := mkS {
  s_os : ostream;
  s_began : bool;
  s_last : token;
  s_depth : N;
  s_ilen : N
}.

Definition sres := (sst * outcome unit)%type.
Definition sret (s : sst) : sres := (s, Ret tt).
Definition sthen (r : sres) (k : sst -> sres) : sres :=
  match r with
  | (s, Ret _) => k s
  | (s, x) => (s, x)
  end.
Notation "'do*' s ':=' m 'in' k" := (sthen m (fun s => k))
  (at level 200, s name, m at level 100, k at level 200, right associativity).

Definition set_os (s : sst) (o : ostream) : sst :=
  mkS o (s_began s) (s_last s) (s_depth s) (s_ilen s).
Definition set_began (s : sst) (b : bool) : sst :=
  mkS (s_os s) b (s_last s) (s_depth s) (s_ilen s).
Definition set_last (s : sst) (t : token) : sst :=
  mkS (s_os s) (s_began s) t (s_depth s) (s_ilen s).

(** serializer.hpp:306-315, indent::reverse *)
Definition ind_reserve (cf : scfg) (len : N) (s : sst) : sst :=
  if s_ichar cf =? 0 then s
  else if s_ilen s <? len
       then mkS (s_os s) (s_began s) (s_last s) (s_depth s) (len + s_step cf * 2)
       else s.

(** serializer.hpp:274-278, operator++ *)
Definition ind_inc (cf : scfg) (s : sst) : sst :=
  let d := u16 (s_depth s + 1) in
  ind_reserve cf (d * s_step cf) (mkS (s_os s) (s_began s) (s_last s) d (s_ilen s)).

(** serializer.hpp:280-283, operator-- *)
Definition ind_dec (s : sst) : sst :=
  mkS (s_os s) (s_began s) (s_last s) (u16 (s_depth s + 65535)) (s_ilen s).

(** os.write(indent_string_.c_str(), n): the readable range is the string
    plus its terminating NUL; reading further is undefined behaviour. *)
Definition ind_write (cf : scfg) (n : N) (s : sst) : sres :=
  if n <=? s_ilen s then
    sret (set_os s (os_write (s_os s) (repeat (s_ichar cf) (N.to_nat n))))
  else if n =? s_ilen s + 1 then
    sret (set_os s (os_write (s_os s) (repeat (s_ichar cf) (N.to_nat (s_ilen s)) ++ [0])))
  else (s, UB).

(** json.hpp:975-979 with serializer.hpp:296-303 and 285-288 *)
Definition output_indent (cf : scfg) (s : sst) : sres :=
  if s_pretty cf then
    if negb (s_ichar cf =? 0) && (0 <? s_step cf) && (0 <? s_depth s)
    then ind_write cf (s_depth s * s_step cf) s
    else sret s
  else sret s.

(** json.hpp:981-985 with serializer.hpp:290-294 *)
Definition output_indent_n (cf : scfg) (n : N) (s : sst) : sres :=
  if s_pretty cf then ind_write cf n (ind_reserve cf n s) else sret s.

(** json.hpp:965-968 *)
Definition output1 (cf : scfg) (c : N) (s : sst) : sst := set_os s (os_put (out_ck cf) (s_os s) c).
(** json.hpp:970-973 *)
Definition output (l : list N) (s : sst) : sst := set_os s (os_write (s_os s) l).
(** json.hpp:987-991 *)
Definition output_newline (cf : scfg) (s : sst) : sst :=
  if s_pretty cf then output1 cf c_nl s else s.

(** json.hpp:738-856 *)
Definition next (cf : scfg) (t : token) (s : sst) : sres :=
  (* 740-765 *)
  let s := if s_began s then
             let s := set_began s false in
             if starts_value t then output_newline cf s else s
           else s in
  (* 767-785 *)
  do* s := if s_pretty cf && negb (token_eqb (s_last s) Tname_sep) && starts_value t
           then output_indent cf s else sret s in
  (* 787-853 *)
  do* s := match t with
           | Ttrue => sret (output lit_true s)
           | Tfalse => sret (output lit_false s)
           | Tnull => sret (output lit_null s)
           | Tbegin_arr => sret (ind_inc cf (set_began (output1 cf c_lbrack s) true))
           | Tbegin_obj => sret (ind_inc cf (set_began (output1 cf c_lbrace s) true))
           | Tend_arr =>
               do* s := output_indent cf (output_newline cf (ind_dec s)) in
               sret (output1 cf c_rbrack s)
           | Tend_obj =>
               do* s := output_indent cf (output_newline cf (ind_dec s)) in
               sret (output1 cf c_rbrace s)
           | Tname_sep => output_indent_n cf 1 (output1 cf c_colon s)
           | Tval_sep => sret (output_newline cf (output1 cf c_comma s))
           | _ => sret s
           end in
  sret (set_last s t).

(** json.hpp:858-861 *)
Definition put_integer (z : Z) (s : sst) : sst := output (dec_of_Z z) s.

(** json.hpp:863-874 *)
Definition put_float (cf : scfg) (f : f64) (s : sst) : sres :=
  if f64_integral f then
    match f64_to_int64 f with
    | Ret z => sret (output [c_dot; c_0] (output (dec_of_Z z) s))
    | r => (s, stop r)
    end
  else sret (output (fmt_float (s_ff cf) (s_prec cf) f) s).

(** json.hpp:893-927: characters with a two-character escape *)
Definition short_escape (cp : N) : option N :=
  if cp =? c_tab then Some c_t
  else if cp =? c_cr then Some c_r
  else if cp =? c_nl then Some c_n
  else if cp =? c_bs then Some c_b
  else if cp =? c_ff then Some c_f
  else if cp =? c_quote then Some c_quote
  else if cp =? c_bslash then Some c_bslash
  else None.

(** json.hpp:928-955, the default branch without the final check *)
Definition put_default (cf : scfg) (cp : N) (o : ostream) : ostream :=
  if (cp <=? 31) || (s_esc cf && (127 <=? cp)) then
    if cp <=? 65535 then os_write o (json_hex 2 (u16 cp))
    else let '(lead, trail) := encode_surrogates cp in
         os_write (os_write o (json_hex 4 lead)) (json_hex 4 trail)
  else encode (out_enc cf) (out_ck cf) o cp.

(** json.hpp:884-961, the decoding loop of put_string *)
Fixpoint put_chars (cf : scfg) (fuel : nat) (i : istream) (cur : N) (s : sst) : sres :=
  match fuel with
  | O => (s, OutOfFuel)
  | S f =>
      let '(ok, cp, i) := decode (val_enc cf) (val_ck cf) i cur in
      if negb ok then sret s
      else if negb (is_good i) then (s, Throw (ESer (with_code "unexpected character" cp)))
      else
        match short_escape cp with
        | Some e => put_chars cf f i cp (output [c_bslash; e] s)
        | None =>
            let s := set_os s (put_default cf cp (s_os s)) in
            if os_fail (s_os s) then (s, Throw (ESer (with_code "encoding failed with codepoint" cp)))
            else put_chars cf f i cp s
        end
  end.

(** json.hpp:876-963 *)
Definition put_string (cf : scfg) (str : str) (s : sst) : sres :=
  do* s := put_chars cf (fuel_for str) (is_open (IStr str)) 0 (output1 cf c_quote s) in
  sret (output1 cf c_quote s).

(** details/serializer.hpp:97-197.  The index test i != size-1 of the loops is
    rendered as "not the last element of the list". *)
Fixpoint do_dump (cf : scfg) (v : value) (s : sst) : sres :=
  match v with
  | VObj m =>
      do* s := next cf Tbegin_obj s in
      match m with
      | [] => next cf Tend_obj s
      | _ =>
          do* s := (fix members (m : list (str * value)) (s : sst) : sres :=
             match m with
             | [] => sret s
             | (k, v) :: m' =>
                 do* s := next cf Tstring s in
                 do* s := put_string cf k s in
                 do* s := next cf Tname_sep s in
                 do* s := do_dump cf v s in
                 match m' with
                 | [] => sret s
                 | _ => do* s := next cf Tval_sep s in members m' s
                 end
             end) m s in
          next cf Tend_obj s
      end
  | VArr l =>
      do* s := next cf Tbegin_arr s in
      match l with
      | [] => next cf Tend_arr s
      | _ =>
          do* s := (fix elems (l : list value) (s : sst) : sres :=
             match l with
             | [] => sret s
             | v :: l' =>
                 do* s := do_dump cf v s in
                 match l' with
                 | [] => sret s
                 | _ => do* s := next cf Tval_sep s in elems l' s
                 end
             end) l s in
          next cf Tend_arr s
      end
  | VStr x => do* s := next cf Tstring s in put_string cf x s
  | VBool true => next cf Ttrue s
  | VBool false => next cf Tfalse s
  | VInt z => do* s := next cf Tint s in sret (put_integer z s)
  | VFloat f => do* s := next cf Tfloat s in put_float cf f s
  | VNull => next cf Tnull s
  end.

(** Initial state: ctor json.hpp:716-726; indent ctor serializer.hpp:265-272
    (reverse(step*2) makes the string 4*step long). *)
Definition init_sst (cf : scfg) (o : ostream) : sst :=
  mkS o false Tuninit 0 (if s_ichar cf =? 0 then 0 else s_step cf * 4).

(** details/serializer.hpp:57-71: units written, outcome, recorded message *)
Definition dump_to (cf : scfg) (h : handler) (o : ostream) (v : value)
  : list N * (outcome unit * string) :=
  let '(s, r) := (do* s := do_dump cf v (init_sst cf o) in next cf Teoi s) in
  (os_units (s_os s), handle h r).

(** details/serializer.hpp:244-251: dump to a fresh string and return it *)
Definition dump_string (cf : scfg) (v : value) : outcome (list N) :=
  let '(out, (r, _)) := dump_to cf HNone (mkOs [] false) v in
  let* _ := r in Ret out.

(** Options (json.hpp:666-714) and the ostream they start from. *)
Inductive sopt :=
| OIndent (step : N) (ch : N)
| OEscape (b : bool)
| OPrecision (p : Z) (ff : ffield)
| OSrcEnc (e : enc)
| OTgtEnc (e : enc)
| OEnc (e : enc).

Definition apply_opt (cf : scfg) (o : sopt) : scfg :=
  match o with
  | OIndent step ch =>
      mkSc (val_ck cf) (val_enc cf) (out_ck cf) (out_enc cf) (0 <? step) step ch
           (s_esc cf) (s_prec cf) (s_ff cf)
  | OEscape b =>
      mkSc (val_ck cf) (val_enc cf) (out_ck cf) (out_enc cf) (s_pretty cf) (s_step cf)
           (s_ichar cf) b (s_prec cf) (s_ff cf)
  | OPrecision p ff =>
      mkSc (val_ck cf) (val_enc cf) (out_ck cf) (out_enc cf) (s_pretty cf) (s_step cf)
           (s_ichar cf) (s_esc cf) p ff
  | OSrcEnc e =>
      mkSc (val_ck cf) e (out_ck cf) (out_enc cf) (s_pretty cf) (s_step cf)
           (s_ichar cf) (s_esc cf) (s_prec cf) (s_ff cf)
  | OTgtEnc e =>
      mkSc (val_ck cf) (val_enc cf) (out_ck cf) e (s_pretty cf) (s_step cf)
           (s_ichar cf) (s_esc cf) (s_prec cf) (s_ff cf)
  | OEnc e =>
      mkSc (val_ck cf) e (out_ck cf) e (s_pretty cf) (s_step cf)
           (s_ichar cf) (s_esc cf) (s_prec cf) (s_ff cf)
  end.

(** json.hpp:728-736: apply the options in order, then disable hexfloat. *)
Definition prepare (cf : scfg) (opts : list sopt) : scfg :=
  let cf := fold_left apply_opt opts cf in
  match s_ff cf with
  | FHex => mkSc (val_ck cf) (val_enc cf) (out_ck cf) (out_enc cf) (s_pretty cf) (s_step cf)
                 (s_ichar cf) (s_esc cf) (s_prec cf) FGeneral
  | _ => cf
  end.

(** The formatting attributes of the ostream handed to dump(). *)
Record osfmt := mkFmt { f_width : Z; f_fill : N; f_prec : Z; f_ff : ffield }.
(** std::ios_base defaults: width 0, fill ' ', precision 6. *)
Definition fmt_default : osfmt := mkFmt 0 32 6 FGeneral.

(** ctor json.hpp:716-726 and details/serializer.hpp:47-55, then 222-232. *)
Definition ser_cfg (vck ock : ckind) (f : osfmt) (opts : list sopt) : scfg :=
  prepare (mkSc vck (auto_enc vck) ock (auto_enc ock) (0 <? f_width f)%Z
                (Z.to_N (f_width f mod 256)) (f_fill f) false (f_prec f) (f_ff f)) opts.

(** json: char values to std::string *)
Definition dump_json (opts : list sopt) (v : value) : outcome (list N) :=
  dump_string (ser_cfg C8 C8 fmt_default opts) v.
