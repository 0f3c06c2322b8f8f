(** details/wrapper.hpp: operator<< and operator>> of json::wrap(x), with the
    parts of std::basic_ostream and std::basic_istream they touch. *)
From Verif Require Import Base Stream Encoding Value Token Parser FloatFmt Serializer Cpp Convert.

(** ** Output *)

(** A std::basic_ostream: good(), the formatting attributes, and what has been
    written through its buffer.  (tie(), unitbuf and flushing are left out;
    they write nothing.) *)
Record ostrm := mkOut { o_good : bool; o_fmt : osfmt; o_text : list N }.

(** json.hpp:725: os.width(0) *)
Definition no_width (f : osfmt) : osfmt := mkFmt 0 (f_fill f) (f_prec f) (f_ff f).

(** serializable::dump(os, v) (details/serializer.hpp:223-232) on a stream that
    the caller keeps: the serializer writes through a stream of its own on the
    same buffer (47-55), so the caller's state bits do not change; the width is
    cleared by the constructor, before anything is written. *)
Definition dump_stream (vck ock : ckind) (opts : list sopt) (o : ostrm) (v : value) : ostrm * outcome unit :=
  let '(t, (r, _)) := dump_to (ser_cfg vck ock (o_fmt o) opts) HNone (mkOs [] false) v in
  (mkOut (o_good o) (no_width (o_fmt o)) (o_text o ++ t), r).

(** wrapper.hpp:72-82 (a json value).  The sentry is true exactly for a good
    stream. *)
Definition put_json (vck ock : ckind) (v : value) (o : ostrm) : ostrm * outcome unit :=
  if o_good o then dump_stream vck ock [] o v else (o, Ret tt).

(** wrapper.hpp:42-52 (any other type): the conversion comes before dump. *)
Definition put_typed (e : env) (vck ock : ckind) (t : cty) (x : cval) (o : ostrm) : ostrm * outcome unit :=
  if o_good o then
    match of_cpp e t x with
    | Ret v => dump_stream vck ock [] o v
    | r => (o, stop r)
    end
  else (o, Ret tt).

(** ** Input *)

(** A std::basic_istream: good(), the skipws flag, and the characters its
    buffer still has. *)
Record istrm := mkIn { i_good : bool; i_skipws : bool; i_text : list N }.

(** The part of the sentry's constructor that skips blanks; [sp] is the
    classification of the stream's locale. *)
Fixpoint skip_sp (sp : N -> bool) (l : list N) : list N :=
  match l with
  | [] => []
  | c :: r => if sp c then skip_sp sp r else l
  end.

(** std::basic_istream::sentry(in): [Some] is true.  Reaching the end while
    skipping, or a stream that is not good, sets failbit.  (StreamUse.v has the
    bits, and the unit that a wide stream takes for the end.) *)
Definition sentry (sp : N -> bool) (i : istrm) : option istrm * istrm :=
  if i_good i then
    if i_skipws i then
      match skip_sp sp (i_text i) with
      | [] => (None, mkIn false true [])
      | l => (Some (mkIn true true l), mkIn true true l)
      end
    else (Some i, i)
  else (None, i).

(** parse(c, is) (details/parser.hpp:238-247) without options, keeping the
    parser's stream: it is a stream of its own on the same buffer (39-47). *)
Definition parse_keep (cf : pcfg) (fuel : nat) (c : value) (b : ibuf) : value * outcome istream :=
  match read_next cf (init_pst b) with
  | Ret st =>
      let '(v, r) := do_parse cf fuel c None st in
      (v,
       let* st := r in
       let* r := scan cf fuel st in
       match fst r with
       | Teoi => Ret (p_is (snd r))
       | _ => fail (Message.token_msg "unexpected token" Teoi)
       end)
  | r => (c, stop r)
  end.

(** what the buffer still has *)
Definition left_in (i : istream) : list N := match is_buf i with IStr s => s | _ => [] end.

(** wrapper.hpp:129-142 (a json value).  The first component is the value
    afterwards; the stream afterwards is given only if nothing is thrown. *)
Definition take_json (cf : pcfg) (sp : N -> bool) (i : istrm) (c : value) : value * outcome istrm :=
  match sentry sp i with
  | (Some j, _) =>
      let '(v, r) := parse_keep cf (fuel_for (i_text j)) c (IStr (i_text j)) in
      (v, let* s := r in Ret (mkIn true (i_skipws j) (left_in s)))
  | (None, j) => (c, Ret j)
  end.

(** wrapper.hpp:99-112 (any other type): parse into a fresh value, then get<T>;
    the assignment is reached only without an exception. *)
Definition take_typed (e : env) (cf : pcfg) (sp : N -> bool) (t : cty) (i : istrm) (x : cval) : cval * outcome istrm :=
  match sentry sp i with
  | (Some j, _) =>
      let '(v, r) := parse_keep cf (fuel_for (i_text j)) VNull (IStr (i_text j)) in
      match r with
      | Ret s =>
          match get e t v with
          | Ret y => (y, Ret (mkIn true (i_skipws j) (left_in s)))
          | r => (x, stop r)
          end
      | r => (x, stop r)
      end
  | (None, j) => (x, Ret j)
  end.

(** isspace() of the classic locale *)
Definition classic_space (c : N) : bool := (c =? 32) || ((9 <=? c) && (c <=? 13)).
