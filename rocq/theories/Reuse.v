(** Parser and serializer objects and streams that are used more than once. *)
From Verif Require Import Base Stream Encoding Value Token Message Parser Serializer Wrapper.

(** json.hpp:157-162 with details/parser.hpp:55-70: [p.parse(c)] on a parser
    whose members are [st] (is_, current_, is_negative_, number_integer_ and
    number_float_; nothing resets them between two calls).  The state
    afterwards is given only if nothing is thrown. *)
Definition parse_again (cf : pcfg) (fuel : nat) (c : value) (st : pst) : value * outcome pst :=
  match read_next cf st with
  | Ret st =>
      let '(v, r) := do_parse cf fuel c None st in
      (v,
       let* st := r in
       let* r := scan cf fuel st in
       match fst r with
       | Teoi => Ret (snd r)
       | _ => fail (token_msg "unexpected token" Teoi)
       end)
  | r => (c, stop r)
  end.

(** k calls on one parser, each filling a new value, up to the first exception *)
Fixpoint parse_calls (cf : pcfg) (fuel k : nat) (st : pst) : list value * outcome pst :=
  match k with
  | O => ([], Ret st)
  | S k =>
      match parse_again cf fuel VNull st with
      | (v, Ret st) => let '(vs, r) := parse_calls cf fuel k st in (v :: vs, r)
      | (_, r) => ([], stop r)
      end
  end.

(** k calls json::parse(is) on one stream (details/parser.hpp:253-260): a new
    parser each time, on the same buffer (45-47) *)
Fixpoint parse_each (cf : pcfg) (fuel k : nat) (b : ibuf) : list value * outcome ibuf :=
  match k with
  | O => ([], Ret b)
  | S k =>
      match parse_keep cf fuel VNull b with
      | (v, Ret i) => let '(vs, r) := parse_each cf fuel k (is_buf i) in (v :: vs, r)
      | (_, r) => ([], stop r)
      end
  end.

(** details/serializer.hpp:57-71: [s.dump(v)] on a serializer whose members
    are [s]: the state afterwards, the outcome, the recorded message *)
Definition dump_again (cf : scfg) (h : handler) (v : value) (s : sst) : sst * (outcome unit * string) :=
  let '(s, r) := (do* s := do_dump cf v s in next cf Teoi s) in (s, handle h r).

(** one call per value on one serializer, going on after exceptions (which the
    handler swallows or the caller catches); not after undefined behaviour *)
Fixpoint dump_calls (cf : scfg) (h : handler) (vs : list value) (s : sst) : sst * list (outcome unit) :=
  match vs with
  | [] => (s, [])
  | v :: vs =>
      let '(s, (r, _)) := dump_again cf h v s in
      match r with
      | Ret _ | Throw _ => let '(s, rs) := dump_calls cf h vs s in (s, r :: rs)
      | _ => (s, [r])
      end
  end.
