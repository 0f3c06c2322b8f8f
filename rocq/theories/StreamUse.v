(** details/wrapper.hpp once more: operator<< and operator>> of json::wrap(x)
    on streams with their state bits and exceptions() masks, and loops over
    them.  (Wrapper.v has one insertion or extraction on a stream that is good
    or not.)  Buffers that throw are in Stream.v; here the buffer is a string. *)
From Verif Require Import Base Stream Encoding Value Token Parser FloatFmt Serializer Cpp Convert Wrapper.

(** ** std::basic_ios *)

(** rdstate(), or exceptions() *)
Record ios := mkIos { b_eof : bool; b_fail : bool; b_bad : bool }.
Definition good (b : ios) : bool := negb (b_eof b || b_fail b || b_bad b).
(** fail(): operator bool is its negation *)
Definition failed (b : ios) : bool := b_fail b || b_bad b.
Definition join (a b : ios) : ios := mkIos (b_eof a || b_eof b) (b_fail a || b_fail b) (b_bad a || b_bad b).
Definition meets (a b : ios) : bool := (b_eof a && b_eof b) || (b_fail a && b_fail b) || (b_bad a && b_bad b).
Definition just_fail : ios := mkIos false true false.
Definition eof_fail : ios := mkIos true true false.

(** How an operator ends: it returns the stream, a std::ios_base::failure is
    thrown, or something else is. *)
Inductive went := Went | Failure | Threw (r : outcome unit).

(** setstate(add) of a stream with state b and mask m: the bits are set before
    anything is thrown *)
Definition setstate (m b add : ios) : ios * went :=
  let b := join b add in (b, if meets b m then Failure else Went).

(** ** Input *)
Record cin := mkCin { c_ios : ios; c_mask : ios; c_skip : bool; c_text : list N }.

(** the state afterwards, what the buffer still has (if it is known: not after
    exceptions of parse), and how it ended *)
Notation after := (ios * option (list N) * went)%type.

(** a unit that the stream takes for the end of the input (Stream.v: there is
    one for char16_t and char32_t) *)
Definition ends_input (ck : ckind) (u : N) : bool := Z.eqb (Z.of_N u) (eof_int ck).

(** the sentry's constructor: [inr] if it is true, with the rest of the
    buffer *)
Definition prefix (ck : ckind) (sp : N -> bool) (s : cin) : after + list N :=
  if good (c_ios s) then
    if c_skip s then
      let l := skip_sp (fun u => negb (ends_input ck u) && sp u) (c_text s) in
      if match l with [] => true | u :: _ => ends_input ck u end then
        let '(b, w) := setstate (c_mask s) (c_ios s) eof_fail in inl (b, Some l, w)
      else inr l
    else inr (c_text s)
  else let '(b, w) := setstate (c_mask s) (c_ios s) just_fail in inl (b, Some (c_text s), w).

Definition ends {A} (r : outcome A) : went := match r with Ret _ => Went | r => Threw (stop r) end.

(** wrapper.hpp:129-142 (a json value).  The parser has a stream of its own on
    the same buffer (details/parser.hpp:45-47): nothing it does reaches the
    bits or the mask of this one. *)
Definition extract (cf : pcfg) (sp : N -> bool) (s : cin) (c : value) : value * after :=
  match prefix (src_ck cf) sp s with
  | inl a => (c, a)
  | inr l =>
      let '(v, r) := parse_keep cf (fuel_for l) c (IStr l) in
      (v, (c_ios s, match r with Ret i => Some (left_in i) | _ => None end, ends r))
  end.

(** wrapper.hpp:99-112 (any other type) *)
Definition extract_typed (e : env) (cf : pcfg) (sp : N -> bool) (t : cty) (s : cin) (x : cval) : cval * after :=
  match prefix (src_ck cf) sp s with
  | inl a => (x, a)
  | inr l =>
      let '(v, r) := parse_keep cf (fuel_for l) VNull (IStr l) in
      match r with
      | Ret i =>
          match get e t v with
          | Ret y => (y, (c_ios s, Some (left_in i), Went))
          | r => (x, (c_ios s, Some (left_in i), ends r))
          end
      | r => (x, (c_ios s, None, ends r))
      end
  end.

(** [while (in >> wrap(x)) got.push_back(x);] for either of them: the values,
    the state at the end, what is left, how it ended.  k bounds the number of
    rounds. *)
Fixpoint collect {A} (step : cin -> A -> A * after) (k : nat) (s : cin) (x : A) : list A * after :=
  match k with
  | O => ([], (c_ios s, Some (c_text s), Threw OutOfFuel))
  | S k =>
      match step s x with
      | (x, (b, Some t, Went)) =>
          if failed b then ([], (b, Some t, Went))
          else let '(l, a) := collect step k (mkCin b (c_mask s) (c_skip s) t) x in (x :: l, a)
      | (_, a) => ([], a)
      end
  end.

(** ** Output *)
Record cout := mkCout { u_ios : ios; u_mask : ios; u_fmt : osfmt; u_text : list N }.

(** The sentry is true exactly for a good stream; for others it may set
    failbit ([fb]: whether it does; implementations differ, depending on the
    state). *)
Definition refuse (fb : ios -> bool) (o : cout) : cout * went :=
  if fb (u_ios o) then
    let '(b, w) := setstate (u_mask o) (u_ios o) just_fail in (mkCout b (u_mask o) (u_fmt o) (u_text o), w)
  else (o, Went).

Definition dump_out (vck ock : ckind) (o : cout) (v : value) : cout * went :=
  let '(o', r) := dump_stream vck ock [] (mkOut true (u_fmt o) (u_text o)) v in
  (mkCout (u_ios o) (u_mask o) (o_fmt o') (o_text o'), ends r).

(** wrapper.hpp:72-82 *)
Definition insert (fb : ios -> bool) (vck ock : ckind) (v : value) (o : cout) : cout * went :=
  if good (u_ios o) then dump_out vck ock o v else refuse fb o.

(** wrapper.hpp:42-52 *)
Definition insert_typed (fb : ios -> bool) (e : env) (vck ock : ckind) (t : cty) (x : cval) (o : cout) : cout * went :=
  if good (u_ios o) then
    match of_cpp e t x with
    | Ret v => dump_out vck ock o v
    | r => (o, ends r)
    end
  else refuse fb o.

(** out.put(c) *)
Definition put_char (fb : ios -> bool) (c : N) (o : cout) : cout * went :=
  if good (u_ios o) then (mkCout (u_ios o) (u_mask o) (u_fmt o) (u_text o ++ [c]), Went) else refuse fb o.

(** [for (auto& v : vs) { out << wrap(v); out.put(0); }] *)
Fixpoint write_all (fb : ios -> bool) (vck ock : ckind) (vs : list value) (o : cout) : cout * went :=
  match vs with
  | [] => (o, Went)
  | v :: vs =>
      match insert fb vck ock v o with
      | (o, Went) =>
          match put_char fb 0 o with
          | (o, Went) => write_all fb vck ock vs o
          | r => r
          end
      | r => r
      end
  end.
