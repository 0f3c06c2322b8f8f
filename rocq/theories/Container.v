(** Parsing into values whose objects are kept in another container than
    std::map: the template argument [object_type] of basic_value
    (details/value.hpp:40-66), as in tests/test_basic_config/test_basic.cpp:384
    with fifo_map.  The parser uses the container through emplace alone
    (details/parser.hpp:188), here [put k v m] on the members in iteration
    order. *)
From Verif Require Import Base Stream Encoding Value ValueOps Token Message Parser.
Open Scope N_scope.

Definition mlist := list (str * value).

(** details/parser.hpp:96-204 again, see Parser.v. *)
Fixpoint g_parse (put : str -> value -> mlist -> mlist) (cf : pcfg) (fuel : nat) (c : value) (tok : option token)
  (st : pst) : value * outcome pst :=
  match fuel with
  | O => (c, OutOfFuel)
  | S f =>
      let r := match tok with None => scan cf fuel st | Some t => Ret (t, st) end in
      match r with
      | Ret (t, st) =>
          match t with
          | Ttrue => (VBool true, Ret st)
          | Tfalse => (VBool false, Ret st)
          | Tnull => (VNull, Ret st)
          | Tstring => let '(s, r) := get_string cf fuel st in (VStr s, r)
          | Tint =>
              match get_integer st with
              | Ret z => (VInt z, Ret st)
              | r => (VInt 0, stop r)
              end
          | Tfloat => (VFloat (get_float st), Ret st)
          | Tbegin_arr =>
              let '(l, r) := g_arr put cf f [] st in
              (VArr l,
               match r with
               | Ret (Tend_arr, st) => Ret st
               | Ret (t, _) => fail (expect_msg t Tend_arr)
               | r => stop r
               end)
          | Tbegin_obj =>
              let '(m, r) := g_obj put cf f [] st in
              (VObj m,
               match r with
               | Ret (Tend_obj, st) => Ret st
               | Ret (t, _) => fail (expect_msg t Tend_obj)
               | r => stop r
               end)
          | _ => (c, fail (token_msg "unexpected token" t))
          end
      | r => (c, stop r)
      end
  end
with g_arr (put : str -> value -> mlist -> mlist) (cf : pcfg) (fuel : nat) (l : list value) (st : pst)
  : list value * outcome (token * pst) :=
  match fuel with
  | O => (l, OutOfFuel)
  | S f =>
      match scan cf fuel st with
      | Ret (t, st) =>
          if starts_value t then
            let '(v, r) := g_parse put cf f VNull (Some t) st in
            match r with
            | Ret st =>
                match scan cf fuel st with
                | Ret (Tval_sep, st) => g_arr put cf f (l ++ [v]) st
                | Ret (t, st) => (l ++ [v], Ret (t, st))
                | r => (l ++ [v], stop r)
                end
            | r => (l ++ [v], stop r)
            end
          else (l, Ret (t, st))
      | r => (l, stop r)
      end
  end
with g_obj (put : str -> value -> mlist -> mlist) (cf : pcfg) (fuel : nat) (m : mlist) (st : pst)
  : mlist * outcome (token * pst) :=
  match fuel with
  | O => (m, OutOfFuel)
  | S f =>
      match scan cf fuel st with
      | Ret (Tstring, st) =>
          let '(k, r) := get_string cf fuel st in
          match r with
          | Ret st =>
              match scan cf fuel st with
              | Ret (Tname_sep, st) =>
                  let '(v, r) := g_parse put cf f VNull None st in
                  match r with
                  | Ret st =>
                      match scan cf fuel st with
                      | Ret (Tval_sep, st) => g_obj put cf f (put k v m) st
                      | Ret (t, st) => (put k v m, Ret (t, st))
                      | r => (put k v m, stop r)
                      end
                  | r => (m, stop r)
                  end
              | Ret (t, st) => (m, Ret (t, st))
              | r => (m, stop r)
              end
          | r => (m, stop r)
          end
      | Ret (t, st) => (m, Ret (t, st))
      | r => (m, stop r)
      end
  end.

(** details/parser.hpp:55-62 *)
Definition g_body put (cf : pcfg) (fuel : nat) (c : value) (st : pst) : value * outcome unit :=
  let '(v, r) := g_parse put cf fuel c None st in
  (v,
   let* st := r in
   let* r := scan cf fuel st in
   match fst r with
   | Teoi => Ret tt
   | _ => fail (token_msg "unexpected token" Teoi)
   end).

(** json.hpp:133-140 and 157-162; details/parser.hpp:263-279 *)
Definition parse_with put (cf : pcfg) (h : handler) (fuel : nat) (c : value) (b : ibuf)
  : value * (outcome unit * string) :=
  match read_next cf (init_pst b) with
  | Ret st => let '(v, r) := g_body put cf fuel c st in (v, handle h r)
  | r => (c, (stop r, ""%string))
  end.
Definition parse_string_with put (cf : pcfg) (s : str) : outcome value :=
  let '(v, (r, _)) := parse_with put cf HNone (fuel_for s) VNull (IStr s) in
  let* _ := r in Ret v.

(** fifo_map::emplace (tests/3rd-party/fifo_map/fifo_map.hpp): a new key goes
    last, a known key changes nothing. *)
Definition put_last (k : str) (v : value) (m : mlist) : mlist :=
  if existsb (fun p => str_eqb k (fst p)) m then m else m ++ [(k, v)].
(** std::multimap-like: everything is kept, in order. *)
Definition put_all (k : str) (v : value) (m : mlist) : mlist := m ++ [(k, v)].
