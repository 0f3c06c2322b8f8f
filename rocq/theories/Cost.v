(** What parsing, dumping and comparing cost: how many calls of the recursive
    functions are in progress at once, and how often values are copied or
    compared.  The functions of Parser, Serializer and Compare once more,
    together with a count; CostProofs shows that the results are theirs.

    The calls counted are those of do_parse, skip_comments, do_dump,
    operator==, operator<, and of the copy constructor and the destructor of
    values that are arrays or objects.  Each has a frame on the stack; the
    other functions they call return without calling one of them.
    (std::vector and std::map put frames of their own in between: a bounded
    number, but for the copy constructor and destructor of std::map, which may
    descend the balanced tree.) *)
From Coq Require Import Floats.SpecFloat.
From Verif Require Import Base Stream Encoding Value ValueOps Token Message Parser Serializer Compare.

(** (greatest number of calls in progress, number of values copied) *)
Definition cost : Type := nat * nat.
Definition free : cost := (0, 0)%nat.
(** one after the other *)
Definition both (a b : cost) : cost := (Nat.max (fst a) (fst b), snd a + snd b)%nat.
(** within a call *)
Definition called (a : cost) : cost := (S (fst a), snd a).

(** copy constructor, details/value.hpp:117-143: of a container, each element
    is copied in turn *)
Fixpoint copy_cost (v : value) : cost :=
  match v with
  | VArr l => both (0, 1)%nat (called (fold_right (fun x c => both (copy_cost x) c) free l))
  | VObj m => both (0, 1)%nat (called (fold_right (fun kv c => both (copy_cost (snd kv)) c) free m))
  | _ => (0, 1)%nat
  end.
(** destructor, details/value.hpp:187-190 and 1057-1074 *)
Fixpoint drop_cost (v : value) : cost :=
  match v with
  | VArr l => called (fold_right (fun x c => both (drop_cost x) c) free l)
  | VObj m => called (fold_right (fun kv c => both (drop_cost (snd kv)) c) free m)
  | _ => free
  end.

(** ** Parsing *)

(** json.hpp:263-323, skip_spaces; the branch is the call of skip_comments *)
Fixpoint k_skip (cf : pcfg) (fuel : nat) (st : pst) : outcome pst * cost :=
  match fuel with
  | O => (OutOfFuel, free)
  | S f =>
      match skip_ws cf fuel st with
      | Ret st =>
          if p_cur st =? c_slash then
            let '(r, k) :=
              match read_next cf st with
              | Ret st =>
                  if p_cur st =? c_slash then
                    match line_comment cf fuel st with
                    | Ret (true, st) => k_skip cf f st
                    | Ret (false, st) => (Ret st, free)
                    | r => (stop r, free)
                    end
                  else if p_cur st =? c_star then
                    match block_comment cf fuel st with
                    | Ret st => k_skip cf f st
                    | r => (stop r, free)
                    end
                  else (fail "unexpected character '/'", free)
              | r => (r, free)
              end in
            (r, called k)
          else (Ret st, free)
      | r => (r, free)
      end
  end.

(** json.hpp:179-245: after the blanks, what scan does on the character that
    comes next *)
Definition scan_token (cf : pcfg) (fuel : nat) (st : pst) : outcome (token * pst) :=
  if is_eof (p_is st) then Ret (Teoi, st)
  else
    let c := p_cur st in
    match punct c with
    | Some t => let* st := read_next cf st in Ret (t, st)
    | None =>
        if c =? c_t then scan_literal cf lit_true lit_true Ttrue st
        else if c =? c_f then scan_literal cf lit_false lit_false Tfalse st
        else if c =? c_n then scan_literal cf lit_null lit_null Tnull st
        else if c =? c_quote then Ret (Tstring, st)
        else if (c =? c_minus) || (c =? c_plus) || ((48 <=? c) && (c <=? 57))
        then scan_number cf fuel st
        else if c =? 0 then Ret (Teoi, st)
        else fail_code "unexpected character" c
    end.
Definition k_scan (cf : pcfg) (fuel : nat) (st : pst) : outcome (token * pst) * cost :=
  match k_skip cf fuel st with
  | (Ret st, k) => (scan_token cf fuel st, k)
  | (r, k) => (stop r, k)
  end.

(** details/parser.hpp:96-202.  An assignment to c releases what c held; a
    member is parsed into a variable, copied into the object (emplace is given
    an lvalue, also when the key is there already), and the variable is
    released, also when an exception passes. *)
Fixpoint k_parse (cf : pcfg) (fuel : nat) (c : value) (tok : option token) (st : pst)
  : (value * outcome pst) * cost :=
  match fuel with
  | O => ((c, OutOfFuel), called free)
  | S f =>
      let '(r, k) := match tok with None => k_scan cf fuel st | Some t => (Ret (t, st), free) end in
      let old := both k (drop_cost c) in
      match r with
      | Ret (t, st) =>
          match t with
          | Ttrue => ((VBool true, Ret st), called old)
          | Tfalse => ((VBool false, Ret st), called old)
          | Tnull => ((VNull, Ret st), called old)
          | Tstring => let '(s, r) := get_string cf fuel st in ((VStr s, r), called old)
          | Tint =>
              match get_integer st with
              | Ret z => ((VInt z, Ret st), called old)
              | r => ((VInt 0, stop r), called old)
              end
          | Tfloat => ((VFloat (get_float st), Ret st), called old)
          | Tbegin_arr =>
              let '((l, r), k) := k_arr cf f [] st in
              ((VArr l,
                match r with
                | Ret (Tend_arr, st) => Ret st
                | Ret (t, _) => fail (expect_msg t Tend_arr)
                | r => stop r
                end), called (both old k))
          | Tbegin_obj =>
              let '((m, r), k) := k_obj cf f [] st in
              ((VObj m,
                match r with
                | Ret (Tend_obj, st) => Ret st
                | Ret (t, _) => fail (expect_msg t Tend_obj)
                | r => stop r
                end), called (both old k))
          | _ => ((c, fail (token_msg "unexpected token" t)), called k)
          end
      | r => ((c, stop r), called k)
      end
  end
with k_arr (cf : pcfg) (fuel : nat) (l : list value) (st : pst)
  : (list value * outcome (token * pst)) * cost :=
  match fuel with
  | O => ((l, OutOfFuel), free)
  | S f =>
      match k_scan cf fuel st with
      | (Ret (t, st), k1) =>
          if starts_value t then
            let '((v, r), k2) := k_parse cf f VNull (Some t) st in
            match r with
            | Ret st =>
                match k_scan cf fuel st with
                | (Ret (Tval_sep, st), k3) =>
                    let '(r, k4) := k_arr cf f (l ++ [v]) st in (r, both k1 (both k2 (both k3 k4)))
                | (Ret (t, st), k3) => ((l ++ [v], Ret (t, st)), both k1 (both k2 k3))
                | (r, k3) => ((l ++ [v], stop r), both k1 (both k2 k3))
                end
            | r => ((l ++ [v], stop r), both k1 k2)
            end
          else ((l, Ret (t, st)), k1)
      | (r, k1) => ((l, stop r), k1)
      end
  end
with k_obj (cf : pcfg) (fuel : nat) (m : list (str * value)) (st : pst)
  : (list (str * value) * outcome (token * pst)) * cost :=
  match fuel with
  | O => ((m, OutOfFuel), free)
  | S f =>
      match k_scan cf fuel st with
      | (Ret (Tstring, st), k1) =>
          let '(key, r) := get_string cf fuel st in
          match r with
          | Ret st =>
              match k_scan cf fuel st with
              | (Ret (Tname_sep, st), k2) =>
                  let '((v, r), k3) := k_parse cf f VNull None st in
                  let k := both k1 (both k2 k3) in
                  match r with
                  | Ret st =>
                      let k := both k (both (copy_cost v) (drop_cost v)) in
                      match k_scan cf fuel st with
                      | (Ret (Tval_sep, st), k4) =>
                          let '(r, k5) := k_obj cf f (obj_emplace key v m) st in (r, both k (both k4 k5))
                      | (Ret (t, st), k4) => ((obj_emplace key v m, Ret (t, st)), both k k4)
                      | (r, k4) => ((obj_emplace key v m, stop r), both k k4)
                      end
                  | r => ((m, stop r), both k (drop_cost v))
                  end
              | (Ret (t, st), k2) => ((m, Ret (t, st)), both k1 k2)
              | (r, k2) => ((m, stop r), both k1 k2)
              end
          | r => ((m, stop r), k1)
          end
      | (Ret (t, st), k1) => ((m, Ret (t, st)), k1)
      | (r, k1) => ((m, stop r), k1)
      end
  end.

(** details/parser.hpp:45-70 and the wrappers, as parse_into *)
Definition k_body (cf : pcfg) (fuel : nat) (c : value) (st : pst) : (value * outcome unit) * cost :=
  match k_parse cf fuel c None st with
  | ((v, Ret st), k) =>
      match k_scan cf fuel st with
      | (Ret (Teoi, _), k') => ((v, Ret tt), both k k')
      | (Ret _, k') => ((v, fail (token_msg "unexpected token" Teoi)), both k k')
      | (r, k') => ((v, stop r), both k k')
      end
  | ((v, r), k) => ((v, stop r), k)
  end.
Definition k_into (cf : pcfg) (h : handler) (c : value) (s : str) : (value * (outcome unit * string)) * cost :=
  match read_next cf (init_pst (IStr s)) with
  | Ret st => let '((v, r), k) := k_body cf (fuel_for s) c st in ((v, handle h r), k)
  | r => ((c, (stop r, ""%string)), free)
  end.

(** ** Dumping, details/serializer.hpp:97-197 *)

Definition kres : Type := sres * nat.
(** go on after m, whose calls are in no call of the rest *)
Definition kseq (m : sres) (f : sst -> kres) : kres :=
  match m with (s, Ret _) => f s | (s, r) => ((s, r), 0%nat) end.
Definition kthen (m : kres) (f : sst -> kres) : kres :=
  match fst m with
  | (s, Ret _) => let '(x, n) := f s in (x, Nat.max (snd m) n)
  | (s, r) => ((s, r), snd m)
  end.
Definition kdone (m : sres) : kres := (m, 0%nat).
Definition kcall (m : kres) : kres := (fst m, S (snd m)).

Fixpoint k_dump (cf : scfg) (v : value) (s : sst) : kres :=
  kcall match v with
  | VObj m =>
      kseq (next cf Tbegin_obj s) (fun s =>
      match m with
      | [] => kdone (next cf Tend_obj s)
      | _ =>
          kthen ((fix members (m : list (str * value)) (s : sst) : kres :=
             match m with
             | [] => kdone (sret s)
             | (k, v) :: m' =>
                 kseq (next cf Tstring s) (fun s =>
                 kseq (put_string cf k s) (fun s =>
                 kseq (next cf Tname_sep s) (fun s =>
                 kthen (k_dump cf v s) (fun s =>
                 match m' with
                 | [] => kdone (sret s)
                 | _ => kseq (next cf Tval_sep s) (fun s => members m' s)
                 end))))
             end) m s) (fun s =>
          kdone (next cf Tend_obj s))
      end)
  | VArr l =>
      kseq (next cf Tbegin_arr s) (fun s =>
      match l with
      | [] => kdone (next cf Tend_arr s)
      | _ =>
          kthen ((fix elems (l : list value) (s : sst) : kres :=
             match l with
             | [] => kdone (sret s)
             | v :: l' =>
                 kthen (k_dump cf v s) (fun s =>
                 match l' with
                 | [] => kdone (sret s)
                 | _ => kseq (next cf Tval_sep s) (fun s => elems l' s)
                 end)
             end) l s) (fun s =>
          kdone (next cf Tend_arr s))
      end)
  | v => kdone (do_dump cf v s)
  end.
Definition k_dump_string (cf : scfg) (v : value) : outcome (list N) * nat :=
  let '((s, r), n) := kthen (k_dump cf v (init_sst cf (mkOs [] false))) (fun s => kdone (next cf Teoi s)) in
  (let* _ := fst (handle HNone r) in Ret (os_units (s_os s)), n).

(** ** Comparing: the result, the calls made and the greatest number of them
    in progress *)

Definition calls : Type := nat * nat.
Definition and_then (a b : calls) : calls := (fst a + fst b, Nat.max (snd a) (snd b))%nat.
Definition one_call (a : calls) : calls := (S (fst a), S (snd a)).

(** operator==, value.hpp:821-854: std::vector and std::map compare the sizes
    first, then element by element, up to the first difference; pairs by key,
    then by value *)
Fixpoint k_eq (a b : value) {struct a} : bool * calls :=
  match a, b with
  | VArr l, VArr l' =>
      if (length l =? length l')%nat then
        let '(r, n) := (fix go (l l' : list value) : bool * calls :=
           match l, l' with
           | x :: t, y :: t' =>
               let '(r, n) := k_eq x y in
               if r : bool then let '(r', n') := go t t' in (r', and_then n n') else (false, n)
           | _, _ => (true, (0, 0)%nat)
           end) l l' in (r, one_call n)
      else (false, one_call (0, 0)%nat)
  | VObj m, VObj m' =>
      if (length m =? length m')%nat then
        let '(r, n) := (fix go (m m' : list (str * value)) : bool * calls :=
           match m, m' with
           | (k, x) :: t, (k', y) :: t' =>
               if str_eqb k k' then
                 let '(r, n) := k_eq x y in
                 if r : bool then let '(r', n') := go t t' in (r', and_then n n') else (false, n)
               else (false, (0, 0)%nat)
           | _, _ => (true, (0, 0)%nat)
           end) m m' in (r, one_call n)
      else (false, one_call (0, 0)%nat)
  | _, _ => (v_eqb a b, one_call (0, 0)%nat)
  end.

(** operator<, value.hpp:889-933.  std::lexicographical_compare asks x < y and,
    if that is false, y < x before it goes on to the next pair of elements; the
    operator< of std::pair asks the keys both ways and then the values.  The
    two components are a < b and b < a (as in Compare). *)
Definition ask (a b : bool * calls) (rest : bool * calls) : bool * calls :=
  if fst a then (true, snd a)
  else if fst b then (false, and_then (snd a) (snd b))
  else (fst rest, and_then (and_then (snd a) (snd b)) (snd rest)).
Definition pair_lt (k k' : str) (x : bool * calls) : bool * calls :=
  if str_ltb k k' then (true, (0, 0)%nat) else if str_ltb k' k then (false, (0, 0)%nat) else x.
Definition call_lt (x : bool * calls) : bool * calls := (fst x, one_call (snd x)).

Fixpoint k_cmp (a b : value) {struct a} : (bool * calls) * (bool * calls) :=
  let '(lt, gt) :=
    match a, b with
    | VArr l, VArr l' =>
        (fix go (l l' : list value) : (bool * calls) * (bool * calls) :=
           match l, l' with
           | [], [] => ((false, (0, 0)%nat), (false, (0, 0)%nat))
           | [], _ :: _ => ((true, (0, 0)%nat), (false, (0, 0)%nat))
           | _ :: _, [] => ((false, (0, 0)%nat), (true, (0, 0)%nat))
           | x :: t, y :: t' =>
               let '(lt, gt) := k_cmp x y in
               let '(lt', gt') := go t t' in
               (ask lt gt lt', ask gt lt gt')
           end) l l'
    | VObj m, VObj m' =>
        (fix go (m m' : list (str * value)) : (bool * calls) * (bool * calls) :=
           match m, m' with
           | [], [] => ((false, (0, 0)%nat), (false, (0, 0)%nat))
           | [], _ :: _ => ((true, (0, 0)%nat), (false, (0, 0)%nat))
           | _ :: _, [] => ((false, (0, 0)%nat), (true, (0, 0)%nat))
           | (k, x) :: t, (k', y) :: t' =>
               let '(lt0, gt0) := k_cmp x y in
               let lt := pair_lt k k' lt0 in
               let gt := pair_lt k' k gt0 in
               let '(lt', gt') := go t t' in
               (ask lt gt lt', ask gt lt gt')
           end) m m'
    | _, _ => let '(lt, gt) := v_cmp a b in ((lt, (0, 0)%nat), (gt, (0, 0)%nat))
    end in
  (call_lt lt, call_lt gt).
Definition k_lt (a b : value) : bool * calls := fst (k_cmp a b).
