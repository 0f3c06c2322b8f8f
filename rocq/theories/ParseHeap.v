(** Parsing into memory that may run out: basic_parser::parse and do_parse
    (details/parser.hpp:55-204) working on a basic_value where it lies
    (Heap, Alloc), with scan_string (json.hpp:344-480) writing into the text of
    that value.  Scanning is that of Parser.

    Simplifications: as in Alloc.  A character appended to a string may need
    memory; the ostream in between catches std::bad_alloc and sets badbit.
    An exception thrown by fail() (parser.hpp:206-216, json.hpp:632-643) needs
    memory for its message, which a refusal turns into std::bad_alloc; that
    the message can also come out shorter is left out.  std::map::emplace
    makes the node, with a copy of the key and of the value, before it looks
    for the key.  Parsing of numbers needs no memory. *)
From Coq Require Import Floats.SpecFloat.
From Verif Require Import Base Stream Encoding Value Token ValueOps Message Parser Serializer Target Heap Alloc.
Open Scope N_scope.

(** fast_string_ostreambuf (details/stream.hpp:211-242) on a string; with the
    plan of refusals *)
Definition string_take (ck : ckind) (t : str * plan) (c : call) : (str * plan) * bool :=
  let more := match c with Put u => if Z.eqb (Z.of_N u) (eof_int ck) then [] else [u] | Write l => l end in
  match more, snd t with
  | [], _ => (t, true)
  | _, true :: pl => ((fst t, pl), false)
  | _, false :: pl => ((fst t ++ more, pl), true)
  | _, [] => ((fst t ++ more, []), true)
  end.
Definition sstream := tstream (T := str * plan).

(** json.hpp:344-480, as Parser.scan_string *)
Fixpoint mscan_string (cf : pcfg) (fuel : nat) (o : sstream) (st : pst) : sstream * outcome pst :=
  match fuel with
  | O => (o, OutOfFuel)
  | S f =>
      match read_next cf st with
      | Ret st =>
          let c := p_cur st in
          if is_eof (p_is st) then (o, Parser.fail "unexpected end of string")
          else if c =? c_quote then (o, read_next cf st)
          else if c <=? 31 then (o, fail_code "invalid control character" c)
          else if c =? c_bslash then
            match read_next cf st with
            | Ret st =>
                match simple_escape (p_cur st) with
                | Some e => mscan_string cf f (ts_put (string_take (tgt_ck cf)) (tgt_ck cf) o e) st
                | None =>
                    if p_cur st =? c_u then
                      match read_u cf st with
                      | Ret (cp, st) =>
                          let o := t_encode (string_take (tgt_ck cf)) (tgt_enc cf) (tgt_ck cf) o cp in
                          if ts_fail o then (o, fail_code "encoding failed with codepoint" cp)
                          else mscan_string cf f o st
                      | r => (o, stop r)
                      end
                    else (o, fail_code "invalid escaped character" (p_cur st))
                end
            | r => (o, stop r)
            end
          else
            let o := t_encode (string_take (tgt_ck cf)) (tgt_enc cf) (tgt_ck cf) o c in
            if ts_fail o then (o, fail_code "encoding failed with codepoint" c)
            else mscan_string cf f o st
      | r => (o, stop r)
      end
  end.

(** json.hpp:174-177 on an empty string: what the string holds afterwards, and
    how it ended *)
Definition mget_string (cf : pcfg) (fuel : nat) (st : pst) : F (str * outcome pst) := fun s =>
  let '(o, r) := mscan_string cf fuel (mkTs ([], snd s) false) st in
  ((fst s, snd (ts_buf o)), Ret (fst (ts_buf o), r)).

(** what a scan ends with; an exception needs memory *)
Definition told {A} (r : outcome A) : F A :=
  match r with
  | Throw e => let! _ <- alloc; lift (fail (Throw e))
  | r => fun s => (s, r)
  end.

(** c = value_constant::string and the like, and the assignment of a bool *)
Definition fassign (a : loc) (m : F cell) : F unit :=
  let! c <- m;
  ftemp c (fun t => lift (assign_move a t)).
Definition fempty : F cell := let! p <- fcreate (fret (BStr [])); fret (mkCell TString (WPtr p)).

(** c.data().string, c.data().vector, c.data().object *)
Definition data_at (a : loc) : M nat := do c <- read_loc a; ptr_of c.

(** parser.hpp:160: the new element, and where it is *)
Definition fappend (a : loc) : F loc :=
  let! p <- lift (data_at a);
  let! _ <- alloc;
  let! b <- lift (get_block p);
  match b with
  | BArr g l => let! _ <- lift (set_block p (BArr (S g) (l ++ [null_cell]))); fret (LElem p (S g) (length l))
  | _ => lift (fail UB)
  end.

(** parser.hpp:189 *)
Definition femplace (a : loc) (k : str) (object : loc) : F unit :=
  let! p <- lift (data_at a);
  let! _ <- alloc;
  let! _ <- alloc;
  let! x <- lift (read_loc object);
  let! y <- fcopy_cell x;
  let! b <- lift (get_block p);
  match b with
  | BObj m =>
      match obj_find k m with
      | None => lift (set_block p (BObj (obj_emplace k y m)))
      | Some _ => lift (destroy_cell y)
      end
  | _ => lift (fail UB)
  end.

(** parser.hpp:96-204; the loops (137-167, 174-195) end with the last token *)
Fixpoint mdo_parse (cf : pcfg) (fuel : nat) (a : loc) (tok : option token) (st : pst) : F pst :=
  match fuel with
  | O => lift (fail OutOfFuel)
  | S f =>
      let! r <- match tok with None => told (scan cf fuel st) | Some t => fret (t, st) end;
      let (t, st) := r in
      match t with
      | Ttrue => let! _ <- fassign_new a (IBool true); fret st
      | Tfalse => let! _ <- fassign_new a (IBool false); fret st
      | Tnull => let! _ <- fassign_new a INull; fret st
      | Tstring =>
          let! _ <- fassign a fempty;
          let! p <- lift (data_at a);
          let! r <- mget_string cf fuel st;
          let! _ <- lift (set_block p (BStr (fst r)));
          told (snd r)
      | Tint =>
          let! _ <- fassign_new a (IInt 0%Z);
          let! z <- told (get_integer st);
          let! _ <- lift (write_loc a (mkCell TInteger (WInt z)));
          fret st
      | Tfloat =>
          let! _ <- fassign_new a (IFloat f64_zero);
          let! _ <- lift (write_loc a (mkCell TFloating (WFloat (get_float st))));
          fret st
      | Tbegin_arr =>
          let! _ <- fassign_new a IArr;
          let! r <- marr_loop cf f a st;
          match r with
          | (Tend_arr, st) => fret st
          | (t, _) => told (Parser.fail (expect_msg t Tend_arr))
          end
      | Tbegin_obj =>
          let! _ <- fassign_new a IObj;
          let! r <- mobj_loop cf f a st;
          match r with
          | (Tend_obj, st) => fret st
          | (t, _) => told (Parser.fail (expect_msg t Tend_obj))
          end
      | _ => told (Parser.fail (token_msg "unexpected token" t))
      end
  end
with marr_loop (cf : pcfg) (fuel : nat) (a : loc) (st : pst) : F (token * pst) :=
  match fuel with
  | O => lift (fail OutOfFuel)
  | S f =>
      let! r <- told (scan cf fuel st);
      let (t, st) := r in
      if starts_value t then
        let! e <- fappend a;
        let! st <- mdo_parse cf f e (Some t) st;
        let! r <- told (scan cf fuel st);
        match r with
        | (Tval_sep, st) => marr_loop cf f a st
        | r => fret r
        end
      else fret (t, st)
  end
with mobj_loop (cf : pcfg) (fuel : nat) (a : loc) (st : pst) : F (token * pst) :=
  match fuel with
  | O => lift (fail OutOfFuel)
  | S f =>
      let! r <- told (scan cf fuel st);
      match r with
      | (Tstring, st) =>
          let! kr <- mget_string cf fuel st;
          let! st <- told (snd kr);
          let! r <- told (scan cf fuel st);
          match r with
          | (Tname_sep, st) =>
              let! r <- ftemp null_cell (fun object =>
                let! st <- mdo_parse cf f object None st;
                let! _ <- femplace a (fst kr) object;
                told (scan cf fuel st));
              match r with
              | (Tval_sep, st) => mobj_loop cf f a st
              | r => fret r
              end
          | r => fret r
          end
      | r => fret r
      end
  end.

(** parser.hpp:55-62, the try block *)
Definition mparse_body (cf : pcfg) (fuel : nat) (a : loc) (st : pst) : F unit :=
  let! st <- mdo_parse cf fuel a None st;
  let! r <- told (scan cf fuel st);
  match r with
  | (Teoi, _) => fret tt
  | _ => told (Parser.fail (token_msg "unexpected token" Teoi))
  end.

(** parser.hpp:63-69 and exception.hpp:115-151: the recorded message; keeping
    it needs memory *)
Definition mhandle (h : handler) (m : F unit) : F string := fun s =>
  match m s with
  | (s', Throw e) =>
      match h with
      | HNone | HStrict => (s', Throw e)
      | HIgnore => (s', Ret ""%string)
      | HRecord => if is_configor_exn e then (let! _ <- alloc; fret (exn_msg e)) s' else (s', Throw e)
      end
  | (s', Ret _) => (s', Ret ""%string)
  | (s', r) => (s', stop r)
  end.

(** json.hpp:133-140, 157-162; details/parser.hpp:263-270 *)
Definition mparse (cf : pcfg) (h : handler) (a : loc) (text : str) : F string :=
  let! st <- told (read_next cf (init_pst (Stream.IStr text)));
  mhandle h (mparse_body cf (fuel_for text) a st).

(** json::parse(v[..], text) *)
Definition mparse_into (cf : pcfg) (h : handler) (a : place) (text : str) : F string :=
  let! l <- lift (locate a);
  mparse cf h l text.

(** auto v = json::parse(text), parser.hpp:272-279, 253-260 *)
Definition mparse_new (cf : pcfg) (text : str) : F unit :=
  let! t <- lift (push_slot null_cell);
  on_throw (let! _ <- mparse cf HNone (LSlot t) text; fret tt) pop_slot.
