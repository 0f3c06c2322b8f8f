(** Stream insertion and extraction through json::wrap: C46. *)
From Coq Require Import Floats.SpecFloat.
From Verif Require Import Base Stream Encoding Value Parser FloatFmt Serializer Feeds SpecUnicode SpecGrammar SpecText SpecRfc SpecDump SpecStream
  Cpp Convert SpecConv RoundTrip Wrapper WrapProofs WrapMore WrapTyped.
Open Scope N_scope.

Notation text s := (chars s%string).

(** ** Output *)

(** The text: compact, or indented by the stream's width in its fill
    character; floats in the stream's precision and floatfield. *)
Theorem C46_out : forall vck ock v o w, o_good o = true ->
  let done := put_json vck ock v o = (mkOut true (no_width (o_fmt o)) (o_text o ++ w), Ret tt) in
  let shows lay := rend (unit_string (ser_cfg vck ock (o_fmt o) [])) (float_text (shown (f_ff (o_fmt o))) (f_prec (o_fmt o))) lay 0 v w in
  ((f_width (o_fmt o) <= 0)%Z -> (done <-> shows compact)) /\
  ((0 < f_width (o_fmt o) < 256)%Z -> f_fill (o_fmt o) <> 0 -> height v < 65536 ->
   (done <-> shows (indented (Z.to_N (f_width (o_fmt o))) (f_fill (o_fmt o))))).
Proof. exact put_layout. Qed.
Print Assumptions C46_out.

(** The same as dump with the options that say the same. *)
Theorem C46_out_options : forall vck ock v o, o_good o = true -> (0 <= f_width (o_fmt o) < 256)%Z ->
  let d := dump_to (ser_cfg vck ock fmt_default [OIndent (Z.to_N (f_width (o_fmt o))) (f_fill (o_fmt o)); OPrecision (f_prec (o_fmt o)) (f_ff (o_fmt o))])
             HNone (mkOs [] false) v in
  put_json vck ock v o = (mkOut true (no_width (o_fmt o)) (o_text o ++ fst d), fst (snd d)).
Proof. exact put_options. Qed.
Print Assumptions C46_out_options.

(** Whatever happens, what was in the stream stays, and of the stream's state
    only the width changes: to 0, also when dump throws.  A stream that is not
    good is left alone. *)
Theorem C46_out_always : forall vck ock v o o' r, put_json vck ock v o = (o', r) ->
  o_good o' = o_good o /\ (exists t, o_text o' = o_text o ++ t) /\ (o_good o = true -> o_fmt o' = no_width (o_fmt o)) /\
  (o_good o = false -> o' = o /\ r = Ret tt).
Proof. exact put_always. Qed.
Print Assumptions C46_out_always.

Example C46_out_case :
  put_json C8 C8 (VObj [(text "k", VArr [VInt 1])]) (mkOut true (mkFmt 3 95 6 FGeneral) (text "x")) =
  (mkOut true (mkFmt 0 95 6 FGeneral) (text "x{
___""k"":_[
______1
___]
}"), Ret tt) /\
  (* an undecodable string: the bracket is out, the width is gone *)
  put_json C8 C8 (VArr [VStr [255]]) (mkOut true (mkFmt 1 32 6 FGeneral) []) =
  (mkOut true (mkFmt 0 32 6 FGeneral) (text "[
 """), Throw (ESer "unexpected character '\u4104103F'")).
Proof. split; vm_compute; reflexivity. Qed.

(** The width counts modulo 256 only. *)
Theorem C46_out_any_width_refuted :
  ~ (forall v o w, o_good o = true -> (0 < f_width (o_fmt o))%Z -> f_fill (o_fmt o) <> 0 -> height v < 65536 ->
     (put_json C8 C8 v o = (mkOut true (no_width (o_fmt o)) (o_text o ++ w), Ret tt) ->
      rend (unit_string (ser_cfg C8 C8 (o_fmt o) [])) (float_text (shown (f_ff (o_fmt o))) (f_prec (o_fmt o)))
        (indented (Z.to_N (f_width (o_fmt o))) (f_fill (o_fmt o))) 0 v w)).
Proof. exact any_width_refuted. Qed.
Print Assumptions C46_out_any_width_refuted.

(** ** Input *)

(** v is untouched if the stream is not good, or has only blanks. *)
Theorem C46_in_untouched : forall cf sp sk t c,
  take_json cf sp (mkIn false sk t) c = (c, Ret (mkIn false sk t)) /\
  (Forall (fun x => sp x = true) t -> take_json cf sp (mkIn true true t) c = (c, Ret (mkIn false true []))).
Proof. exact in_untouched. Qed.
Print Assumptions C46_in_untouched.

(** Otherwise extraction is parse on what follows the blanks. *)
Theorem C46_in_parse : forall cf sp sk w s c v r,
  (sk = false /\ w = []) \/ (sk = true /\ Forall (fun c => sp c = true) w /\ exists x s', s = x :: s' /\ sp x = false) ->
  take_json cf sp (mkIn true sk (w ++ s)) c = (v, r) ->
  parse_into cf HNone c s = (v, (unit_of r, ""%string)) /\ (forall i, r = Ret i -> i_good i = true /\ i_skipws i = sk).
Proof. exact take_same. Qed.
Print Assumptions C46_in_parse.

(** Whatever parses from a string is extracted, whichever characters the
    stream's locale takes for blanks (if none is above the space). *)
Theorem C46_in_string : forall cf sp sk s c v, (forall x, sp x = true -> x <= 32) -> parse_string cf s = Ret v ->
  exists t, take_json cf sp (mkIn true sk s) c = (v, Ret (mkIn true sk t)).
Proof. exact take_parsed. Qed.
Print Assumptions C46_in_string.

(** The whole rest is consumed, if it has no NUL... *)
Theorem C46_in_whole : forall cf sp sk s c l v, (forall x, sp x = true -> x <= 32) -> ~ In 0 l ->
  feeds (src_enc cf) (src_ck cf) (is_open (IStr s)) l TEof ->
  (src_ck cf = C8 \/ Forall (fun u => u < eof_unit (src_ck cf)) s) -> parse_string cf s = Ret v ->
  take_json cf sp (mkIn true sk s) c = (v, Ret (mkIn true sk [])).
Proof. exact in_whole. Qed.
Print Assumptions C46_in_whole.

(** ...and only then. *)
Theorem C46_in_nul_refuted :
  take_json cfg_json classic_space (mkIn true true (text " 1" ++ 0 :: text " 2")) VNull = (VInt 1, Ret (mkIn true true (text " 2"))).
Proof. exact in_nul. Qed.
Print Assumptions C46_in_nul_refuted.

Example C46_in_case :
  (forall x, classic_space x = true <-> In x [9; 10; 11; 12; 13; 32]) /\
  take_json cfg_json classic_space (mkIn true true (11 :: text " [1,2] //")) (VInt 7) = (VArr [VInt 1; VInt 2], Ret (mkIn true true [])) /\
  take_json cfg_json classic_space (mkIn true false (11 :: text " [1,2]")) (VInt 7) = (VInt 7, Throw (EDeser "unexpected character '\u000B'")) /\
  take_json cfg_json classic_space (mkIn true true (text " [1,2] [3]")) (VInt 7) = (VArr [VInt 1; VInt 2], Throw (EDeser "unexpected token 'end_of_input'")).
Proof. exact in_case. Qed.

(** ** Insertion, then extraction *)
Theorem C46_round_trip : forall pc vck ock v o sp sk c, let cf := ser_cfg vck ock (o_fmt o) [] in
  ock <> C16 -> o_good o = true -> reads pc cf ->
  ((0 < f_width (o_fmt o))%Z -> space (f_fill (o_fmt o))) -> (forall x, sp x = true -> x <= 32) -> ok_value plain cf v ->
  exists w, put_json vck ock v o = (mkOut true (no_width (o_fmt o)) (o_text o ++ w), Ret tt) /\
            take_json pc sp (mkIn true sk w) c = (v, Ret (mkIn true sk [])).
Proof. exact put_take. Qed.
Print Assumptions C46_round_trip.

(** ** Other C++ types *)
Theorem C46_typed_out : forall e vck ock t x o,
  (forall v, of_cpp e t x = Ret v -> put_typed e vck ock t x o = put_json vck ock v o) /\
  (forall r, o_good o = true -> of_cpp e t x = Throw r -> put_typed e vck ock t x o = (o, Throw r)).
Proof. exact typed_out. Qed.
Print Assumptions C46_typed_out.

(** The object is assigned only if the text parses and converts. *)
Theorem C46_typed_in : forall e cf sp t i x,
  (forall v i', take_json cf sp i VNull = (v, Ret i') -> i_good i' = true ->
     (forall y, get e t v = Ret y -> take_typed e cf sp t i x = (y, Ret i')) /\
     (forall r, get e t v = Throw r -> take_typed e cf sp t i x = (x, Throw r))) /\
  (forall v i', take_json cf sp i VNull = (v, Ret i') -> i_good i' = false -> take_typed e cf sp t i x = (x, Ret i')) /\
  (forall v r, take_json cf sp i VNull = (v, Throw r) -> take_typed e cf sp t i x = (x, Throw r)).
Proof. exact typed_in. Qed.
Print Assumptions C46_typed_in.

Theorem C46_typed_round_trip : forall e e' pc vck ock t x o sp sk x0, let cf := ser_cfg vck ock (o_fmt o) [] in
  ock <> C16 -> o_good o = true -> reads pc cf ->
  ((0 < f_width (o_fmt o))%Z -> space (f_fill (o_fmt o))) -> (forall u, sp u = true -> u <= 32) ->
  fair e -> wf_ty t -> typed t x -> telling t x -> (forall v, of_cpp e t x = Ret v -> ok_value plain cf v) ->
  exists w, put_typed e vck ock t x o = (mkOut true (no_width (o_fmt o)) (o_text o ++ w), Ret tt) /\
            take_typed e' pc sp t (mkIn true sk w) x0 = (x, Ret (mkIn true sk [])).
Proof. exact typed_put_take. Qed.
Print Assumptions C46_typed_round_trip.

(** map<string, vector<int>> *)
Example C46_typed_case :
  let e := mkEnv (@rev cval) (@rev (str * cval)) true in
  let t := TyMap false (TySeq KVector (TyInt 32 true)) in
  let x := CMap [(text "a", CSeq [CInt 1; CInt (-5)])] in
  put_typed e C8 C8 t x (mkOut true (mkFmt 1 32 6 FGeneral) []) = (mkOut true fmt_default (text "{
 ""a"": [
  1,
  -5
 ]
}"), Ret tt) /\
  take_typed e cfg_json classic_space t (mkIn true true (text "{ ""a"": [1, -5] }")) (CMap []) = (x, Ret (mkIn true true [])) /\
  take_typed e cfg_json classic_space t (mkIn true true (text "{ ""a"": 1 }")) x = (x, Throw (EKey "operator[] called on a non-array type")).
Proof. cbv zeta. split; [|split]; vm_compute; reflexivity. Qed.
