(** json::wrap on streams with state bits and exceptions() masks, and loops
    over them: C64. *)
From Verif Require Import Base Stream Encoding Value Parser FloatFmt Serializer Feeds SpecUnicode SpecGrammar SpecText SpecRfc SpecDump SpecStream
  Cpp Convert RoundTrip Wrapper SpecReuse StreamUse SpecStreamUse StreamUseProofs StreamUseMain.
Open Scope N_scope.

Notation text s := (chars s%string).
Notation quiet_stream s := (mkCin (mkIos false false false) (mkIos false false false) true s).

(** ** One extraction *)

(** A stream that is not good gets failbit; nothing is read, and nothing
    happens to the value.  A std::ios_base::failure is thrown if the mask has
    one of the bits that are then set. *)
Theorem C64_not_good : forall cf sp b m sk s, good b = false ->
  let a := (mkIos (b_eof b) true (b_bad b), Some s, if meets (mkIos (b_eof b) true (b_bad b)) m then Failure else Went) in
  (forall c, extract cf sp (mkCin b m sk s) c = (c, a)) /\ (forall e ty x, extract_typed e cf sp ty (mkCin b m sk s) x = (x, a)).
Proof. exact not_good. Qed.
Print Assumptions C64_not_good.

(** Nothing but blanks up to the end: eofbit and failbit, likewise. *)
Theorem C64_blank : forall cf sp b m w r, good b = true -> Forall (fun u => ends_input (src_ck cf) u = false /\ sp u = true) w ->
  (r = [] \/ exists u r', r = u :: r' /\ ends_input (src_ck cf) u = true) ->
  let a := (mkIos true true false, Some r, if b_eof m || b_fail m then Failure else Went) in
  (forall c, extract cf sp (mkCin b m true (w ++ r)) c = (c, a)) /\ (forall e ty x, extract_typed e cf sp ty (mkCin b m true (w ++ r)) x = (x, a)).
Proof. exact only_blank. Qed.
Print Assumptions C64_blank.

(** Otherwise the text is parsed, as by parse; whatever comes of it, the bits
    stay as they are, and whatever the mask is, no failure is thrown for
    them. *)
Theorem C64_parse : forall cf sp b m sk w r, good b = true ->
  (sk = false /\ w = []) \/
  (sk = true /\ Forall (fun u => ends_input (src_ck cf) u = false /\ sp u = true) w /\
   exists u r', r = u :: r' /\ ends_input (src_ck cf) u = false /\ sp u = false) ->
  (forall c, exists t, extract cf sp (mkCin b m sk (w ++ r)) c =
     (fst (parse_into cf HNone c r), (b, t, ends (fst (snd (parse_into cf HNone c r)))))) /\
  (forall e ty x, exists t, extract_typed e cf sp ty (mkCin b m sk (w ++ r)) x =
     match parse_string cf r with
     | Ret v => match get e ty v with Ret y => (y, (b, t, Went)) | f => (x, (b, t, ends f)) end
     | f => (x, (b, t, ends f))
     end).
Proof. exact then_parse. Qed.
Print Assumptions C64_parse.

(** So the convention that what cannot be read sets failbit does not hold. *)
Theorem C64_failbit_refuted :
  ~ (forall s c v b t w, extract cfg_json classic_space (quiet_stream s) c = (v, (b, t, w)) -> w <> Went -> b_fail b = true).
Proof. exact failbit_refuted. Qed.
Print Assumptions C64_failbit_refuted.

Example C64_one_case :
  let strict := mkIos true true true in
  (* the end is seen by the parser's own stream: the caller's is still good *)
  extract cfg_json classic_space (mkCin (mkIos false false false) strict true (text " [1] ")) VNull =
    (VArr [VInt 1], (mkIos false false false, Some [], Went)) /\
  (* the next extraction fails *)
  extract cfg_json classic_space (mkCin (mkIos false false false) strict true []) (VInt 3) = (VInt 3, (mkIos true true false, Some [], Failure)) /\
  extract cfg_json classic_space (mkCin (mkIos true false false) (mkIos false false true) true (text "5")) (VInt 3) = (VInt 3, (mkIos true true false, Some (text "5"), Went)) /\
  extract cfg_json classic_space (mkCin (mkIos false false false) strict true (text "nil")) VNull =
    (VNull, (mkIos false false false, None, Threw (Throw (EDeser "unexpected character 'i' (expected literal 'null')")))).
Proof. vm_compute. repeat split. Qed.

(** ** Loops: while (in >> wrap(x)) got.push_back(x) *)

(** A mask changes only the end of a loop: where it would have stopped, it
    throws a failure if the bits at the end meet the mask. *)
Theorem C64_mask : forall cf sp k b m sk s, k <> O ->
  let masked a := let '(b', t, w) := a in (b', t, match w with Went => if meets b' m then Failure else Went | _ => w end) in
  (forall x, collect (extract cf sp) k (mkCin b m sk s) x =
     let '(l, a) := collect (extract cf sp) k (mkCin b (mkIos false false false) sk s) x in (l, masked a)) /\
  (forall e ty x, collect (extract_typed e cf sp ty) k (mkCin b m sk s) x =
     let '(l, a) := collect (extract_typed e cf sp ty) k (mkCin b (mkIos false false false) sk s) x in (l, masked a)).
Proof. exact mask_only. Qed.
Print Assumptions C64_mask.

(** Documents with NULs between them are read one by one, to the last; then
    the stream has eofbit and failbit. *)
Theorem C64_loop : forall cf sp b m l vs rest s x k, enc_ok (tgt_enc cf) (tgt_ck cf) = true -> (forall x, sp x = true -> x <= 32) -> good b = true ->
  feeds (src_enc cf) (src_ck cf) (is_open (IStr s)) l TEof -> (src_ck cf = C8 \/ Forall (fun u => u < eof_unit (src_ck cf)) s) ->
  docs cf l vs rest -> rest = [] \/ rest = [0] -> (length vs < k)%nat ->
  collect (extract cf sp) k (mkCin b m true s) x = (vs, (mkIos true true false, Some [], if meets (mkIos true true false) m then Failure else Went)).
Proof. exact json_loop. Qed.
Print Assumptions C64_loop.

Theorem C64_loop_typed : forall e cf sp ty b m l vs ys rest s x k, enc_ok (tgt_enc cf) (tgt_ck cf) = true -> (forall x, sp x = true -> x <= 32) -> good b = true ->
  feeds (src_enc cf) (src_ck cf) (is_open (IStr s)) l TEof -> (src_ck cf = C8 \/ Forall (fun u => u < eof_unit (src_ck cf)) s) ->
  docs cf l vs rest -> rest = [] \/ rest = [0] -> Forall2 (fun v y => get e ty v = Ret y) vs ys -> (length vs < k)%nat ->
  collect (extract_typed e cf sp ty) k (mkCin b m true s) x = (ys, (mkIos true true false, Some [], if meets (mkIos true true false) m then Failure else Went)).
Proof. exact typed_loop. Qed.
Print Assumptions C64_loop_typed.

(** Conversely: a loop that ends without another exception has read the whole
    text, and the values are those of its documents in order. *)
Theorem C64_loop_only : forall cf sp b m k s l x vs b' t w, enc_ok (tgt_enc cf) (tgt_ck cf) = true -> (forall x, sp x = true -> x <= 32) -> good b = true ->
  feeds (src_enc cf) (src_ck cf) (is_open (IStr s)) l TEof -> (src_ck cf = C8 \/ Forall (fun u => u < eof_unit (src_ck cf)) s) ->
  collect (extract cf sp) k (mkCin b m true s) x = (vs, (b', t, w)) -> (forall r, w <> Threw r) ->
  series cf sp s vs /\ b' = mkIos true true false /\ t = Some [] /\ (w = Failure <-> b_eof m = true \/ b_fail m = true).
Proof. exact loop_only. Qed.
Print Assumptions C64_loop_only.

(** Without skipws every such loop ends with an exception of parse, and the
    stream is still good. *)
Theorem C64_loop_noskipws : forall cf sp b m l vs rest s x k, enc_ok (tgt_enc cf) (tgt_ck cf) = true -> (forall x, sp x = true -> x <= 32) -> good b = true ->
  feeds (src_enc cf) (src_ck cf) (is_open (IStr s)) l TEof -> (src_ck cf = C8 \/ Forall (fun u => u < eof_unit (src_ck cf)) s) ->
  docs cf l vs rest -> rest = [] \/ rest = [0] -> (length vs < k)%nat ->
  collect (extract cf sp) k (mkCin b m false s) x = (vs, (b, None, Threw (Throw (EDeser "unexpected token 'end_of_input'")))).
Proof. exact noskip_loop. Qed.
Print Assumptions C64_loop_noskipws.

Example C64_loop_case :
  let s := text " 1" ++ 0 :: text "
[2, 3] // more
" ++ 0 :: text """x""" in
  let vs := [VInt 1; VArr [VInt 2; VInt 3]; VStr (text "x")] in
  (exists rest, docs cfg_json s vs rest) /\
  collect (extract cfg_json classic_space) 9 (quiet_stream s) VNull = (vs, (mkIos true true false, Some [], Went)) /\
  collect (extract cfg_json classic_space) 9 (mkCin (mkIos false false false) (mkIos false true false) true s) VNull = (vs, (mkIos true true false, Some [], Failure)) /\
  series cfg_json classic_space s vs.
Proof. exact loop_case. Qed.

(** ** Output *)

(** A good stream: as Wrapper.v has it, and the bits stay as they are.  One
    that is not: nothing is written and the width stays; failbit may be set
    (fb), and only then can there be an exception. *)
Theorem C64_out : forall fb vck ock b m f t,
  (good b = true ->
   (forall v, insert fb vck ock v (mkCout b m f t) = let '(o, r) := put_json vck ock v (mkOut true f t) in (mkCout b m (o_fmt o) (o_text o), ends r)) /\
   (forall e ty x, insert_typed fb e vck ock ty x (mkCout b m f t) =
      let '(o, r) := put_typed e vck ock ty x (mkOut true f t) in (mkCout b m (o_fmt o) (o_text o), ends r))) /\
  (good b = false ->
   let a := (mkCout (mkIos (b_eof b) (b_fail b || fb b) (b_bad b)) m f t,
             if fb b && meets (mkIos (b_eof b) true (b_bad b)) m then Failure else Went) in
   (forall v, insert fb vck ock v (mkCout b m f t) = a) /\ (forall e ty x, insert_typed fb e vck ock ty x (mkCout b m f t) = a)).
Proof. exact out_all. Qed.
Print Assumptions C64_out.

(** Values written one after the other, each followed by a NUL, are read back
    by a loop: the first indented by the stream's width, the others compact. *)
Theorem C64_round_trip : forall pc fb vck ock vs b m f t sp, let cf := ser_cfg vck ock f [] in
  ock <> C16 -> good b = true -> reads pc cf -> ((0 < f_width f)%Z -> space (f_fill f)) -> (forall x, sp x = true -> x <= 32) -> Forall (ok_value plain cf) vs ->
  exists w f', write_all fb vck ock vs (mkCout b m f t) = (mkCout b m f' (t ++ w), Went) /\
    forall b' m' x k, good b' = true -> (length vs < k)%nat ->
      collect (extract pc sp) k (mkCin b' m' true w) x = (vs, (mkIos true true false, Some [], if meets (mkIos true true false) m' then Failure else Went)).
Proof. exact write_collect. Qed.
Print Assumptions C64_round_trip.

Example C64_round_case :
  let vs := [VArr [VInt 1]; VNull; VArr [VInt 2]] in
  let o := mkCout (mkIos false false false) (mkIos true true true) (mkFmt 1 32 6 FGeneral) (text "x") in
  let w := text "[
 1
]" ++ 0 :: text "null" ++ 0 :: text "[2]" ++ [0] in
  write_all (fun _ => true) C8 C8 vs o = (mkCout (mkIos false false false) (mkIos true true true) fmt_default (text "x" ++ w), Went) /\
  collect (extract cfg_json classic_space) 4 (quiet_stream w) VNull = (vs, (mkIos true true false, Some [], Went)).
Proof. vm_compute. split; reflexivity. Qed.

(** Blanks between the values, as for other types, will not do. *)
Theorem C64_blanks_refuted : forall sep, In sep [[]; [32]; [10]] ->
  ~ (forall vs, Forall (ok_value plain (ser_cfg C8 C8 fmt_default [])) vs ->
     exists k w, collect (extract cfg_json classic_space) k (quiet_stream (concat (map (fun v => match dump_json [] v with Ret w => w ++ sep | _ => [] end) vs))) VNull
       = (vs, (mkIos true true false, Some [], w))).
Proof. exact blanks_refuted. Qed.
Print Assumptions C64_blanks_refuted.
