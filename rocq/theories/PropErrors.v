(** C53: what the errors of dumping and converting say. *)
From Coq Require Import List NArith ZArith String Floats.SpecFloat.
From Verif Require Import Base Stream Encoding Value ValueOps Parser Serializer Feeds SpecText SpecRfc SpecDump SpecMessage
  SpecValue SpecIter Cpp Convert SpecConv SpecErrors ErrorProofs.
Import ListNotations.
Open Scope N_scope.

Notation text s := (chars s%string).
Definition plain_env : env := mkEnv (fun l => l) (fun m => m) true.
Definition dump8 (v : value) := dump_string (ser_cfg C8 C8 fmt_default []) v.
Definition dump16 (v : value) := dump_string (ser_cfg C8 C16 fmt_default []) v.

(** dump throws exactly the message specified: the first string that cannot
    be written, and in it the first character that cannot be. *)
Theorem C53_dump : forall cf v er, enc_ok (out_enc cf) (out_ck cf) = true ->
  (dump_string cf v = Throw er <-> exists m, er = ESer m /\ dump_error cf v m).
Proof. exact (fun cf v er Hok => dump_says cf Hok v er). Qed.
Print Assumptions C53_dump.

Theorem C53_dump_one : forall cf v m m', enc_ok (out_enc cf) (out_ck cf) = true ->
  dump_error cf v m -> dump_error cf v m' -> m = m'.
Proof. exact (fun cf v m m' Hok => dump_error_one cf Hok v m m'). Qed.
Print Assumptions C53_dump_one.

(** what() and a recording handler show it behind a prefix, in full. *)
Theorem C53_dump_seen : forall cf v m, enc_ok (out_enc cf) (out_ck cf) = true -> dump_error cf v m ->
  exn_msg (ESer m) = ("value serialization error: " ++ m)%string /\
  snd (snd (dump_to cf HRecord (mkOs [] false) v)) = ("value serialization error: " ++ m)%string.
Proof. exact dump_what. Qed.
Print Assumptions C53_dump_seen.

Example C53_dump_case :
  dump8 (VObj [(text "a", VStr [195; 169]); (text "b", VArr [VStr [240; 159]; VStr [255]])]) = Throw (ESer "unexpected character '\u2103F'") /\
  dump16 (VArr [VStr [120; 239; 191; 191; 255]; VStr [255]]) = Throw (ESer "encoding failed with codepoint '\uFFFF'").
Proof. vm_compute. split; reflexivity. Qed.

(** The number named need not be a code point. *)
Theorem C53_codepoint_refuted : exists cf v m n, enc_ok (out_enc cf) (out_ck cf) = true /\ 1114111 < n /\
  m = with_number "unexpected character" n /\ dump_error cf v m.
Proof. exact number_refuted. Qed.
Print Assumptions C53_codepoint_refuted.

(** Every exception of get<T>() is one of those listed: a value inside v that
    does not fit a type inside T, with the names of both types, an array or
    object missing where one is read, or a missing REQUIRED member. *)
Theorem C53_conversion : forall e t v er, wf_ty t -> getable t -> ordered v -> get e t v = Throw er -> conversion_error t v er.
Proof. exact (fun e t v er W _ => get_error e t v er W). Qed.
Print Assumptions C53_conversion.

(** It is the first misfit of the value as C43 specifies.  Without maps there
    is exactly one exception; ... *)
Theorem C53_conversion_exact : forall e t v er, wf_ty t -> getable t -> ordered v -> ~ nan_in_set t v -> (forall h u, ~ part (TyMap h u) t) ->
  (get e t v = Throw er <-> exists y, breaks t v (dflt t) y er).
Proof. exact (fun e t v er W _ => get_exact e t v er W). Qed.
Print Assumptions C53_conversion_exact.

(** ... with maps, which of the two operands is evaluated first decides
    between at most two, one of them being that key() was used. *)
Theorem C53_conversion_two : forall t v x y er x' y' er', breaks t v x y er -> breaks t v x' y' er' ->
  er = er' \/ er = no_key \/ er' = no_key.
Proof. exact (fun t v x y er x' y' er' B B' => breaks_same t v x y er B x' y' er' B'). Qed.
Print Assumptions C53_conversion_two.

Theorem C53_conversion_seen : forall t v er, conversion_error t v er -> forall w, what_of er w -> exn_msg er = w.
Proof. exact conversion_what. Qed.
Print Assumptions C53_conversion_seen.

(** A vector and array_type complain differently. *)
Example C53_array_type_case :
  get plain_env (TySeq KVector (TyRaw false)) (VArr [VObj []]) = Throw (EType "cannot convert type 'object' to type 'array' (implicitly)") /\
  get plain_env (TySeq KVector (TySeq KVector TyBool)) (VArr [VObj [(text "x", VNull)]]) = Throw (EKey "operator[] called on a non-array type").
Proof. vm_compute. split; reflexivity. Qed.

(** Different pairs of types have different messages. *)
Theorem C53_types_named : forall v w a b, misfit v a = misfit w b -> type_of v = type_of w /\ a = b.
Proof. exact misfit_inj. Qed.
Print Assumptions C53_types_named.

(** std::map<std::string, std::vector<double>>, both evaluation orders *)
Example C53_conversion_case :
  let t := TyMap false (TySeq KVector TyDouble) in
  let two_first := mkEnv (fun l => l) (fun m => m) false in
  get plain_env t (VObj [(text "x", VArr [VFloat (S754_zero false); VInt 1])])
    = Throw (EType "cannot convert type 'integer' to type 'float' (implicitly)") /\
  get plain_env t (VArr [VBool true]) = Throw (EIter "cannot use key() with non-object type") /\
  get two_first t (VArr [VBool true]) = Throw (EKey "operator[] called on a non-array type") /\
  exn_msg (EType "cannot convert type 'integer' to type 'float' (implicitly)")
    = "value type error: cannot convert type 'integer' to type 'float' (implicitly)"%string.
Proof. vm_compute. repeat split; reflexivity. Qed.

(** The missing member is not named. *)
Theorem C53_member_refuted : exists t t' v, wf_ty t /\ wf_ty t' /\ ordered v /\
  (exists fs, t = TyStruct fs /\ In (text "a", true, TyBool) fs /\ absent (text "a") v) /\
  (exists fs, t' = TyStruct fs /\ In (text "b", true, TyBool) fs /\ absent (text "b") v) /\
  forall e, exists er, get e t v = Throw er /\ get e t' v = Throw er.
Proof. exact member_refuted. Qed.
Print Assumptions C53_member_refuted.

(** The texts of C31 and C40 are shown behind the prefix of their class, too. *)
Theorem C53_misuse_seen : forall er,
  (exists o v, misuse o v er) \/ (exists a v, bad_subscript a v er) \/ (exists v, out_of_range v er) ->
  forall w, what_of er w -> exn_msg er = w.
Proof. exact misuse_what. Qed.
Print Assumptions C53_misuse_seen.
Example C53_misuse_case :
  run_op (PushBack VNull) (VInt 3) = (VInt 3, Throw (EType "use push_back() or emplace_back() with non-array value")) /\
  exn_msg (EKey "operator[] called on a non-array type") = "invalid value key error: operator[] called on a non-array type"%string.
Proof. vm_compute. split; reflexivity. Qed.
