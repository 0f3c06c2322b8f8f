(** Conversions between values and C++ types: C41, C42, C43, C44. *)
From Coq Require Import Permutation Floats.SpecFloat.
From Verif Require Import Base Value ValueOps SpecText SpecValue SpecIter SpecCompare Cpp Convert SpecConv
  ConvMain ConvThm SpecCpp CppFacts.
Open Scope N_scope.

(** unordered containers iterated over backwards *)
Definition ex_env : env := mkEnv (@rev cval) (@rev (str * cval)) true.
Definition int32 : cty := TyInt 32 true.

(** ** C41 *)

(** An integer of any integral type comes back as it was.  The stored value is
    the integer itself, except that unsigned 64-bit integers from 2^63 on are
    stored modulo 2^64. *)
Theorem C41_round_trip : forall e w sg z, In w [8; 16; 32; 64] -> int_range w sg z ->
  exists y, of_cpp e (TyInt w sg) (CInt z) = Ret (VInt y) /\ stored 64 true z y /\
            get e (TyInt w sg) (VInt y) = Ret (CInt z).
Proof. exact int_round. Qed.
Print Assumptions C41_round_trip.
Example C41_max : of_cpp ex_env (TyInt 64 false) (CInt 18446744073709551615) = Ret (VInt (-1)) /\
  get ex_env (TyInt 64 false) (VInt (-1)) = Ret (CInt 18446744073709551615).
Proof. vm_compute. split; reflexivity. Qed.

(** Reading into any integral type gives the integer of that type which is
    congruent modulo 2^width. *)
Theorem C41_narrower : forall e w sg z y, In w [8; 16; 32; 64] ->
  (get e (TyInt w sg) (VInt z) = Ret (CInt y) <-> stored w sg z y).
Proof. exact int_read. Qed.
Print Assumptions C41_narrower.
Example C41_wraps : get ex_env (TyInt 8 true) (VInt 200) = Ret (CInt (-56)) /\
  get ex_env (TyInt 16 false) (VInt (-1)) = Ret (CInt 65535).
Proof. vm_compute. split; reflexivity. Qed.

(** Booleans, integers, floats and strings are read only from values of their
    own kind; anything else is a type error. *)
Theorem C41_kinds : forall e t ty v, wants t ty ->
  (type_of v = ty -> exists y, get e t v = Ret y) /\
  (type_of v <> ty -> get e t v = Throw (misfit v ty)).
Proof. exact scalar_read. Qed.
Print Assumptions C41_kinds.
Example C41_bool_from_int : exists er, get ex_env TyBool (VInt 1) = Throw er.
Proof. eexists. vm_compute. reflexivity. Qed.

(** ** C42 *)

(** Converting an object of any of the types succeeds, whatever the iteration
    order of unordered containers, and gives the value specified. *)
Theorem C42_to_value : forall e t x, fair e -> wf_ty t -> typed t x ->
  exists v, of_cpp e t x = Ret v /\ image t x v.
Proof. exact to_value_image. Qed.
Print Assumptions C42_to_value.

(** Converting back also succeeds, and gives the same object if and only if
    it holds no pointer to something that converts to null and no OPTIONAL
    field equal to its default without being it. *)
Theorem C42_round_trip : forall e e' t x, fair e -> wf_ty t -> getable t -> typed t x ->
  exists v y, of_cpp e t x = Ret v /\ get e' t v = Ret y /\ (y = x <-> telling t x).
Proof. exact (fun e e' t x F W _ => round_trip e e' t x F W). Qed.
Print Assumptions C42_round_trip.

(** unordered_map<string, vector<unique_ptr<set<int>>>> *)
Definition ex_ty : cty := TyMap true (TySeq KVector (TyPtr (TySeq KSet int32))).
Definition ex_obj : cval :=
  CMap [(chars "a", CSeq [CPtr None; CPtr (Some (CSeq [CInt 1; CInt 5]))]); (chars "b", CSeq [])].
Definition ex_val : value :=
  VObj [(chars "a", VArr [VNull; VArr [VInt 1; VInt 5]]); (chars "b", VArr [])].
Example C42_nested : of_cpp ex_env ex_ty ex_obj = Ret ex_val /\ get ex_env ex_ty ex_val = Ret ex_obj.
Proof. vm_compute. split; reflexivity. Qed.
(** unordered_set<int>, forward_list<float>, array<string, 2> *)
Example C42_more :
  of_cpp ex_env (TySeq KUSet int32) (CSeq [CInt 1; CInt 2; CInt 3]) = Ret (VArr [VInt 3; VInt 2; VInt 1]) /\
  get ex_env (TySeq KUSet int32) (VArr [VInt 3; VInt 2; VInt 1]) = Ret (CSeq [CInt 1; CInt 2; CInt 3]) /\
  get ex_env (TySeq KForward TyBool) (VArr [VBool true; VBool false]) = Ret (CSeq [CBool true; CBool false]) /\
  get ex_env (TyArray 2 TyString) (VArr [VStr (chars "x")]) = Ret (CSeq [CStr (chars "x"); CStr []]).
Proof. vm_compute. repeat split; reflexivity. Qed.

(** Pointers not nested in pointers are not enough for a round trip: a
    pointer to a struct of which nothing is written comes back as a null pointer. *)
Theorem C42_pointer_refuted : exists t x y, wf_ty (TyPtr t) /\ getable (TyPtr t) /\ (forall u, t <> TyPtr u) /\ typed (TyPtr t) x /\ y <> x /\
  forall e, exists v, of_cpp e (TyPtr t) x = Ret v /\ get e (TyPtr t) v = Ret y.
Proof.
  exists (TyStruct [(chars "b", false, TyBool)]), (CPtr (Some (CRec [CBool false]))), (CPtr None).
  split; [repeat constructor; intros []|]. split; [constructor; [discriminate|repeat constructor]|]. split; [discriminate|]. split; [repeat constructor|].
  split; [discriminate|]. intro e. exists VNull. split; reflexivity.
Qed.
Print Assumptions C42_pointer_refuted.
(** An OPTIONAL field loses the sign of a zero. *)
Theorem C42_zero_refuted : exists t x y, wf_ty t /\ typed t x /\ y <> x /\
  forall e, exists v, of_cpp e t x = Ret v /\ get e t v = Ret y.
Proof.
  exists (TyStruct [(chars "f", false, TyDouble)]), (CRec [CDbl (S754_zero true)]), (CRec [CDbl (S754_zero false)]).
  split; [|split; [|split; [discriminate|]]].
  - constructor; [|repeat constructor]. constructor; [intros []|constructor].
  - repeat constructor.
  - intro e. exists VNull. split; reflexivity.
Qed.
Print Assumptions C42_zero_refuted.

(** A set is read as the elements in their order, of equivalent ones the first;
    < is that of C++. *)
Theorem C42_set : forall t ys s, ordered_ty t -> Forall (fun y => typed t y /\ ceqb y y = true) ys ->
  (s = fold_left (fun s y => set_insert y s) ys [] <-> set_of t ys s).
Proof. exact set_of_iff. Qed.
Print Assumptions C42_set.
Theorem C42_less : forall t x y, ordered_ty t -> typed t x -> typed t y -> (clt x y = true <-> earlier t x y).
Proof. intros t x y O. exact (earlier_iff t O x y). Qed.
Print Assumptions C42_less.

Example C42_set_case : forall e,
  get e (TySeq KSet TyDouble) (VArr [VFloat (f64_of_Z 2); VFloat (S754_zero true); VFloat (f64_of_Z 1); VFloat (S754_zero false)])
    = Ret (CSeq [CDbl (S754_zero true); CDbl (f64_of_Z 1); CDbl (f64_of_Z 2)]) /\
  get e (TySeq KSet (TySeq KVector int32)) (VArr [VArr [VInt 1; VInt 2]; VArr [VInt 1]; VArr []; VArr [VInt 0; VInt 9]])
    = Ret (CSeq [CSeq []; CSeq [CInt 0; CInt 9]; CSeq [CInt 1]; CSeq [CInt 1; CInt 2]]).
Proof. intro e. vm_compute. split; reflexivity. Qed.

(** ** C43 *)

(** get<T>() gives an object of T or throws. *)
Theorem C43_outcome : forall e t v, wf_ty t -> getable t -> ordered v -> ~ nan_in_set t v ->
  (exists y, get e t v = Ret y /\ typed t y) \/ (exists er, get e t v = Throw er).
Proof. exact (fun e t v W _ => get_outcome e t v W). Qed.
Print Assumptions C43_outcome.
(** The object is the one specified ... *)
Theorem C43_result : forall e t v, wf_ty t -> getable t -> ordered v -> ~ nan_in_set t v ->
  forall y, get e t v = Ret y <-> reads t v (dflt t) y.
Proof. exact (fun e t v W _ => get_reads e t v W). Qed.
Print Assumptions C43_result.
(** ... it throws on the values specified ... *)
Theorem C43_throws : forall e t v, wf_ty t -> getable t -> ordered v -> ~ nan_in_set t v ->
  (exists er, get e t v = Throw er) <-> (exists y c, breaks t v (dflt t) y c).
Proof. exact (fun e t v W _ => get_breaks e t v W). Qed.
Print Assumptions C43_throws.
(** ... the exception specified. *)
Theorem C43_class : forall e t v er, wf_ty t -> getable t -> ordered v -> get e t v = Throw er ->
  exists y, breaks t v (dflt t) y er.
Proof. exact (fun e t v er W _ => get_class e t v er W). Qed.
Print Assumptions C43_class.
(** No value is both readable and not. *)
Theorem C43_exclusive : forall t v x x' y y' c, reads t v x y -> breaks t v x' y' c -> False.
Proof. exact excl. Qed.
Print Assumptions C43_exclusive.
(** Sequences are not read from scalars or from objects with members ... *)
Theorem C43_sequence_kind : forall e k t v, getable (TySeq k t) -> no_seq_items v ->
  get e (TySeq k t) v = Throw not_array.
Proof. exact (fun e k t v _ => seq_kind e k t v). Qed.
Print Assumptions C43_sequence_kind.
(** ... and maps are read neither from scalars nor from arrays with elements. *)
Theorem C43_map_kind : forall e h t v, wf_ty t -> getable (TyMap h t) -> ordered v -> ~ nan_in_set (TyMap h t) v ->
  type_of v <> TObject -> ~ seq_items v [] -> exists er, get e (TyMap h t) v = Throw er.
Proof. exact (fun e h t v W _ => map_kind e h t v W). Qed.
Print Assumptions C43_map_kind.
Example C43_mismatch :
  get ex_env (TySeq KVector int32) (VArr [VInt 1; VStr (chars "x")]) = Throw (EType "cannot convert type 'string' to type 'integer' (implicitly)") /\
  get ex_env (TySeq KVector int32) (VInt 1) = Throw (EKey "operator[] called on a non-array type") /\
  get ex_env (TyMap false int32) (VArr [VInt 1]) = Throw (EIter "cannot use key() with non-object type") /\
  get ex_env (TySeq KVector int32) (VObj []) = Ret (CSeq []) /\
  get ex_env (TyMap false int32) (VArr []) = Ret (CMap []).
Proof. vm_compute. repeat split; reflexivity. Qed.

(** get(x) never throws ... *)
Theorem C43_into_outcome : forall e t v x, wf_ty t -> getable t -> ordered v -> typed t x -> ~ nan_in_set t v ->
  exists y b, get_into e t v x = (y, Ret b) /\ typed t y.
Proof. exact (fun e t v x W _ => into_outcome e t v x W). Qed.
Print Assumptions C43_into_outcome.
(** ... it is true when v can be read into x ... *)
Theorem C43_into_true : forall e t v x y, wf_ty t -> getable t -> ordered v -> typed t x -> ~ nan_in_set t v ->
  (get_into e t v x = (y, Ret true) <-> reads t v x y).
Proof. exact (fun e t v x y W _ => into_reads e t v x y W). Qed.
Print Assumptions C43_into_true.
(** ... and false when it cannot, with x as specified afterwards ... *)
Theorem C43_into_false : forall e t v x y, wf_ty t -> getable t -> ordered v -> typed t x -> ~ nan_in_set t v ->
  (get_into e t v x = (y, Ret false) <-> exists c, breaks t v x y c).
Proof. exact (fun e t v x y W _ => into_breaks e t v x y W). Qed.
Print Assumptions C43_into_false.
(** ... which is unchanged, for scalars, strings, values, pointers, array_type and
    object_type. *)
Theorem C43_unchanged : forall e t v x y, wf_ty t -> getable t -> ordered v -> typed t x -> ~ nan_in_set t v -> atomic t ->
  get_into e t v x = (y, Ret false) -> y = x.
Proof. exact (fun e t v x y W _ => into_unchanged e t v x y W). Qed.
Print Assumptions C43_unchanged.
(** Containers are left partly overwritten, and maps are merged into. *)
Example C43_overwritten :
  get_into ex_env (TySeq KVector int32) (VArr [VInt 7; VStr []]) (CSeq [CInt 1; CInt 2; CInt 3]) = (CSeq [CInt 7; CInt 2], Ret false) /\
  get_into ex_env (TySeq KForward int32) (VArr [VInt 7; VStr []; VInt 9]) (CSeq [CInt 1]) = (CSeq [CInt 9], Ret false) /\
  get_into ex_env (TyMap false int32) (VObj [(chars "a", VInt 2); (chars "b", VInt 3)]) (CMap [(chars "a", CInt 1)])
    = (CMap [(chars "a", CInt 1); (chars "b", CInt 3)], Ret true) /\
  get_into ex_env (TyPtr int32) (VStr []) (CPtr (Some (CInt 4))) = (CPtr (Some (CInt 4)), Ret false).
Proof. vm_compute. repeat split; reflexivity. Qed.

(** array_type is read only from null and arrays, object_type only from null
    and objects, and x is then replaced. *)
Theorem C43_array_type : forall e v x y,
  (get_into e (TyRaw false) v x = (y, Ret true) <-> (v = VNull /\ y = CJson (VArr [])) \/ (type_of v = TArray /\ y = CJson v)) /\
  (type_of v <> TArray -> v <> VNull -> get e (TyRaw false) v = Throw (misfit v TArray)).
Proof. exact array_type_read. Qed.
Print Assumptions C43_array_type.
Theorem C43_object_type : forall e v x y,
  (get_into e (TyRaw true) v x = (y, Ret true) <-> (v = VNull /\ y = CJson (VObj [])) \/ (type_of v = TObject /\ y = CJson v)) /\
  (type_of v <> TObject -> v <> VNull -> get e (TyRaw true) v = Throw (misfit v TObject)).
Proof. exact object_type_read. Qed.
Print Assumptions C43_object_type.
(** Other than vectors and maps: compare C43_mismatch and C43_overwritten. *)
Example C43_raw :
  get ex_env (TyRaw false) (VObj []) = Throw (EType "cannot convert type 'object' to type 'array' (implicitly)") /\
  get ex_env (TyRaw true) (VArr []) = Throw (EType "cannot convert type 'array' to type 'object' (implicitly)") /\
  get_into ex_env (TyRaw true) (VObj [(chars "b", VInt 3)]) (CJson (VObj [(chars "a", VInt 1)])) = (CJson (VObj [(chars "b", VInt 3)]), Ret true) /\
  get ex_env (TySeq KVector (TyRaw false)) (VArr [VNull; VArr [VInt 1]]) = Ret (CSeq [CJson (VArr []); CJson (VArr [VInt 1])]).
Proof. vm_compute. repeat split; reflexivity. Qed.

(** What the theorems exclude: a NaN read into a std::set is undefined
    behaviour. *)
Theorem C43_nan_set_refuted : exists t v, wf_ty t /\ ordered v /\ forall e, get e t v = UB.
Proof.
  exists (TySeq KSet TyDouble), (VArr [VFloat S754_nan]). split; [|split].
  - repeat constructor; discriminate.
  - constructor. intros x [<-|[]]. constructor.
  - intro e. vm_compute. reflexivity.
Qed.
Print Assumptions C43_nan_set_refuted.
(** Values without NaN are all right, for any type. *)
Theorem C43_nan_free : forall t v, nan_free v -> ~ nan_in_set t v.
Proof. exact nan_free_safe. Qed.
Print Assumptions C43_nan_free.

(** get_ptr and get<T&>() give what is stored, or null and a type error. *)
Theorem C43_reference : forall want v, want <> TNull ->
  (type_of v = want -> get_ptr want v = Some v /\ get_ref want v = Ret v) /\
  (type_of v <> want -> get_ptr want v = None /\ get_ref want v = Throw (misref v)).
Proof. exact ref_read. Qed.
Print Assumptions C43_reference.

(** ** C44 *)

(** Reading a bound struct throws if and only if a REQUIRED member is missing ... *)
Theorem C44_throws : forall e fs v, wf_ty (TyStruct fs) -> getable (TyStruct fs) -> ordered v -> ~ nan_in_set (TyStruct fs) v ->
  ((exists er, get e (TyStruct fs) v = Throw er) <-> exists n t, In (n, true, t) fs /\ absent n v).
Proof. exact (fun e fs v W _ => struct_throws e fs v W). Qed.
Print Assumptions C44_throws.
(** ... std::out_of_range if v is an object, and configor_invalid_key if not. *)
Theorem C44_class : forall e fs v er, wf_ty (TyStruct fs) -> getable (TyStruct fs) -> ordered v -> get e (TyStruct fs) v = Throw er ->
  (type_of v = TObject -> er = no_member) /\ (type_of v <> TObject -> er = not_object).
Proof. exact (fun e fs v er W _ => struct_class e fs v er W). Qed.
Print Assumptions C44_class.
(** Otherwise every field is either left, its member missing, or is what get(field)
    makes of it, whether that succeeds or not. *)
Theorem C44_fields : forall e fs v l y, wf_ty (TyStruct fs) -> getable (TyStruct fs) -> ordered v -> typed (TyStruct fs) (CRec l) -> ~ nan_in_set (TyStruct fs) v ->
  get_into e (TyStruct fs) v (CRec l) = (y, Ret true) -> exists l', y = CRec l' /\ length l' = length l /\
  forall i n req t a b, nth_error fs i = Some (n, req, t) -> nth_error l i = Some a -> nth_error l' i = Some b ->
    (absent n v -> b = a) /\
    (forall o w, v = VObj o -> In (n, w) o -> get_into e t w a = (b, Ret true) \/ get_into e t w a = (b, Ret false)).
Proof. exact (fun e fs v l y W _ => struct_field e fs v l y W). Qed.
Print Assumptions C44_fields.

(** Writing a bound struct leaves out exactly the OPTIONAL fields that equal a
    value-initialised one. *)
Theorem C44_written : forall e fs l v, fair e -> wf_ty (TyStruct fs) -> typed (TyStruct fs) (CRec l) ->
  of_cpp e (TyStruct fs) (CRec l) = Ret v ->
  forall i n req t x, nth_error fs i = Some (n, req, t) -> nth_error l i = Some x ->
  (absent n v <-> req = false /\ exists d, initial t d /\ equals x d).
Proof. exact written_iff. Qed.
Print Assumptions C44_written.
(** == is that of C++, and so is value-initialisation. *)
Theorem C44_equal : forall x y, ceqb x y = true <-> equals x y.
Proof. exact equals_iff. Qed.
Print Assumptions C44_equal.
Theorem C44_initial : forall t x, x = dflt t <-> initial t x.
Proof. intros t x. exact (iff_sym (initial_iff t x)). Qed.
Print Assumptions C44_initial.

Example C44_written_case : forall e,
  of_cpp e (TyStruct [(chars "p", false, TyPtr int32); (chars "q", false, TyPtr int32); (chars "a", false, TyArray 2 int32); (chars "z", false, TyDouble); (chars "m", false, TyMap false int32)])
    (CRec [CPtr None; CPtr (Some (CInt 0)); CSeq [CInt 0; CInt 0]; CDbl (S754_zero true); CMap [(chars "k", CInt 0)]])
  = Ret (VObj [(chars "m", VObj [(chars "k", VInt 0)]); (chars "q", VInt 0)]).
Proof. intro e. vm_compute. reflexivity. Qed.

(** struct { int id (REQUIRED); string name (OPTIONAL); struct { bool b (REQUIRED) } in (OPTIONAL) } *)
Definition ex_inner : cty := TyStruct [(chars "b", true, TyBool)].
Definition ex_struct : cty := TyStruct [(chars "id", true, int32); (chars "name", false, TyString); (chars "in", false, ex_inner)].
Example C44_round :
  of_cpp ex_env ex_struct (CRec [CInt 3; CStr []; CRec [CBool true]])
    = Ret (VObj [(chars "id", VInt 3); (chars "in", VObj [(chars "b", VBool true)])]) /\
  get ex_env ex_struct (VObj [(chars "id", VInt 3); (chars "in", VObj [(chars "b", VBool true)])])
    = Ret (CRec [CInt 3; CStr []; CRec [CBool true]]).
Proof. vm_compute. split; reflexivity. Qed.
Example C44_missing :
  get ex_env ex_struct (VObj [(chars "name", VStr [])]) = Throw (EOutOfRange "operator[] key out of range") /\
  get ex_env ex_struct (VArr []) = Throw (EKey "operator[] called on a non-object object").
Proof. vm_compute. split; reflexivity. Qed.
(** a REQUIRED field of the wrong type is silently left, and a REQUIRED field
    missing in a nested struct goes unnoticed *)
Example C44_silent :
  get_into ex_env ex_struct (VObj [(chars "id", VStr []); (chars "in", VObj []); (chars "name", VStr (chars "n"))])
    (CRec [CInt 3; CStr []; CRec [CBool true]]) = (CRec [CInt 3; CStr (chars "n"); CRec [CBool true]], Ret true).
Proof. vm_compute. reflexivity. Qed.
