(** Reading C++ objects from values when memory runs out: C62. *)
From Coq Require Import List.
From Verif Require Import Base Value ValueOps SpecText SpecValue Cpp Convert SpecConv ConvMem SpecConvMem ConvMemMain.
Import ListNotations.
Open Scope N_scope.
Notation text s := (chars s%string).

(** No refusals: as with enough memory. *)
Theorem C62_enough : forall e r t v x, wf_ty t -> getable t -> ordered v -> typed t x -> (forall p k, r p k = false) ->
  get_mem e r t v = get e t v /\ get_into_mem e r t v x = get_into e t v x.
Proof. exact (fun e r t v x W _ O T Q => conj (mem_enough e t v W O r Q) (mem_enough_into e t v W O r x T Q)). Qed.
Print Assumptions C62_enough.
Example C62_enough_case : get_mem (mkEnv (fun l => l) (fun m => m) true) (fun _ _ => false) (TySeq KVector TyString) (VArr [VStr (text "a"); VStr (text "b")])
  = Ret (CSeq [CStr (text "a"); CStr (text "b")]).
Proof. reflexivity. Qed.

(** get<T>(): the objects it can return. *)
Theorem C62_result : forall e t v y, wf_ty t -> getable t -> ordered v -> ~ nan_in_set t v ->
  (exists r, get_mem e r t v = Ret y) <-> may_read t v (dflt t) y.
Proof. exact (fun e t v y W _ O S => mem_result e t v W O S y). Qed.
Print Assumptions C62_result.
(* a REQUIRED string, then an int; no memory for the string *)
Example C62_result_case : get_mem (mkEnv (fun l => l) (fun m => m) false) (fun p _ => match p with [2; 3] => true | _ => false end)
    (TyStruct [(text "name", true, TyString); (text "no", true, TyInt 32 true)]) (VObj [(text "name", VStr (text "x")); (text "no", VInt 7)])
  = Ret (CRec [CStr []; CInt 7]).
Proof. reflexivity. Qed.

(** ... and when it can throw std::bad_alloc. *)
Theorem C62_alloc : forall e t v, wf_ty t -> getable t -> ordered v -> ~ nan_in_set t v ->
  (exists r, get_mem e r t v = Throw EAlloc) <-> (exists c, may_fail t v c).
Proof. exact (fun e t v W _ => mem_alloc e t v W). Qed.
Print Assumptions C62_alloc.
Example C62_alloc_case : get_mem (mkEnv (fun l => l) (fun m => m) true) (fun p k => match p, k with [2; 1], 3 => true | _, _ => false end)
    (TySeq KList (TyInt 32 true)) (VArr [VInt 1; VInt 2; VInt 3]) = Throw EAlloc.
Proof. reflexivity. Qed.
Example C62_alloc_never : ~ exists c, may_fail (TyInt 32 true) (VInt 7) c.
Proof. intros [c H]. inversion H as [? ? A|? ? ? ? M]; [inversion A|inversion M; subst]. match goal with T : type_of _ <> _ |- _ => apply T; reflexivity end. Qed.

(** Every other exception is the one thrown with enough memory. *)
Theorem C62_exception : forall e t v er, wf_ty t -> getable t -> ordered v -> ~ nan_in_set t v -> er <> EAlloc ->
  (exists r, get_mem e r t v = Throw er) <-> get e t v = Throw er.
Proof. exact (fun e t v er W _ O S => mem_exception e t v W O S er). Qed.
Print Assumptions C62_exception.
(* the message may not be had *)
Example C62_exception_case : let e := mkEnv (fun l => l) (fun m => m) true in let v := VArr [VInt 1; VStr (text "x")] in let t := TySeq KVector (TyInt 32 true) in
  get e t v = Throw (misfit (VStr (text "x")) TInteger) /\
  get_mem e (fun p _ => match p with [2; 1; 2] => true | _ => false end) t v = Throw EAlloc.
Proof. split; reflexivity. Qed.

(** get<T>() returns only if it does with enough memory, and for types without
    bound structs then the same object. *)
Theorem C62_returns : forall e r t v y, wf_ty t -> getable t -> ordered v -> ~ nan_in_set t v -> get_mem e r t v = Ret y -> exists y0, get e t v = Ret y0.
Proof. exact (fun e r t v y W _ O S => mem_returns e t v W O S r y). Qed.
Print Assumptions C62_returns.
Theorem C62_unbound : forall e r t v y, wf_ty t -> getable t -> ordered v -> ~ nan_in_set t v -> unbound t -> get_mem e r t v = Ret y -> get e t v = Ret y.
Proof. exact (fun e r t v y W _ O S U => mem_unbound e t v W O S U r y). Qed.
Print Assumptions C62_unbound.
(* refusals that are not met *)
Example C62_unbound_case : let e := mkEnv (fun l => l) (fun m => m) true in let t := TyMap false (TyPtr TyString) in
  let v := VObj [(text "a", VNull); (text "b", VStr (text "x"))] in
  unbound t /\ get_mem e (fun p k => match p, k with [2; 0], 4 => false | [2; 0], _ => true | _, _ => false end) t v = get e t v /\
  get e t v = Ret (CMap [(text "a", CPtr None); (text "b", CPtr (Some (CStr (text "x"))))]).
Proof. split; [repeat constructor|split; reflexivity]. Qed.

(** With bound structs it is another: a field for which there is no memory is
    left without a word, also a REQUIRED one. *)
Theorem C62_silent_refuted : ~ (forall e r t v y, wf_ty t -> getable t -> ordered v -> ~ nan_in_set t v -> get_mem e r t v = Ret y -> get e t v = Ret y).
Proof. exact mem_silent. Qed.
Print Assumptions C62_silent_refuted.

(** get<T>() never is undefined, and get(x) never throws. *)
Theorem C62_outcome : forall e r t v, wf_ty t -> getable t -> ordered v -> ~ nan_in_set t v ->
  ((exists y, get_mem e r t v = Ret y) \/ (exists er, get_mem e r t v = Throw er)) /\
  (forall x, typed t x -> exists y b, get_into_mem e r t v x = (y, Ret b)).
Proof. exact (fun e r t v W _ O S => conj (mem_defined e t v W O S r) (fun x T => mem_into_defined e t v W O S x T r)). Qed.
Print Assumptions C62_outcome.
Example C62_outcome_case : get_into_mem (mkEnv (fun l => l) (fun m => m) true) (fun _ _ => true) (TySeq KVector TyString) (VArr [VStr (text "a")]) (CSeq [])
  = (CSeq [], Ret false).
Proof. reflexivity. Qed.

(** get(x): the objects it can leave when it returns true, and false. *)
Theorem C62_into_true : forall e t v x y, wf_ty t -> getable t -> ordered v -> typed t x -> ~ nan_in_set t v ->
  (exists r, get_into_mem e r t v x = (y, Ret true)) <-> may_read t v x y.
Proof. exact (fun e t v x y W _ O T S => mem_into_true e t v W O S x T y). Qed.
Print Assumptions C62_into_true.
Theorem C62_into_false : forall e t v x y, wf_ty t -> getable t -> ordered v -> typed t x -> ~ nan_in_set t v ->
  (exists r, get_into_mem e r t v x = (y, Ret false)) <-> (exists c, may_stop t v x y c).
Proof. exact (fun e t v x y W _ O T S => mem_into_false e t v W O S x T y). Qed.
Print Assumptions C62_into_false.
(* the second string is not copied; a list is lost altogether *)
Example C62_into_case : let e := mkEnv (fun l => l) (fun m => m) true in let v := VArr [VStr (text "a"); VStr (text "b")] in let x := CSeq [CStr (text "p")] in
  let r := fun p (_ : N) => match p with [1; 2] => true | [0] => true | _ => false end in
  get_into_mem e r (TySeq KVector TyString) v x = (CSeq [CStr (text "a"); CStr []], Ret false) /\
  get_into_mem e r (TySeq KList TyString) v x = (CSeq [], Ret false).
Proof. split; reflexivity. Qed.

(** true is returned only where it is with enough memory; scalars, strings,
    values and pointers are then written in one go or not at all. *)
Theorem C62_into_enough : forall e r t v x y, wf_ty t -> getable t -> ordered v -> typed t x -> ~ nan_in_set t v ->
  get_into_mem e r t v x = (y, Ret true) -> exists y0, get_into e t v x = (y0, Ret true).
Proof. exact (fun e r t v x y W _ O T S => mem_into_true_enough e t v W O S x T r y). Qed.
Print Assumptions C62_into_enough.
Theorem C62_unchanged : forall e r t v x y, wf_ty t -> getable t -> ordered v -> typed t x -> ~ nan_in_set t v -> atomic t -> (forall raw, t <> TyRaw raw) ->
  get_into_mem e r t v x = (y, Ret false) -> y = x.
Proof. exact (fun e r t v x y W _ O T S A N => mem_unchanged e t v W O S x T A N r y). Qed.
Print Assumptions C62_unchanged.
Example C62_unchanged_case : let t := TyPtr (TySeq KVector TyString) in
  get_into_mem (mkEnv (fun l => l) (fun m => m) true) (fun p _ => match p with [2; 1; 2] => true | _ => false end) t
    (VArr [VStr (text "a"); VStr (text "b")]) (CPtr (Some (CSeq []))) = (CPtr (Some (CSeq [])), Ret false).
Proof. reflexivity. Qed.
(** Not so array_type and object_type: some elements may be replaced already. *)
Theorem C62_raw_refuted : forall raw, exists v x y, ordered v /\ typed (TyRaw raw) x /\ y <> x /\
  forall e, exists r, get_into_mem e r (TyRaw raw) v x = (y, Ret false).
Proof. exact mem_raw. Qed.
Print Assumptions C62_raw_refuted.
Example C62_raw_case : let e := mkEnv (fun l => l) (fun m => m) true in let r := fun p (_ : N) => match p with [1] => true | _ => false end in
  get_into_mem e r (TyRaw false) (VArr [VInt 1; VInt 2]) (CJson (VArr [VInt 7; VInt 8; VInt 9])) = (CJson (VArr [VInt 1; VInt 8; VInt 9]), Ret false) /\
  get_into_mem e r (TyRaw true) (VObj [(text "a", VInt 1); (text "b", VInt 2)]) (CJson (VObj [])) = (CJson (VObj [(text "a", VInt 1)]), Ret false).
Proof. split; reflexivity. Qed.
