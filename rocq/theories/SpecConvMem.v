(** What reading a value into a C++ object can come to when requests for memory
    may be refused. *)
From Verif Require Import Base Value Compare ValueOps SpecGrammar SpecText SpecValue SpecIter SpecCompare Cpp Convert SpecConv.

(** T{} of these may ask for memory *)
Inductive asks : cty -> Prop :=
| as_array n t : asks t -> asks (TyArray (S n) t)
| as_seq k t : k <> KVector -> k <> KForward -> asks (TySeq k t)
| as_map h t : asks (TyMap h t)
| as_object_type : asks (TyRaw true)
| as_struct fs n req t : In (n, req, t) fs -> asks t -> asks (TyStruct fs).

(** the exception, or std::bad_alloc for want of memory for its message *)
Definition thrown (er c : exn) : Prop := c = er \/ c = EAlloc.

(** [may_read t v x y]: reading v into the object x of type t may succeed and
    leave y.  [may_stop t v x y c]: it may throw c and leave y. *)
Inductive may_read : cty -> value -> cval -> cval -> Prop :=
| mr_bool b x : may_read TyBool (VBool b) x (CBool b)
| mr_int w sg z x y : stored w sg z y -> may_read (TyInt w sg) (VInt z) x (CInt y)
| mr_double f x : may_read TyDouble (VFloat f) x (CDbl f)
| mr_float f x : may_read TyFloat (VFloat f) x (CFlt (to_single f))
| mr_string s x : may_read TyString (VStr s) x (CStr s)
| mr_json v x : may_read TyJson v x (CJson v)
| mr_array_type l x : may_read (TyRaw false) (VArr l) x (CJson (VArr l))
| mr_object_type m x : may_read (TyRaw true) (VObj m) x (CJson (VObj m))
| mr_no_array x : may_read (TyRaw false) VNull x (CJson (VArr []))
| mr_no_object x : may_read (TyRaw true) VNull x (CJson (VObj []))
| mr_null t x : may_read (TyPtr t) VNull x (CPtr None)
| mr_ptr t v x y : v <> VNull -> may_read t v (dflt t) y -> may_read (TyPtr t) v x (CPtr (Some y))
| mr_array n t v vs ys l :
    seq_items v vs -> Forall2 (fun v y => may_read t v (dflt t) y) (firstn n vs) ys ->
    may_read (TyArray n t) v (CSeq l) (CSeq (ys ++ skipn (length ys) l))
| mr_array0 t v l : may_read (TyArray 0 t) v (CSeq l) (CSeq l)
| mr_seq k t v vs ys l :
    k <> KSet -> k <> KUSet -> seq_items v vs -> Forall2 (fun v y => may_read t v (dflt t) y) vs ys ->
    may_read (TySeq k t) v (CSeq l) (CSeq ys)
| mr_set k t v vs ys l :
    k = KSet \/ k = KUSet -> seq_items v vs -> Forall2 (fun v y => may_read t v (dflt t) y) vs ys ->
    Forall (fun y => ceqb y y = true) ys ->
    may_read (TySeq k t) v (CSeq l) (CSeq (fold_left (fun s y => set_insert y s) ys []))
| mr_map h t v o ps m m' :
    v = VObj o \/ (seq_items v [] /\ o = []) ->
    Forall2 (fun q p => fst p = fst q /\ may_read t (snd q) (dflt t) (snd p)) o ps ->
    map_of (m ++ ps) m' ->
    may_read (TyMap h t) v (CMap m) (CMap m')
| mr_struct fs v l l' : may_fields v fs l l' -> may_read (TyStruct fs) v (CRec l) (CRec l')
with may_stop : cty -> value -> cval -> cval -> exn -> Prop :=
| ms_bool v x c : type_of v <> TBoolean -> thrown (misfit v TBoolean) c -> may_stop TyBool v x x c
| ms_int w sg v x c : type_of v <> TInteger -> thrown (misfit v TInteger) c -> may_stop (TyInt w sg) v x x c
| ms_double v x c : type_of v <> TFloating -> thrown (misfit v TFloating) c -> may_stop TyDouble v x x c
| ms_float v x c : type_of v <> TFloating -> thrown (misfit v TFloating) c -> may_stop TyFloat v x x c
| ms_string v x c : type_of v <> TString -> thrown (misfit v TString) c -> may_stop TyString v x x c
| ms_copy_string s x : may_stop TyString (VStr s) x x EAlloc
| ms_copy v x : type_of v = TString \/ type_of v = TArray \/ type_of v = TObject -> may_stop TyJson v x x EAlloc
| ms_array_type v x c : type_of v <> TArray -> v <> VNull -> thrown (misfit v TArray) c -> may_stop (TyRaw false) v x x c
| ms_object_type v x c : type_of v <> TObject -> v <> VNull -> thrown (misfit v TObject) c -> may_stop (TyRaw true) v x x c
(* some of the old elements are replaced already *)
| ms_copy_array a w b l :
    may_stop (TyRaw false) (VArr (a ++ w :: b)) (CJson (VArr l)) (CJson (VArr (firstn (length l) a ++ skipn (length a) l))) EAlloc
| ms_copy_object a p b x : may_stop (TyRaw true) (VObj (a ++ p :: b)) x (CJson (VObj a)) EAlloc
| ms_ptr t v x c : v <> VNull -> may_fail t v c -> may_stop (TyPtr t) v x x c
| ms_new t v x y : v <> VNull -> may_read t v (dflt t) y -> may_stop (TyPtr t) v x x EAlloc
| ms_array_kind n t v x c : no_seq_items v -> n <> O -> thrown not_array c -> may_stop (TyArray n t) v x x c
| ms_array n t v vs w rest ys l c :
    seq_items v (vs ++ w :: rest) -> (length vs < n)%nat ->
    Forall2 (fun v y => may_read t v (dflt t) y) vs ys -> may_fail t w c ->
    may_stop (TyArray n t) v (CSeq l) (CSeq (ys ++ skipn (length ys) l)) c
(* vector and deque: resized first, then overwritten from the front *)
| ms_resize k t v l :
    k = KVector \/ k = KDeque -> N.of_nat (length l) < v_size v -> may_stop (TySeq k t) v (CSeq l) (CSeq l) EAlloc
| ms_vec_kind k t v l c :
    k = KVector \/ k = KDeque -> no_seq_items v -> thrown not_array c ->
    may_stop (TySeq k t) v (CSeq l) (CSeq (resize (dflt t) (N.to_nat (v_size v)) l)) c
| ms_vec k t v vs w rest ys l c :
    k = KVector \/ k = KDeque -> seq_items v (vs ++ w :: rest) ->
    Forall2 (fun v y => may_read t v (dflt t) y) vs ys -> may_fail t w c ->
    may_stop (TySeq k t) v (CSeq l)
             (CSeq (ys ++ skipn (length ys) (resize (dflt t) (length (vs ++ w :: rest)) l))) c
(* the others: emptied first, and every element needs a node *)
| ms_list_kind k t v l c :
    k <> KVector -> k <> KDeque -> no_seq_items v -> thrown not_array c -> may_stop (TySeq k t) v (CSeq l) (CSeq []) c
| ms_list t v vs w rest ys l c :
    seq_items v (vs ++ w :: rest) ->
    Forall2 (fun v y => may_read t v (dflt t) y) vs ys -> may_fail_node t w c ->
    may_stop (TySeq KList t) v (CSeq l) (CSeq ys) c
| ms_forward t v vs w rest ys l c :
    seq_items v (vs ++ w :: rest) ->
    Forall2 (fun v y => may_read t v (dflt t) y) rest ys -> may_fail_node t w c ->
    may_stop (TySeq KForward t) v (CSeq l) (CSeq ys) c
| ms_set k t v vs w rest ys l c :
    k = KSet \/ k = KUSet -> seq_items v (vs ++ w :: rest) ->
    Forall2 (fun v y => may_read t v (dflt t) y) vs ys -> Forall (fun y => ceqb y y = true) ys ->
    may_fail t w c ->
    may_stop (TySeq k t) v (CSeq l) (CSeq (fold_left (fun s y => set_insert y s) ys [])) c
| ms_set_node k t v vs w rest ys y l :
    k = KSet \/ k = KUSet -> seq_items v (vs ++ w :: rest) ->
    Forall2 (fun v y => may_read t v (dflt t) y) vs ys -> Forall (fun y => ceqb y y = true) ys ->
    may_read t w (dflt t) y -> ceqb y y = true ->
    may_stop (TySeq k t) v (CSeq l) (CSeq (fold_left (fun s y => set_insert y s) ys [])) EAlloc
| ms_map_kind h t v x c :
    type_of v <> TObject -> ~ seq_items v [] -> thrown no_key c -> may_stop (TyMap h t) v x x c
(* the value may be read before the key is asked for *)
| ms_map_first h t v es x w c :
    type_of v <> TObject -> elements v ((None, w) :: es) -> may_fail t w c ->
    may_stop (TyMap h t) v x x c
| ms_map h t o k w rest ps m m' c :
    Forall2 (fun q p => fst p = fst q /\ may_read t (snd q) (dflt t) (snd p)) o ps ->
    may_fail_node t w c -> map_of (m ++ ps) m' ->
    may_stop (TyMap h t) (VObj (o ++ (k, w) :: rest)) (CMap m) (CMap m') c
| ms_struct fs v l l' c : may_fields_stop v fs l l' c -> may_stop (TyStruct fs) v (CRec l) (CRec l') c
(** get<T>() *)
with may_fail : cty -> value -> exn -> Prop :=
| mf_init t v : asks t -> may_fail t v EAlloc
| mf_read t v y c : may_stop t v (dflt t) y c -> may_fail t v c
with may_fail_node : cty -> value -> exn -> Prop :=
| mn_get t v c : may_fail t v c -> may_fail_node t v c
| mn_node t v y : may_read t v (dflt t) y -> may_fail_node t v EAlloc
(** the fields in order; a field whose value does not fit, or for which there
    is no memory, is left as the failed read leaves it, and the rest is read all
    the same *)
with may_fields : value -> list (str * bool * cty) -> list cval -> list cval -> Prop :=
| ml_nil v : may_fields v [] [] []
| ml_read n req t fs o w x y l l' :
    In (n, w) o -> may_read t w x y -> may_fields (VObj o) fs l l' ->
    may_fields (VObj o) ((n, req, t) :: fs) (x :: l) (y :: l')
| ml_left n req t fs o w x y l l' c :
    In (n, w) o -> may_stop t w x y c -> may_fields (VObj o) fs l l' ->
    may_fields (VObj o) ((n, req, t) :: fs) (x :: l) (y :: l')
| ml_absent n t fs v x l l' :
    (forall o w, v = VObj o -> ~ In (n, w) o) -> may_fields v fs l l' ->
    may_fields v ((n, false, t) :: fs) (x :: l) (x :: l')
with may_fields_stop : value -> list (str * bool * cty) -> list cval -> list cval -> exn -> Prop :=
(* no memory for the name *)
| mt_name n req t fs v x l : may_fields_stop v ((n, req, t) :: fs) (x :: l) (x :: l) EAlloc
| mt_kind n t fs v x l :
    type_of v <> TObject -> may_fields_stop v ((n, true, t) :: fs) (x :: l) (x :: l) not_object
| mt_missing n t fs o x l :
    (forall w, ~ In (n, w) o) -> may_fields_stop (VObj o) ((n, true, t) :: fs) (x :: l) (x :: l) no_member
| mt_read n req t fs o w x y l l' c :
    In (n, w) o -> may_read t w x y -> may_fields_stop (VObj o) fs l l' c ->
    may_fields_stop (VObj o) ((n, req, t) :: fs) (x :: l) (y :: l') c
| mt_left n req t fs o w x y l l' c c' :
    In (n, w) o -> may_stop t w x y c' -> may_fields_stop (VObj o) fs l l' c ->
    may_fields_stop (VObj o) ((n, req, t) :: fs) (x :: l) (y :: l') c
| mt_absent n t fs v x l l' c :
    (forall o w, v = VObj o -> ~ In (n, w) o) -> may_fields_stop v fs l l' c ->
    may_fields_stop v ((n, false, t) :: fs) (x :: l) (x :: l') c.

(** types without bound structs inside *)
Inductive unbound : cty -> Prop :=
| ub_bool : unbound TyBool
| ub_int w sg : unbound (TyInt w sg)
| ub_double : unbound TyDouble
| ub_float : unbound TyFloat
| ub_string : unbound TyString
| ub_json : unbound TyJson
| ub_raw raw : unbound (TyRaw raw)
| ub_ptr t : unbound t -> unbound (TyPtr t)
| ub_array n t : unbound t -> unbound (TyArray n t)
| ub_seq k t : unbound t -> unbound (TySeq k t)
| ub_map h t : unbound t -> unbound (TyMap h t).
