(** What converting between basic_value and C++ types should do. *)
From Coq Require Import Sorted Permutation Floats.SpecFloat.
From Verif Require Import Base Value ValueOps SpecGrammar SpecText SpecValue SpecIter SpecCompare Cpp Convert.
Open Scope N_scope.

(** ** C++ types and their values *)

(** element types of std::set and std::unordered_set considered.  The order
    of basic_value is not a strict weak order (C35), so it is not one of them. *)
Inductive ordered_ty : cty -> Prop :=
| ot_bool : ordered_ty TyBool
| ot_int w sg : ordered_ty (TyInt w sg)
| ot_double : ordered_ty TyDouble
| ot_float : ordered_ty TyFloat
| ot_string : ordered_ty TyString
| ot_array n t : ordered_ty t -> ordered_ty (TyArray n t)
| ot_seq k t : k <> KUSet -> ordered_ty t -> ordered_ty (TySeq k t).
Inductive hashed_ty : cty -> Prop :=
| ht_bool : hashed_ty TyBool
| ht_int w sg : hashed_ty (TyInt w sg)
| ht_string : hashed_ty TyString.

(** the types considered *)
Inductive wf_ty : cty -> Prop :=
| wt_bool : wf_ty TyBool
| wt_int w sg : In w [8; 16; 32; 64] -> wf_ty (TyInt w sg)
| wt_double : wf_ty TyDouble
| wt_float : wf_ty TyFloat
| wt_string : wf_ty TyString
| wt_json : wf_ty TyJson
| wt_raw raw : wf_ty (TyRaw raw)
| wt_ptr t : wf_ty t -> wf_ty (TyPtr t)
| wt_array n t : wf_ty t -> wf_ty (TyArray n t)
| wt_seq k t :
    wf_ty t -> (k = KSet -> ordered_ty t) -> (k = KUSet -> hashed_ty t) -> wf_ty (TySeq k t)
| wt_map h t : wf_ty t -> wf_ty (TyMap h t)
| wt_struct fs :
    NoDup (map (fun f => fst (fst f)) fs) -> Forall (fun f => wf_ty (snd f)) fs -> wf_ty (TyStruct fs).

(** The types that can be read.  basic_value itself is read, but pointers to it
    and containers of it are not, except array_type and object_type. *)
Inductive getable : cty -> Prop :=
| gt_bool : getable TyBool
| gt_int w sg : getable (TyInt w sg)
| gt_double : getable TyDouble
| gt_float : getable TyFloat
| gt_string : getable TyString
| gt_json : getable TyJson
| gt_raw raw : getable (TyRaw raw)
| gt_ptr t : t <> TyJson -> getable t -> getable (TyPtr t)
| gt_array n t : t <> TyJson -> getable t -> getable (TyArray n t)
| gt_seq k t : t <> TyJson -> getable t -> getable (TySeq k t)
| gt_map h t : t <> TyJson -> getable t -> getable (TyMap h t)
| gt_struct fs : Forall (fun f => getable (snd f)) fs -> getable (TyStruct fs).

(** x is a value of type t *)
Inductive typed : cty -> cval -> Prop :=
| ty_bool b : typed TyBool (CBool b)
| ty_int w sg z : int_range w sg z -> typed (TyInt w sg) (CInt z)
| ty_double f : typed TyDouble (CDbl f)
| ty_float f : valid_binary 24 128 f = true -> typed TyFloat (CFlt f)
| ty_string s : typed TyString (CStr s)
| ty_json v : ordered v -> typed TyJson (CJson v)
| ty_array_type l : ordered (VArr l) -> typed (TyRaw false) (CJson (VArr l))
| ty_object_type m : ordered (VObj m) -> typed (TyRaw true) (CJson (VObj m))
| ty_null t : typed (TyPtr t) (CPtr None)
| ty_ptr t x : typed t x -> typed (TyPtr t) (CPtr (Some x))
| ty_array n t l : length l = n -> Forall (typed t) l -> typed (TyArray n t) (CSeq l)
| ty_seq k t l :
    Forall (typed t) l ->
    (k = KSet \/ k = KUSet ->
       StronglySorted (fun x y => clt x y = true) l /\ Forall (fun x => ceqb x x = true) l) ->
    typed (TySeq k t) (CSeq l)
| ty_map h t m :
    Forall (fun p => typed t (snd p)) m ->
    StronglySorted (fun p q => str_ltb (fst p) (fst q) = true) m ->
    typed (TyMap h t) (CMap m)
| ty_struct fs l : Forall2 (fun f x => typed (snd f) x) fs l -> typed (TyStruct fs) (CRec l).

(** unordered containers are iterated over in some order *)
Definition fair (e : env) : Prop :=
  (forall l, Permutation (e_set e l) l) /\ (forall m, Permutation (e_map e m) m).

(** the map holding the first entry of each key *)
Definition map_of {A} (ms m : list (str * A)) : Prop :=
  sorted m /\ forall k v, assoc k v ms <-> assoc k v m.

(** ** The value a C++ object converts to *)

(** objects that convert to null *)
Inductive nullish : cty -> cval -> Prop :=
| nu_json : nullish TyJson (CJson VNull)
| nu_null t : nullish (TyPtr t) (CPtr None)
| nu_ptr t x : nullish t x -> nullish (TyPtr t) (CPtr (Some x))
| nu_struct fs l :
    Forall2 (fun f x => snd (fst f) = false /\ ceqb x (dflt (snd f)) = true) fs l ->
    nullish (TyStruct fs) (CRec l).

(** z, as an integer of the given width *)
Definition stored (w : N) (sg : bool) (z y : Z) : Prop :=
  int_range w sg y /\ exists k, z = (y + k * 2 ^ Z.of_N w)%Z.

Inductive image : cty -> cval -> value -> Prop :=
| im_bool b : image TyBool (CBool b) (VBool b)
| im_int w sg z y : stored 64 true z y -> image (TyInt w sg) (CInt z) (VInt y)
| im_double f : image TyDouble (CDbl f) (VFloat f)
| im_float f : image TyFloat (CFlt f) (VFloat (to_double f))
| im_string s : image TyString (CStr s) (VStr s)
| im_json v : image TyJson (CJson v) v
| im_array_type l : image (TyRaw false) (CJson (VArr l)) (VArr l)
| im_object_type m : image (TyRaw true) (CJson (VObj m)) (VObj m)
| im_null t : image (TyPtr t) (CPtr None) VNull
| im_ptr t x v : image t x v -> image (TyPtr t) (CPtr (Some x)) v
| im_array n t l vs : Forall2 (image t) l vs -> image (TyArray n t) (CSeq l) (VArr vs)
| im_seq k t l vs : k <> KUSet -> Forall2 (image t) l vs -> image (TySeq k t) (CSeq l) (VArr vs)
| im_hashed t l l' vs :
    Permutation l l' -> Forall2 (image t) l' vs -> image (TySeq KUSet t) (CSeq l) (VArr vs)
| im_map h t m o :
    Forall2 (fun p q => fst p = fst q /\ image t (snd p) (snd q)) m o ->
    image (TyMap h t) (CMap m) (VObj o)
| im_struct fs l ws v :
    members fs l ws ->
    (ws = [] -> v = VNull) -> (ws <> [] -> exists o, v = VObj o /\ map_of ws o) ->
    image (TyStruct fs) (CRec l) v
(** the members written for the fields: OPTIONAL ones only if they differ from
    the default *)
with members : list (str * bool * cty) -> list cval -> list (str * value) -> Prop :=
| me_nil : members [] [] []
| me_write n req t fs x l v ws :
    req = true \/ ceqb x (dflt t) = false -> image t x v -> members fs l ws ->
    members ((n, req, t) :: fs) (x :: l) ((n, v) :: ws)
| me_skip n t fs x l ws :
    ceqb x (dflt t) = true -> members fs l ws -> members ((n, false, t) :: fs) (x :: l) ws.

(** objects that can be told from their value: no pointer to something that
    converts to null, and no OPTIONAL field that equals its default without
    being it (a negative zero) *)
Inductive telling : cty -> cval -> Prop :=
| te_bool b : telling TyBool (CBool b)
| te_int w sg z : telling (TyInt w sg) (CInt z)
| te_double f : telling TyDouble (CDbl f)
| te_float f : telling TyFloat (CFlt f)
| te_string s : telling TyString (CStr s)
| te_json v : telling TyJson (CJson v)
| te_raw raw v : telling (TyRaw raw) (CJson v)
| te_null t : telling (TyPtr t) (CPtr None)
| te_ptr t x : telling t x -> ~ nullish t x -> telling (TyPtr t) (CPtr (Some x))
| te_array n t l : Forall (telling t) l -> telling (TyArray n t) (CSeq l)
| te_seq k t l : Forall (telling t) l -> telling (TySeq k t) (CSeq l)
| te_map h t m : Forall (fun p => telling t (snd p)) m -> telling (TyMap h t) (CMap m)
| te_struct fs l :
    Forall2 (fun f x => telling (snd f) x /\
                        (snd (fst f) = false -> ceqb x (dflt (snd f)) = true -> x = dflt (snd f))) fs l ->
    telling (TyStruct fs) (CRec l).

(** ** Reading a value into a C++ object *)

(** what a sequence is read from *)
Inductive seq_items : value -> list value -> Prop :=
| is_arr l : seq_items (VArr l) l
| is_null : seq_items VNull []
| is_obj0 : seq_items (VObj []) [].
Definition no_seq_items (v : value) : Prop := forall l, ~ seq_items v l.

(** the names of the types *)
Definition kind (t : vtype) : string :=
  match t with
  | TNull => "null" | TBoolean => "boolean" | TInteger => "integer" | TFloating => "float"
  | TString => "string" | TArray => "array" | TObject => "object"
  end.
(** v is not of the type wanted *)
Definition misfit (v : value) (want : vtype) : exn :=
  EType ("cannot convert type '" ++ kind (type_of v) ++ "' to type '" ++ kind want ++ "' (implicitly)").
Definition misref (v : value) : exn := EType ("incompatible reference type for get, actual type is " ++ kind (type_of v)).
Definition not_array : exn := EKey "operator[] called on a non-array type".
Definition not_object : exn := EKey "operator[] called on a non-object object".
Definition no_member : exn := EOutOfRange "operator[] key out of range".

(** [reads t v x y]: reading v into the object x of type t succeeds and leaves y.
    [breaks t v x y c]: it throws the exception c and leaves y. *)
Inductive reads : cty -> value -> cval -> cval -> Prop :=
| rd_bool b x : reads TyBool (VBool b) x (CBool b)
| rd_int w sg z x y : stored w sg z y -> reads (TyInt w sg) (VInt z) x (CInt y)
| rd_double f x : reads TyDouble (VFloat f) x (CDbl f)
| rd_float f x : reads TyFloat (VFloat f) x (CFlt (to_single f))
| rd_string s x : reads TyString (VStr s) x (CStr s)
| rd_json v x : reads TyJson v x (CJson v)
(* array_type and object_type: replaced *)
| rd_array_type l x : reads (TyRaw false) (VArr l) x (CJson (VArr l))
| rd_object_type m x : reads (TyRaw true) (VObj m) x (CJson (VObj m))
| rd_no_array x : reads (TyRaw false) VNull x (CJson (VArr []))
| rd_no_object x : reads (TyRaw true) VNull x (CJson (VObj []))
| rd_null t x : reads (TyPtr t) VNull x (CPtr None)
| rd_ptr t v x y : v <> VNull -> reads t v (dflt t) y -> reads (TyPtr t) v x (CPtr (Some y))
| rd_array n t v vs ys l :
    seq_items v vs -> Forall2 (fun v y => reads t v (dflt t) y) (firstn n vs) ys ->
    reads (TyArray n t) v (CSeq l) (CSeq (ys ++ skipn (length ys) l))
| rd_array0 t v l : reads (TyArray 0 t) v (CSeq l) (CSeq l)
| rd_seq k t v vs ys l :
    k <> KSet -> k <> KUSet -> seq_items v vs -> Forall2 (fun v y => reads t v (dflt t) y) vs ys ->
    reads (TySeq k t) v (CSeq l) (CSeq ys)
| rd_set k t v vs ys l :
    k = KSet \/ k = KUSet -> seq_items v vs -> Forall2 (fun v y => reads t v (dflt t) y) vs ys ->
    Forall (fun y => ceqb y y = true) ys ->
    reads (TySeq k t) v (CSeq l) (CSeq (fold_left (fun s y => set_insert y s) ys []))
| rd_map h t v o ps m m' :
    v = VObj o \/ (seq_items v [] /\ o = []) ->
    Forall2 (fun q p => fst p = fst q /\ reads t (snd q) (dflt t) (snd p)) o ps ->
    map_of (m ++ ps) m' ->
    reads (TyMap h t) v (CMap m) (CMap m')
| rd_struct fs v l l' : read_fields v fs l l' -> reads (TyStruct fs) v (CRec l) (CRec l')
with breaks : cty -> value -> cval -> cval -> exn -> Prop :=
| br_bool v x : type_of v <> TBoolean -> breaks TyBool v x x (misfit v TBoolean)
| br_int w sg v x : type_of v <> TInteger -> breaks (TyInt w sg) v x x (misfit v TInteger)
| br_double v x : type_of v <> TFloating -> breaks TyDouble v x x (misfit v TFloating)
| br_float v x : type_of v <> TFloating -> breaks TyFloat v x x (misfit v TFloating)
| br_string v x : type_of v <> TString -> breaks TyString v x x (misfit v TString)
| br_array_type v x : type_of v <> TArray -> v <> VNull -> breaks (TyRaw false) v x x (misfit v TArray)
| br_object_type v x : type_of v <> TObject -> v <> VNull -> breaks (TyRaw true) v x x (misfit v TObject)
| br_ptr t v x y c : v <> VNull -> breaks t v (dflt t) y c -> breaks (TyPtr t) v x x c
| br_array_kind n t v x : no_seq_items v -> n <> O -> breaks (TyArray n t) v x x not_array
| br_array n t v vs w rest ys l y c :
    seq_items v (vs ++ w :: rest) -> (length vs < n)%nat ->
    Forall2 (fun v y => reads t v (dflt t) y) vs ys -> breaks t w (dflt t) y c ->
    breaks (TyArray n t) v (CSeq l) (CSeq (ys ++ skipn (length ys) l)) c
(* vector and deque: resized first, then overwritten from the front *)
| br_vec_kind k t v l :
    k = KVector \/ k = KDeque -> no_seq_items v ->
    breaks (TySeq k t) v (CSeq l) (CSeq (resize (dflt t) (N.to_nat (v_size v)) l)) not_array
| br_vec k t v vs w rest ys l y c :
    k = KVector \/ k = KDeque -> seq_items v (vs ++ w :: rest) ->
    Forall2 (fun v y => reads t v (dflt t) y) vs ys -> breaks t w (dflt t) y c ->
    breaks (TySeq k t) v (CSeq l)
           (CSeq (ys ++ skipn (length ys) (resize (dflt t) (length (vs ++ w :: rest)) l))) c
(* the others: emptied first *)
| br_list_kind k t v l :
    k <> KVector -> k <> KDeque -> no_seq_items v -> breaks (TySeq k t) v (CSeq l) (CSeq []) not_array
| br_list t v vs w rest ys l y c :
    seq_items v (vs ++ w :: rest) ->
    Forall2 (fun v y => reads t v (dflt t) y) vs ys -> breaks t w (dflt t) y c ->
    breaks (TySeq KList t) v (CSeq l) (CSeq ys) c
| br_forward t v vs w rest ys l y c :
    seq_items v (vs ++ w :: rest) ->
    Forall2 (fun v y => reads t v (dflt t) y) rest ys -> breaks t w (dflt t) y c ->
    breaks (TySeq KForward t) v (CSeq l) (CSeq ys) c
| br_set k t v vs w rest ys l y c :
    k = KSet \/ k = KUSet -> seq_items v (vs ++ w :: rest) ->
    Forall2 (fun v y => reads t v (dflt t) y) vs ys -> Forall (fun y => ceqb y y = true) ys ->
    breaks t w (dflt t) y c ->
    breaks (TySeq k t) v (CSeq l) (CSeq (fold_left (fun s y => set_insert y s) ys [])) c
| br_map_kind h t v x :
    type_of v <> TObject -> ~ seq_items v [] -> breaks (TyMap h t) v x x no_key
(* the value may be read before the key is asked for *)
| br_map_first h t v es x w y c :
    type_of v <> TObject -> elements v ((None, w) :: es) -> breaks t w (dflt t) y c ->
    breaks (TyMap h t) v x x c
| br_map h t o k w rest ps m m' y c :
    Forall2 (fun q p => fst p = fst q /\ reads t (snd q) (dflt t) (snd p)) o ps ->
    breaks t w (dflt t) y c -> map_of (m ++ ps) m' ->
    breaks (TyMap h t) (VObj (o ++ (k, w) :: rest)) (CMap m) (CMap m') c
| br_struct fs v l l' c : break_fields v fs l l' c -> breaks (TyStruct fs) v (CRec l) (CRec l') c
(** the fields in order; a field whose value does not fit is left as the
    failed read leaves it, and the rest is read all the same *)
with read_fields : value -> list (str * bool * cty) -> list cval -> list cval -> Prop :=
| rf_nil v : read_fields v [] [] []
| rf_read n req t fs o w x y l l' :
    In (n, w) o -> reads t w x y -> read_fields (VObj o) fs l l' ->
    read_fields (VObj o) ((n, req, t) :: fs) (x :: l) (y :: l')
| rf_left n req t fs o w x y l l' c :
    In (n, w) o -> breaks t w x y c -> read_fields (VObj o) fs l l' ->
    read_fields (VObj o) ((n, req, t) :: fs) (x :: l) (y :: l')
| rf_absent n t fs v x l l' :
    (forall o w, v = VObj o -> ~ In (n, w) o) -> read_fields v fs l l' ->
    read_fields v ((n, false, t) :: fs) (x :: l) (x :: l')
with break_fields : value -> list (str * bool * cty) -> list cval -> list cval -> exn -> Prop :=
| bf_kind n t fs v x l :
    type_of v <> TObject -> break_fields v ((n, true, t) :: fs) (x :: l) (x :: l) not_object
| bf_missing n t fs o x l :
    (forall w, ~ In (n, w) o) -> break_fields (VObj o) ((n, true, t) :: fs) (x :: l) (x :: l) no_member
| bf_read n req t fs o w x y l l' c :
    In (n, w) o -> reads t w x y -> break_fields (VObj o) fs l l' c ->
    break_fields (VObj o) ((n, req, t) :: fs) (x :: l) (y :: l') c
| bf_left n req t fs o w x y l l' c c' :
    In (n, w) o -> breaks t w x y c' -> break_fields (VObj o) fs l l' c ->
    break_fields (VObj o) ((n, req, t) :: fs) (x :: l) (y :: l') c
| bf_absent n t fs v x l l' c :
    (forall o w, v = VObj o -> ~ In (n, w) o) -> break_fields v fs l l' c ->
    break_fields v ((n, false, t) :: fs) (x :: l) (x :: l') c.

(** types whose objects are written in one go or not at all *)
Inductive atomic : cty -> Prop :=
| at_bool : atomic TyBool
| at_int w sg : atomic (TyInt w sg)
| at_double : atomic TyDouble
| at_float : atomic TyFloat
| at_string : atomic TyString
| at_json : atomic TyJson
| at_raw raw : atomic (TyRaw raw)
| at_ptr t : atomic (TyPtr t).

(** [nan_in_set t v]: somewhere in v, a NaN stands where t has an element of
    a std::set.  Inserting it is undefined behaviour. *)
Inductive float_in : cty -> Prop :=
| fi_double : float_in TyDouble
| fi_float : float_in TyFloat
| fi_array n t : float_in t -> float_in (TyArray n t)
| fi_seq k t : float_in t -> float_in (TySeq k t).
Inductive nan_in_set : cty -> value -> Prop :=
| ns_here t v vs w :
    seq_items v vs -> In w vs -> float_in t -> ~ nan_free w -> nan_in_set (TySeq KSet t) v
| ns_seq k t v vs w : seq_items v vs -> In w vs -> nan_in_set t w -> nan_in_set (TySeq k t) v
| ns_array n t v vs w : seq_items v vs -> In w vs -> nan_in_set t w -> nan_in_set (TyArray n t) v
| ns_ptr t v : nan_in_set t v -> nan_in_set (TyPtr t) v
| ns_map h t v es k w : elements v es -> In (k, w) es -> nan_in_set t w -> nan_in_set (TyMap h t) v
| ns_struct fs o n req t w :
    In (n, req, t) fs -> In (n, w) o -> nan_in_set t w -> nan_in_set (TyStruct fs) (VObj o).

(** the stored type a scalar is read from *)
Inductive wants : cty -> vtype -> Prop :=
| wa_bool : wants TyBool TBoolean
| wa_int w sg : wants (TyInt w sg) TInteger
| wa_double : wants TyDouble TFloating
| wa_float : wants TyFloat TFloating
| wa_string : wants TyString TString.

(** v has no member n *)
Definition absent (n : str) (v : value) : Prop := forall o w, v = VObj o -> ~ In (n, w) o.
