(** C65: classes with hand-written conversions, and containers, pointers and
    bound structs of them. *)
From Coq Require Import Permutation.
From Verif Require Import Base Value Compare ValueOps Iterator SpecGrammar SpecText SpecValue SpecIter Cpp Convert SpecConv ConvUser
  SpecConvUser ConvUserProofs ConvUserMore.
Open Scope N_scope.
Notation text s := (chars s%string).

(** A class of points, written as [x, y].  from_value throws unless there are
    two coordinates; to_value throws if x is negative. *)
Definition bad_point : exn := EOutOfRange "bad point".
Definition point_to (x : cval) (c : value) : res unit :=
  match x with
  | CRec [CInt a; CInt b] => if (a <? 0)%Z then (c, Throw bad_point) else (VArr [VInt a; VInt b], Ret tt)
  | _ => (c, UB)
  end.
Definition point_from (v : value) (x : cval) : cval * outcome unit :=
  match v, x with
  | VArr [VInt a; VInt b], _ => (CRec [CInt a; CInt b], Ret tt)
  | VArr [VInt a], CRec [_; b] => (CRec [CInt a; b], Throw bad_point)    (* x is already set *)
  | _, _ => (x, Throw bad_point)
  end.
Definition pt (a b : Z) : cval := CRec [CInt a; CInt b].
Definition point : conv :=
  user (mkClass point_to (Fills point_from) (pt 0 0)
                (fun x => match x with CRec [CInt 0%Z; CInt 0%Z] => false | _ => true end)).
Definition no_diff (x : cval) : bool := true.
Definition ex_e : env := mkEnv (@rev cval) (@rev (str * cval)) true.

(** The calls made for the elements of a list are determined. *)
Theorem C65_runs : forall A B (f : A -> outcome B) l,
  (exists bs rest o, runs f l bs rest o) /\
  (forall bs rest o bs' rest' o', runs f l bs rest o -> runs f l bs' rest' o' -> bs = bs' /\ rest = rest' /\ o = o').
Proof. exact (fun A B f l => conj (runs_total A B f l) (fun bs rest o bs' rest' o' => runs_unique A B f l bs rest o bs' rest' o')). Qed.
Print Assumptions C65_runs.

(** ** Writing *)

(** vector, deque, list, forward_list: the elements are converted in order;
    the first conversion that does not return ends it with its own exception. *)
Theorem C65_write_sequence : forall rf k t d l c vs rest o, runs (make t) l vs rest o ->
  to_ (seq_conv rf k t d) (CSeq l) c = (VArr (vs ++ hole rf rest), o).
Proof. exact writes_seq. Qed.
Print Assumptions C65_write_sequence.
Theorem C65_write_array : forall rf n t d l c vs rest o, runs (make t) l vs rest o ->
  to_ (array_conv rf n t d) (CSeq l) c = (VArr (vs ++ hole rf rest), o).
Proof. exact writes_array. Qed.
Print Assumptions C65_write_array.
Example C65_vector_written :
  make (seq_conv true KVector point no_diff) (CSeq [pt 1 2; pt 3 4]) = Ret (VArr [VArr [VInt 1; VInt 2]; VArr [VInt 3; VInt 4]]) /\
  to_ (seq_conv true KVector point no_diff) (CSeq [pt 1 2; pt (-3) 4; pt 5 6]) VNull = (VArr [VArr [VInt 1; VInt 2]; VNull], Throw bad_point) /\
  to_ (seq_conv false KVector point no_diff) (CSeq [pt 1 2; pt (-3) 4; pt 5 6]) VNull = (VArr [VArr [VInt 1; VInt 2]], Throw bad_point).
Proof. vm_compute. repeat split. Qed.

(** map and unordered_map: in the order of iteration *)
Theorem C65_write_map : forall e rf h t d m c ps rest o, fair e -> sorted m ->
  runs (named (make t)) (iterated e h m) ps rest o ->
  exists w, to_ (map_conv e rf h t d) (CMap m) c = (VObj w, o) /\ map_of (ps ++ named_hole rf rest) w.
Proof. exact writes_map. Qed.
Print Assumptions C65_write_map.
Example C65_map_written :
  to_ (map_conv ex_e true false point no_diff) (CMap [(text "a", pt 1 2); (text "b", pt (-3) 4); (text "c", pt 5 6)]) VNull
    = (VObj [(text "a", VArr [VInt 1; VInt 2]); (text "b", VNull)], Throw bad_point) /\
  to_ (map_conv ex_e true true point no_diff) (CMap [(text "a", pt 1 2); (text "b", pt (-3) 4); (text "c", pt 5 6)]) VNull
    = (VObj [(text "b", VNull); (text "c", VArr [VInt 5; VInt 6])], Throw bad_point).
Proof. vm_compute. split; reflexivity. Qed.

(** CONFIGOR_BIND: in the order of the fields; OPTIONAL ones that equal T{}
    are passed over, and if nothing is written the value stays null *)
Theorem C65_write_struct : forall rf fs d l ws ps rest o, NoDup (map (fun f => fst (fst f)) fs) -> wanted fs l ws ->
  runs (named made) ws ps rest o ->
  exists v, to_ (struct_conv rf fs d) (CRec l) VNull = (v, o) /\
    (ps ++ named_hole rf rest = [] -> v = VNull) /\
    (ps ++ named_hole rf rest <> [] -> exists w, v = VObj w /\ map_of (ps ++ named_hole rf rest) w).
Proof. exact writes_struct. Qed.
Print Assumptions C65_write_struct.
Definition segment : conv := struct_conv true [(text "from", true, point); (text "to", false, point)] no_diff.
Example C65_struct_written :
  make segment (CRec [pt 1 2; pt 0 0]) = Ret (VObj [(text "from", VArr [VInt 1; VInt 2])]) /\
  to_ segment (CRec [pt 1 2; pt (-1) 0]) VNull = (VObj [(text "from", VArr [VInt 1; VInt 2]); (text "to", VNull)], Throw bad_point).
Proof. vm_compute. split; reflexivity. Qed.

(** unique_ptr and shared_ptr: the value assigned to keeps what it had if the
    conversion does not return *)
Theorem C65_write_pointer : forall t c,
  to_ (ptr_conv t) (CPtr None) c = (VNull, Ret tt) /\
  (forall x v, make t x = Ret v -> to_ (ptr_conv t) (CPtr (Some x)) c = (v, Ret tt)) /\
  (forall x o, ends (make t x) o -> to_ (ptr_conv t) (CPtr (Some x)) c = (c, o)).
Proof. exact (fun t c => conj (writes_ptr t c) (conj (fun x v => writes_ptr_some t x c v) (fun x o => writes_ptr_end t x c o))). Qed.
Print Assumptions C65_write_pointer.
Example C65_pointer_written :
  to_ (ptr_conv point) (CPtr (Some (pt 1 2))) (VInt 5) = (VArr [VInt 1; VInt 2], Ret tt) /\
  to_ (ptr_conv point) (CPtr (Some (pt (-1) 2))) (VInt 5) = (VInt 5, Throw bad_point).
Proof. vm_compute. split; reflexivity. Qed.

(** ** Reading *)

(** vector and deque: resized first; the elements up to the one whose
    conversion does not return are replaced *)
Theorem C65_read_vector : forall rf k t d v vs l ys rest o, k = KVector \/ k = KDeque -> seq_items v vs -> runs (get_ t) vs ys rest o ->
  into_ (seq_conv rf k t d) v (CSeq l) = (CSeq (ys ++ skipn (length ys) (resize (zero t) (length vs) l)), o).
Proof. exact reads_vec. Qed.
Print Assumptions C65_read_vector.
Example C65_vector_read :
  into_ (seq_conv true KVector point no_diff) (VArr [VArr [VInt 1; VInt 2]; VArr [VInt 3]; VNull]) (CSeq [pt 7 8; pt 9 10])
    = (CSeq [pt 1 2; pt 9 10; pt 0 0], Throw bad_point).
Proof. vm_compute. reflexivity. Qed.
Theorem C65_read_list : forall rf t d v vs l ys rest o, seq_items v vs -> runs (get_ t) vs ys rest o ->
  into_ (seq_conv rf KList t d) v (CSeq l) = (CSeq ys, o).
Proof. exact reads_list. Qed.
Print Assumptions C65_read_list.
(** forward_list: from the last element on *)
Theorem C65_read_forward_list : forall rf t d v vs l ys rest o, seq_items v vs -> runs (get_ t) (rev vs) ys rest o ->
  into_ (seq_conv rf KForward t d) v (CSeq l) = (CSeq (rev ys), o).
Proof. exact reads_forward. Qed.
Print Assumptions C65_read_forward_list.
Example C65_lists_read :
  into_ (seq_conv true KList point no_diff) (VArr [VArr [VInt 1; VInt 2]; VArr [VInt 3]; VNull]) (CSeq [pt 7 8]) = (CSeq [pt 1 2], Throw bad_point) /\
  into_ (seq_conv true KForward point no_diff) (VArr [VNull; VArr [VInt 1; VInt 2]; VArr [VInt 3; VInt 4]]) (CSeq [pt 7 8])
    = (CSeq [pt 1 2; pt 3 4], Throw bad_point).
Proof. vm_compute. split; reflexivity. Qed.
(** scalars and objects with members: no conversion is called *)
Theorem C65_read_sequence_kind : forall rf k t d v l, k <> KSet -> k <> KUSet -> no_seq_items v ->
  into_ (seq_conv rf k t d) v (CSeq l) =
  (CSeq (match k with KVector | KDeque => resize (zero t) (N.to_nat (v_size v)) l | _ => [] end), Throw not_array).
Proof. exact reads_seq_kind. Qed.
Print Assumptions C65_read_sequence_kind.
Example C65_sequence_kind : into_ (seq_conv true KList point no_diff) (VInt 5) (CSeq [pt 7 8]) = (CSeq [], Throw not_array).
Proof. vm_compute. reflexivity. Qed.
(** std::array and C arrays: as many elements as there are on both sides *)
Theorem C65_read_array : forall rf n t d v vs l ys rest o, seq_items v vs -> length l = n -> runs (get_ t) (firstn n vs) ys rest o ->
  into_ (array_conv rf n t d) v (CSeq l) = (CSeq (ys ++ skipn (length ys) l), o).
Proof. exact reads_array. Qed.
Print Assumptions C65_read_array.
Theorem C65_read_array_kind : forall rf n t d v l, no_seq_items v -> n <> O -> into_ (array_conv rf n t d) v (CSeq l) = (CSeq l, Throw not_array).
Proof. exact reads_array_kind. Qed.
Print Assumptions C65_read_array_kind.
Example C65_array_read :
  into_ (array_conv true 2 point no_diff) (VArr [VArr [VInt 1; VInt 2]; VArr [VInt 3; VInt 4]; VNull]) (CSeq [pt 7 8; pt 9 10])
    = (CSeq [pt 1 2; pt 3 4], Ret tt).
Proof. vm_compute. reflexivity. Qed.
(** map and unordered_map: the members up to the one whose conversion does not
    return are added, unless their keys are there already *)
Theorem C65_read_map : forall e rf h t d o m ps rest r, ordered (VObj o) -> sorted m -> runs (named (get_ t)) o ps rest r ->
  exists m', into_ (map_conv e rf h t d) (VObj o) (CMap m) = (CMap m', r) /\ map_of (m ++ ps) m'.
Proof. exact reads_map. Qed.
Print Assumptions C65_read_map.
Theorem C65_read_map_none : forall e rf h t d v m, seq_items v [] -> into_ (map_conv e rf h t d) v (CMap m) = (CMap m, Ret tt).
Proof. exact reads_map_none. Qed.
Print Assumptions C65_read_map_none.
(** anything else: asking for the key throws, unless the element is converted
    first and does not return *)
Theorem C65_read_map_kind : forall e rf h t d v m, ordered v -> type_of v <> TObject -> ~ seq_items v [] ->
  exists w es, elements v ((None, w) :: es) /\
    (into_ (map_conv e rf h t d) v (CMap m) = (CMap m, Throw no_key) \/
     (exists o, e_key1 e = false /\ ends (get_ t w) o /\ into_ (map_conv e rf h t d) v (CMap m) = (CMap m, o))).
Proof. exact reads_map_kind. Qed.
Print Assumptions C65_read_map_kind.
Example C65_map_read :
  into_ (map_conv ex_e true false point no_diff) (VObj [(text "a", VArr [VInt 1; VInt 2]); (text "b", VNull)]) (CMap [(text "a", pt 7 8)])
    = (CMap [(text "a", pt 7 8)], Throw bad_point) /\
  into_ (map_conv ex_e true false point no_diff) (VArr [VNull]) (CMap []) = (CMap [], Throw no_key) /\
  into_ (map_conv (mkEnv (fun l => l) (fun m => m) false) true false point no_diff) (VArr [VNull]) (CMap []) = (CMap [], Throw bad_point).
Proof. vm_compute. repeat split. Qed.
Theorem C65_read_pointer : forall t x,
  into_ (ptr_conv t) VNull x = (CPtr None, Ret tt) /\
  (forall v y, v <> VNull -> get_ t v = Ret y -> into_ (ptr_conv t) v x = (CPtr (Some y), Ret tt)) /\
  (forall v o, v <> VNull -> ends (get_ t v) o -> into_ (ptr_conv t) v x = (x, o)).
Proof. exact (fun t x => conj (reads_ptr_none t x) (conj (fun v y => reads_ptr t v x y) (fun v o => reads_ptr_end t v x o))). Qed.
Print Assumptions C65_read_pointer.
(** CONFIGOR_BIND: an exception thrown by a field's from_value is swallowed and
    the remaining fields are read all the same *)
Theorem C65_read_struct : forall rf fs d v l, ordered v -> length l = length fs -> forall l' o,
  into_ (struct_conv rf fs d) v (CRec l) = (CRec l', o) <-> fills v fs l l' o.
Proof. exact reads_struct. Qed.
Print Assumptions C65_read_struct.
(** the half-read point is kept *)
Example C65_struct_read :
  into_ segment (VObj [(text "from", VArr [VInt 5]); (text "to", VArr [VInt 1; VInt 2])]) (CRec [pt 7 8; pt 0 0])
    = (CRec [pt 5 8; pt 1 2], Ret tt) /\
  into_ segment (VObj [(text "to", VArr [VInt 1; VInt 2])]) (CRec [pt 7 8; pt 0 0]) = (CRec [pt 7 8; pt 0 0], Throw no_member).
Proof. vm_compute. split; reflexivity. Qed.
(** A class with T from_value(c) only: get(x) sets x or leaves it as it was. *)
Theorem C65_made_whole : forall u g v x, u_from u = Makes g ->
  (forall y, g v = Ret y -> into_ (user u) v x = (y, Ret tt)) /\ (forall o, ends (g v) o -> into_ (user u) v x = (x, o)).
Proof. exact made_whole. Qed.
Print Assumptions C65_made_whole.
Definition made_point : conv := user (mkClass point_to (Makes (fun v => fresh (point_from v (pt 0 0)))) (pt 0 0) no_diff).
Example C65_made_read :
  into_ made_point (VArr [VInt 5]) (pt 7 8) = (pt 7 8, Throw bad_point) /\ into_ point (VArr [VInt 5]) (pt 7 8) = (pt 5 8, Throw bad_point).
Proof. vm_compute. split; reflexivity. Qed.
(** get<T>() of a vector, deque or list throws what the first element that
    cannot be read throws *)
Theorem C65_first_exception : forall rf k t d v vs er, k = KVector \/ k = KDeque \/ k = KList -> seq_items v vs ->
  (get_ (seq_conv rf k t d) v = Throw er <->
   exists vs1 w vs2, vs = vs1 ++ w :: vs2 /\ (forall u, In u vs1 -> exists y, get_ t u = Ret y) /\ get_ t w = Throw er).
Proof. exact seq_throws. Qed.
Print Assumptions C65_first_exception.
Example C65_first : get_ (seq_conv true KDeque point no_diff) (VArr [VArr [VInt 1; VInt 2]; VNull]) = Throw bad_point.
Proof. vm_compute. reflexivity. Qed.

(** ** Nothing but exceptions *)

(** A class whose functions return or throw ... *)
Theorem C65_class : forall (E : exn -> Prop) (P : cval -> Prop) u, P (u_zero u) ->
  (forall x, P x -> exists v o, u_to u x VNull = (v, o) /\ fine E o /\ (o = Ret tt -> ordered v)) ->
  (match u_from u with
   | Fills f => forall v x, ordered v -> P x -> exists y o, f v x = (y, o) /\ P y /\ fine E o
   | Makes g => forall v, ordered v -> (exists x, g v = Ret x /\ P x) \/ (exists er, g v = Throw er /\ E er)
   | Both f g => (forall v x, ordered v -> P x -> exists y o, f v x = (y, o) /\ P y /\ fine E o) /\
                 (forall v, ordered v -> (exists x, g v = Ret x /\ P x) \/ (exists er, g v = Throw er /\ E er))
   end) -> behaves E P (user u).
Proof. exact user_behaves. Qed.
Print Assumptions C65_class.
Theorem C65_built_in : forall (E : exn -> Prop) e t, fair e -> wf_ty t -> (forall v, ~ nan_in_set t v) ->
  (forall v x y er, breaks t v x y er -> E er) -> behaves E (typed t) (built_in e t).
Proof. exact built_in_behaves. Qed.
Print Assumptions C65_built_in.
(** ... may be put into containers, pointers and structs to any depth: nothing
    is thrown but what its functions throw and the library's complaints about
    the shape of the value, and nothing else goes wrong. *)
Theorem C65_sequence_safe : forall rf (E : exn -> Prop), (forall er, complaint er -> E er) ->
  forall P t k d, k <> KSet -> k <> KUSet -> behaves E P t -> behaves E (seq_objects P) (seq_conv rf k t d).
Proof. exact seq_behaves. Qed.
Print Assumptions C65_sequence_safe.
Theorem C65_array_safe : forall rf (E : exn -> Prop), (forall er, complaint er -> E er) ->
  forall P t n d, behaves E P t -> behaves E (array_objects n P) (array_conv rf n t d).
Proof. exact array_behaves. Qed.
Print Assumptions C65_array_safe.
Theorem C65_map_safe : forall e rf (E : exn -> Prop), (forall er, complaint er -> E er) ->
  forall P t h d, fair e -> behaves E P t -> behaves E (map_objects P) (map_conv e rf h t d).
Proof. exact map_behaves. Qed.
Print Assumptions C65_map_safe.
Theorem C65_pointer_safe : forall (E : exn -> Prop) P t, behaves E P t -> behaves E (ptr_objects P) (ptr_conv t).
Proof. exact ptr_behaves. Qed.
Print Assumptions C65_pointer_safe.
Theorem C65_struct_safe : forall rf (E : exn -> Prop), (forall er, complaint er -> E er) ->
  forall fs Ps d, NoDup (map (fun f => fst (fst f)) fs) -> Forall2 (fun f P => behaves E P (snd f)) fs Ps ->
  behaves E (struct_objects Ps) (struct_conv rf fs d).
Proof. exact struct_behaves. Qed.
Print Assumptions C65_struct_safe.
(** get(x) then never throws; it is true if from_value returned. *)
Theorem C65_get_into : forall E P c v x, behaves E P c -> ordered v -> P x -> exists y b, try_get c v x = (y, Ret b) /\ P y /\
  (b = true <-> into_ c v x = (y, Ret tt)).
Proof. exact into_bool. Qed.
Print Assumptions C65_get_into.
Definition points (x : cval) : Prop := exists a b, x = pt a b.
Example C65_point_behaves : behaves (fun er => er = bad_point) points point.
Proof.
  apply C65_class.
  - exists 0%Z, 0%Z. reflexivity.
  - intros x (a & b & ->). cbn. destruct (a <? 0)%Z; eexists; eexists; (split; [reflexivity|]).
    + split; [right; eauto|discriminate].
    + split; [left; reflexivity|]. intros _. constructor. intros x [<-|[<-|[]]]; constructor.
  - intros v x _ (a & b & ->).
    assert (S : forall y o, point_from v (pt a b) = (y, o) -> points y /\ (o = Ret tt \/ o = Throw bad_point)).
    { intros y o H. destruct v as [|z|f|s|[|[|z1|f|s|l|m|q] [|[|z2|f2|s2|l2|m2|q2] [|u us]]]|m|q]; cbn in H; injection H as <- <-;
        (split; [unfold points, pt; eauto|auto]). }
    destruct (point_from v (pt a b)) as [y o]. destruct (S y o eq_refl) as [Py Oy]. exists y, o. split; [reflexivity|]. split; [assumption|].
    destruct Oy as [->| ->]; [left; reflexivity|right; eauto].
Qed.

(** ** Round trips *)

(** What is got back of elements is got back of containers ... *)
Theorem C65_sequence_kept : forall rf k t d l, k <> KSet -> k <> KUSet -> Forall (kept t) l ->
  kept (seq_conv rf k t d) (CSeq l) /\ kept_in (seq_conv rf k t d) (CSeq l).
Proof. exact seq_kept. Qed.
Print Assumptions C65_sequence_kept.
Theorem C65_array_kept : forall rf n t d l, length l = n -> Forall (kept t) l ->
  kept (array_conv rf n t d) (CSeq l) /\ kept_in (array_conv rf n t d) (CSeq l).
Proof. exact array_kept. Qed.
Print Assumptions C65_array_kept.
Theorem C65_map_kept : forall e rf h t d m, fair e -> sorted m -> Forall (fun p => kept t (snd p)) m ->
  kept (map_conv e rf h t d) (CMap m) /\ kept_in (map_conv e rf h t d) (CMap m).
Proof. exact map_kept. Qed.
Print Assumptions C65_map_kept.
(** ... of structs, if get(x) gets the fields back ... *)
Theorem C65_struct_kept : forall rf fs d l, NoDup (map (fun f => fst (fst f)) fs) -> Forall2 field_kept fs l ->
  kept (struct_conv rf fs d) (CRec l) /\ kept_in (struct_conv rf fs d) (CRec l).
Proof. exact struct_kept. Qed.
Print Assumptions C65_struct_kept.
(** ... and of pointers, if and only if it is not written as null. *)
Theorem C65_pointer_kept : forall t x, kept t x -> make t x <> Ret VNull ->
  kept (ptr_conv t) (CPtr (Some x)) /\ kept_in (ptr_conv t) (CPtr (Some x)).
Proof. exact ptr_kept. Qed.
Print Assumptions C65_pointer_kept.
Theorem C65_pointer_lost : forall t x, make t x = Ret VNull -> ~ kept (ptr_conv t) (CPtr (Some x)).
Proof. exact ptr_lost. Qed.
Print Assumptions C65_pointer_lost.
Theorem C65_built_in_kept : forall e t x, fair e -> wf_ty t -> typed t x -> (kept (built_in e t) x <-> telling t x).
Proof. exact built_in_kept. Qed.
Print Assumptions C65_built_in_kept.
Example C65_points_kept : kept (seq_conv true KForward (ptr_conv point) no_diff) (CSeq [CPtr (Some (pt 1 2)); CPtr None]).
Proof.
  apply C65_sequence_kept; try discriminate. constructor; [|constructor; [|constructor]].
  - apply C65_pointer_kept; [|discriminate]. exists (VArr [VInt 1; VInt 2]). split; [reflexivity|]. split; [|reflexivity].
    constructor. intros x [<-|[<-|[]]]; constructor.
  - exists VNull. split; [reflexivity|]. split; [constructor|reflexivity].
Qed.

(** A class with both T from_value(c) and from_value(c, x): elements of
    containers are read by the former, whatever the latter does, and fields by
    the latter, whatever the former does ... *)
Theorem C65_elements_made : forall rf k to f f' g z df d v x,
  into_ (seq_conv rf k (user (mkClass to (Both f g) z df)) d) v x = into_ (seq_conv rf k (user (mkClass to (Both f' g) z df)) d) v x.
Proof. reflexivity. Qed.
Print Assumptions C65_elements_made.
Theorem C65_fields_filled : forall rf to f g g' z df d n req v x,
  into_ (struct_conv rf [(n, req, user (mkClass to (Both f g) z df))] d) v x =
  into_ (struct_conv rf [(n, req, user (mkClass to (Both f g') z df))] d) v x.
Proof. reflexivity. Qed.
Print Assumptions C65_fields_filled.
(** ... so that an object that get<T>() gets back may be lost as a field *)
Definition two_faced : conv := user (mkClass point_to (Both (fun _ x => (x, Throw bad_point)) (fun v => fresh (point_from v (pt 0 0)))) (pt 0 0) (fun _ => true)).
Theorem C65_field_refuted : exists t x, kept t x /\ ~ kept (struct_conv true [(text "p", true, t)] no_diff) (CRec [x]).
Proof.
  exists two_faced, (pt 1 2). split.
  - exists (VArr [VInt 1; VInt 2]). split; [reflexivity|]. split; [|reflexivity]. constructor. intros x [<-|[<-|[]]]; constructor.
  - intros (v & M & _ & G). vm_compute in M. injection M as <-. vm_compute in G. discriminate.
Qed.
Print Assumptions C65_field_refuted.

(** ** The library's own types as elements are read and written as in C42 and C43 *)
Theorem C65_same_read : forall e rf t d v x,
  (forall k, k <> KSet -> k <> KUSet -> into_ (seq_conv rf k (built_in e t) d) v x = from_val e (TySeq k t) v x) /\
  (forall n, into_ (array_conv rf n (built_in e t) d) v x = from_val e (TyArray n t) v x) /\
  (forall h, into_ (map_conv e rf h (built_in e t) d) v x = from_val e (TyMap h t) v x) /\
  into_ (ptr_conv (built_in e t)) v x = from_val e (TyPtr t) v x.
Proof.
  exact (fun e rf t d v x => conj (fun k => same_seq e rf k t d v x) (conj (fun n => same_array e rf n t d v x)
    (conj (fun h => same_map e rf h t d v x) (same_ptr e t v x)))).
Qed.
Print Assumptions C65_same_read.
Theorem C65_same_struct_read : forall e rf fs d v x,
  into_ (struct_conv rf (map (field_in e) fs) d) v x = from_val e (TyStruct fs) v x.
Proof. exact same_struct. Qed.
Print Assumptions C65_same_struct_read.
Theorem C65_same_written : forall e rf t d x c, fair e ->
  (forall k, k <> KSet -> k <> KUSet -> wf_ty (TySeq k t) -> typed (TySeq k t) x ->
     to_ (seq_conv rf k (built_in e t) d) x c = to_val e (TySeq k t) x c) /\
  (forall n, wf_ty (TyArray n t) -> typed (TyArray n t) x -> to_ (array_conv rf n (built_in e t) d) x c = to_val e (TyArray n t) x c) /\
  (forall h, wf_ty (TyMap h t) -> typed (TyMap h t) x -> to_ (map_conv e rf h (built_in e t) d) x c = to_val e (TyMap h t) x c) /\
  (typed (TyPtr t) x -> to_ (ptr_conv (built_in e t)) x c = to_val e (TyPtr t) x c).
Proof.
  exact (fun e rf t d x c F => conj (fun k K1 K2 => written_seq e rf k t d x c K1 K2 F) (conj (fun n => written_array e rf n t d x c F)
    (conj (fun h => written_map e rf h t d x c F) (written_ptr e t x c)))).
Qed.
Print Assumptions C65_same_written.
Theorem C65_same_struct_written : forall e rf fs d x c, fair e -> wf_ty (TyStruct fs) -> typed (TyStruct fs) x ->
  to_ (struct_conv rf (map (field_in e) fs) d) x c = to_val e (TyStruct fs) x c.
Proof. exact written_struct. Qed.
Print Assumptions C65_same_struct_written.
