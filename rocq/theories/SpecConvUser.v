(** What reading and writing containers, pointers and bound structs of classes
    with hand-written conversions comes to, in terms of what those conversions
    do: [make t x] is basic_value(x), [get_ t v] is v.get<T>(), [into_ t v x] is
    the from_value that v.get(x) calls. *)
From Verif Require Import Base Value Compare ValueOps Iterator SpecGrammar SpecText SpecValue SpecIter Cpp Convert SpecConv ConvUser.

(** a call ends another call by not returning *)
Definition ends {A B} (o : outcome A) (p : outcome B) : Prop :=
  match o, p with
  | Throw a, Throw b => a = b
  | Abort, Abort | UB, UB | OutOfFuel, OutOfFuel => True
  | _, _ => False
  end.

(** [runs f l bs rest o]: f is called for the elements of l in order until a
    call does not return; [bs] is what the calls before it return, [rest] is
    what remains of l from its argument on, and [o] is how it all ends. *)
Inductive runs {A B} (f : A -> outcome B) : list A -> list B -> list A -> outcome unit -> Prop :=
| runs_all : runs f [] [] [] (Ret tt)
| runs_next a b l bs rest o : f a = Ret b -> runs f l bs rest o -> runs f (a :: l) (b :: bs) rest o
| runs_stop a l o : ends (f a) o -> runs f (a :: l) [] (a :: l) o.

(** f for the second components *)
Definition named {A B} (f : A -> outcome B) (p : str * A) : outcome (str * B) :=
  let* b := f (snd p) in Ret (fst p, b).

(** the order in which a map is iterated over *)
Definition iterated (e : env) (h : bool) (m : list (str * cval)) : list (str * cval) := if h then e_map e m else m.

(** what the element at which writing stops leaves behind: null, if the
    reference to it is made before it is converted *)
Definition hole {A} (ref_first : bool) (rest : list A) : list value :=
  match rest with
  | [] => []
  | _ => if ref_first then [VNull] else []
  end.
Definition named_hole {A} (ref_first : bool) (rest : list (str * A)) : list (str * value) :=
  match rest with
  | [] => []
  | (k, _) :: _ => if ref_first then [(k, VNull)] else []
  end.

(** the fields that are written *)
Inductive wanted : list (str * bool * conv) -> list cval -> list (str * (conv * cval)) -> Prop :=
| wt_nil : wanted [] [] []
| wt_write n req t fs x l ws :
    req = true \/ differs t x = true -> wanted fs l ws -> wanted ((n, req, t) :: fs) (x :: l) ((n, (t, x)) :: ws)
| wt_skip n t fs x l ws : differs t x = false -> wanted fs l ws -> wanted ((n, false, t) :: fs) (x :: l) ws.

Definition made (q : conv * cval) : outcome value := make (fst q) (snd q).

(** [fills v fs l l' o]: reading v into the fields l gives l' and ends as o *)
Inductive fills : value -> list (str * bool * conv) -> list cval -> list cval -> outcome unit -> Prop :=
| fl_nil v : fills v [] [] [] (Ret tt)
(* whether or not the field's from_value throws *)
| fl_read m n req t fs w x y p l l' o :
    In (n, w) m -> into_ t w x = (y, p) -> p = Ret tt \/ (exists er, p = Throw er) ->
    fills (VObj m) fs l l' o -> fills (VObj m) ((n, req, t) :: fs) (x :: l) (y :: l') o
| fl_end m n req t fs w x y p l :
    In (n, w) m -> into_ t w x = (y, p) -> p = Abort \/ p = UB \/ p = OutOfFuel ->
    fills (VObj m) ((n, req, t) :: fs) (x :: l) (y :: l) p
| fl_absent v n t fs x l l' o : absent n v -> fills v fs l l' o -> fills v ((n, false, t) :: fs) (x :: l) (x :: l') o
| fl_missing m n t fs x l : absent n (VObj m) -> fills (VObj m) ((n, true, t) :: fs) (x :: l) (x :: l) (Throw no_member)
| fl_kind v n t fs x l : type_of v <> TObject -> fills v ((n, true, t) :: fs) (x :: l) (x :: l) (Throw not_object).

(** ** Conversions that return or throw *)

Definition fine (E : exn -> Prop) (o : outcome unit) : Prop := o = Ret tt \/ exists er, o = Throw er /\ E er.
(** [behaves E P c]: on objects in P and on any value, the conversions return
    or throw an exception in E, and the objects stay in P. *)
Record behaves (E : exn -> Prop) (P : cval -> Prop) (c : conv) : Prop := {
  b_zero : P (zero c);
  b_make : forall x, P x ->
    (exists v, make c x = Ret v /\ ordered v) \/ (exists er, make c x = Throw er /\ E er);
  b_get : forall v, ordered v ->
    (exists x, get_ c v = Ret x /\ P x) \/ (exists er, get_ c v = Throw er /\ E er);
  b_into : forall v x, ordered v -> P x ->
    exists y o, into_ c v x = (y, o) /\ P y /\ (o = Ret tt \/ exists er, o = Throw er /\ E er)
}.

(** the library's own complaints about the shape of a value *)
Definition complaint (er : exn) : Prop := er = not_array \/ er = not_object \/ er = no_member \/ er = no_key.

Inductive seq_objects (P : cval -> Prop) : cval -> Prop :=
| so l : Forall P l -> seq_objects P (CSeq l).
Inductive array_objects (n : nat) (P : cval -> Prop) : cval -> Prop :=
| ao l : length l = n -> Forall P l -> array_objects n P (CSeq l).
Inductive map_objects (P : cval -> Prop) : cval -> Prop :=
| mo m : sorted m -> Forall (fun p => P (snd p)) m -> map_objects P (CMap m).
Inductive ptr_objects (P : cval -> Prop) : cval -> Prop :=
| po_none : ptr_objects P (CPtr None)
| po_some x : P x -> ptr_objects P (CPtr (Some x)).
Inductive struct_objects (Ps : list (cval -> Prop)) : cval -> Prop :=
| sto l : Forall2 (fun P x => P x) Ps l -> struct_objects Ps (CRec l).

(** a field of one of the library's own types *)
Definition field_in (e : env) (f : str * bool * cty) : str * bool * conv := (fst f, built_in e (snd f)).

(** ** Conversions that are inverse to each other *)

(** x is got back by get<T>(); by get(x) from T{} *)
Definition kept (c : conv) (x : cval) : Prop :=
  exists v, make c x = Ret v /\ ordered v /\ get_ c v = Ret x.
Definition kept_in (c : conv) (x : cval) : Prop :=
  exists v, make c x = Ret v /\ ordered v /\ into_ c v (zero c) = (x, Ret tt).
(** a field: it is written and got back, or it is not written and is T{} *)
Definition field_kept (f : str * bool * conv) (x : cval) : Prop :=
  (kept_in (snd f) x /\ (snd (fst f) = true \/ differs (snd f) x = true)) \/
  (snd (fst f) = false /\ differs (snd f) x = false /\ x = zero (snd f)).
