(** What the errors of dumping and converting say.  The wording is spelled out
    here and not taken from the model. *)
From Coq Require Import List NArith ZArith String.
From Verif Require Import Base Stream Encoding Value Serializer ValueOps Cpp Feeds SpecValue SpecIter SpecConv SpecDump SpecMessage.
Import ListNotations.
Open Scope N_scope.

(** ** Dumping *)

(** [string_error cf s m]: writing the string s fails, and m says at which
    character: the first one the target encoding lacks, or else the number the
    decoder is left with *)
Inductive string_error (cf : scfg) (s : str) : string -> Prop :=
| se_encode pre c post t :
    feeds (val_enc cf) (val_ck cf) (is_open (IStr s)) (pre ++ c :: post) t ->
    Forall (fun c => ~ unwritable cf c) pre -> unwritable cf c ->
    string_error cf s (with_number "encoding failed with codepoint" c)
| se_decode cps x :
    feeds (val_enc cf) (val_ck cf) (is_open (IStr s)) cps (TBad x) ->
    Forall (fun c => ~ unwritable cf c) cps ->
    string_error cf s (with_number "unexpected character" x).

(** the first string or float of v that cannot be written decides *)
Inductive dump_error (cf : scfg) (v : value) : string -> Prop :=
| de pre s post m :
    leaves v = pre ++ LStr s :: post -> Forall (fun l => ~ bad_leaf cf l) pre ->
    string_error cf s m -> dump_error cf v m.

(** ** Converting *)

(** [part u t]: the type u occurs in t, not counting the fields of structs,
    where mismatches are swallowed *)
Inductive part (u : cty) : cty -> Prop :=
| pa_here : part u u
| pa_ptr t : part u t -> part u (TyPtr t)
| pa_array n t : part u t -> part u (TyArray n t)
| pa_seq k t : part u t -> part u (TySeq k t)
| pa_map h t : part u t -> part u (TyMap h t).

(** what get<T>() can complain about *)
Inductive conversion_error (t : cty) (v : value) : exn -> Prop :=
(* a value inside v is not of a type inside T *)
| ce_scalar u ty w :
    part u t -> wants u ty -> sub w v -> type_of w <> ty -> conversion_error t v (misfit w ty)
(* ... neither null nor an array or object where array_type or object_type is read, *)
| ce_raw raw w :
    part (TyRaw raw) t -> sub w v -> w <> VNull -> type_of w <> (if raw then TObject else TArray) ->
    conversion_error t v (misfit w (if raw then TObject else TArray))
(* ... not an array where a sequence is read, *)
| ce_array u w :
    part u t -> (exists n u', u = TyArray n u') \/ (exists k u', u = TySeq k u') -> sub w v ->
    type_of w <> TArray -> conversion_error t v not_array
(* ... not an object where a map or a REQUIRED member is read, *)
| ce_map h u w : part (TyMap h u) t -> sub w v -> type_of w <> TObject -> conversion_error t v no_key
| ce_struct fs n u w :
    part (TyStruct fs) t -> In (n, true, u) fs -> sub w v -> type_of w <> TObject -> conversion_error t v not_object
(* ... or an object lacking a REQUIRED member *)
| ce_member fs n u o :
    part (TyStruct fs) t -> In (n, true, u) fs -> sub (VObj o) v -> (forall x, ~ In (n, x) o) ->
    conversion_error t v no_member.

(** ** what() *)
Definition what_of (e : exn) (w : string) : Prop :=
  match e with
  | EDeser m => w = ("value deserialization error: " ++ m)%string
  | ESer m => w = ("value serialization error: " ++ m)%string
  | EType m => w = ("value type error: " ++ m)%string
  | EKey m => w = ("invalid value key error: " ++ m)%string
  | EIter m => w = ("invalid value iterator error: " ++ m)%string
  | EOutOfRange m => w = m
  | EAlloc => w = "std::bad_alloc"%string
  end.
