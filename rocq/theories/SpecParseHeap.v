(** What a parse that runs out of memory leaves behind, in terms of the
    document it was reading. *)
From Verif Require Import Base Value ValueOps Message Parser Heap SpecHeap SpecAlloc SpecGrammar.
Open Scope N_scope.

(** A document as written: members in order, keys may repeat. *)
Inductive doc :=
| DVal (v : value)                 (* null, boolean or number *)
| DStr (s : str)
| DArr (ds : list doc)
| DObj (ms : list (str * doc)).

Definition scalar (v : value) : Prop :=
  match v with VNull | VBool _ | VInt _ | VFloat _ => True | _ => False end.

(** its value: of members with the same key the first counts *)
Inductive means : doc -> value -> Prop :=
| me_val v : scalar v -> means (DVal v) v
| me_str s : means (DStr s) (VStr s)
| me_arr ds vs : means_all ds vs -> means (DArr ds) (VArr vs)
| me_obj ms vs m : means_members ms vs -> obj_of vs m -> means (DObj ms) (VObj m)
with means_all : list doc -> list value -> Prop :=
| ma_nil : means_all [] []
| ma_cons d v ds vs : means d v -> means_all ds vs -> means_all (d :: ds) (v :: vs)
with means_members : list (str * doc) -> list (str * value) -> Prop :=
| mm_nil : means_members [] []
| mm_cons k d v ms vs : means d v -> means_members ms vs -> means_members ((k, d) :: ms) ((k, v) :: vs).

(** the characters that have an escape of their own: quote, backslash, slash,
    and the control characters written b, f, n, r, t *)
Definition escaped (u : N) : Prop := In u [34; 92; 47; 8; 12; 10; 13; 9].
(** a string that lost escaped characters at its end *)
Definition clipped (s' s : str) : Prop := exists t, s = s' ++ t /\ Forall escaped t.

(** [short d' d]: d' is d with strings and keys clipped *)
Inductive short : doc -> doc -> Prop :=
| sh_val v : short (DVal v) (DVal v)
| sh_str s' s : clipped s' s -> short (DStr s') (DStr s)
| sh_arr ds' ds : short_all ds' ds -> short (DArr ds') (DArr ds)
| sh_obj ms' ms : short_members ms' ms -> short (DObj ms') (DObj ms)
with short_all : list doc -> list doc -> Prop :=
| sa_nil : short_all [] []
| sa_cons d' d ds' ds : short d' d -> short_all ds' ds -> short_all (d' :: ds') (d :: ds)
with short_members : list (str * doc) -> list (str * doc) -> Prop :=
| sm_nil : short_members [] []
| sm_cons k' k d' d ms' ms : clipped k' k -> short d' d -> short_members ms' ms -> short_members ((k', d') :: ms') ((k, d) :: ms).

(** [cut d' d]: d' is a beginning of d: of the members of an object some first
    ones, of the elements of an array some first ones and perhaps a beginning
    of the next *)
Inductive cut : doc -> doc -> Prop :=
| cu_short d' d : short d' d -> cut d' d
| cu_none d : cut (DVal VNull) d
| cu_str s t : cut (DStr s) (DStr (s ++ t))
| cu_arr ds' ds rest : short_all ds' ds -> cut (DArr ds') (DArr (ds ++ rest))
| cu_arr_in ds' ds d' d rest : short_all ds' ds -> cut d' d -> cut (DArr (ds' ++ [d'])) (DArr (ds ++ d :: rest))
| cu_obj ms' ms rest : short_members ms' ms -> cut (DObj ms') (DObj (ms ++ rest)).

(** how a parse may end when another would end with r *)
Definition ends_as {A} (r' r : outcome A) : Prop :=
  r' = r \/ r' = Throw EAlloc \/ exists c, r' = Throw (EDeser (with_code "encoding failed with codepoint" c)).

(** it comes to an end: it returns or throws *)
Definition comes_back {A} (r : outcome A) : Prop := match r with Ret _ | Throw _ => True | _ => False end.

(** what the caller of parse(v, text) sees: the recorded message, or the end *)
Definition said (r : outcome unit * string) : outcome string := let* _ := fst r in Ret (snd r).
(** how the call may end when with enough memory it ends with r *)
Definition ended (h : handler) (r' r : outcome string) : Prop :=
  r' = r \/
  (r' = Throw EAlloc /\ (h = HIgnore -> exists e, r = Throw e)) \/
  (h = HIgnore /\ r' = Ret ""%string) \/
  exists c, r' = said (handle h (Throw (EDeser (with_code "encoding failed with codepoint" c)))).

(** no string and no key in v ends with an escaped character *)
Definition ends_plain (s : str) : Prop := forall t u, s = t ++ [u] -> ~ escaped u.
Inductive plain : value -> Prop :=
| pl_val v : scalar v -> plain v
| pl_str s : ends_plain s -> plain (VStr s)
| pl_arr l : Forall plain l -> plain (VArr l)
| pl_obj m : Forall (fun kv => ends_plain (fst kv) /\ plain (snd kv)) m -> plain (VObj m).
