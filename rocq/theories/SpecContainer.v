(** What a text says when the order of its members matters: the grammar of
    SpecGrammar.v with documents in place of values, and what becomes of a
    document in a container. *)
From Verif Require Import Base Value Token Parser SpecGrammar SpecParseHeap SpecText SpecRfc Serializer SpecDump.
Open Scope N_scope.

(** [writes cf l d l']: l starts with the text of document d, followed by l' *)
Inductive writes (cf : pcfg) : list N -> doc -> list N -> Prop :=
| w_lit l l1 v l' : blank l l1 -> literal (src_ck cf) l1 v l' -> writes cf l (DVal v) l'
| w_num l l1 v l' : blank l l1 -> number (src_ck cf) (ndebug cf) l1 v l' -> writes cf l (DVal v) l'
| w_str l l1 s l' : blank l l1 -> strlit (tgt_enc cf) (tgt_ck cf) l1 s l' -> writes cf l (DStr s) l'
| w_arr l l1 ds l' : blank l (91 :: l1) -> writes_elems cf l1 ds l' -> writes cf l (DArr ds) l'
| w_obj l l1 ms l' : blank l (123 :: l1) -> writes_members cf l1 ms l' -> writes cf l (DObj ms) l'
with writes_elems (cf : pcfg) : list N -> list doc -> list N -> Prop :=
| we_end l l' : blank l (93 :: l') -> writes_elems cf l [] l'
| we_last l d l1 l' : writes cf l d l1 -> blank l1 (93 :: l') -> writes_elems cf l [d] l'
| we_more l d l1 l2 ds l' : writes cf l d l1 -> blank l1 (44 :: l2) -> writes_elems cf l2 ds l' ->
    writes_elems cf l (d :: ds) l'
with writes_members (cf : pcfg) : list N -> list (str * doc) -> list N -> Prop :=
| wm_end l l' : blank l (125 :: l') -> writes_members cf l [] l'
| wm_key l l1 k l2 l' : blank l l1 -> strlit (tgt_enc cf) (tgt_ck cf) l1 k l2 ->
    blank l2 (125 :: l') -> writes_members cf l [] l'
| wm_last l l1 k l2 l3 d l4 l' : blank l l1 -> strlit (tgt_enc cf) (tgt_ck cf) l1 k l2 ->
    blank l2 (58 :: l3) -> writes cf l3 d l4 -> blank l4 (125 :: l') -> writes_members cf l [(k, d)] l'
| wm_more l l1 k l2 l3 d l4 l5 ms l' : blank l l1 -> strlit (tgt_enc cf) (tgt_ck cf) l1 k l2 ->
    blank l2 (58 :: l3) -> writes cf l3 d l4 -> blank l4 (44 :: l5) -> writes_members cf l5 ms l' ->
    writes_members cf l ((k, d) :: ms) l'.

(** the whole text, up to its end or a NUL *)
Inductive wrote (cf : pcfg) : list N -> doc -> list N -> Prop :=
| wr_end l d l1 : writes cf l d l1 -> blank l1 [] -> wrote cf l d []
| wr_nul l d l1 l2 : writes cf l d l1 -> blank l1 (0 :: l2) -> wrote cf l d (0 :: l2).

(** The value a document gives when every object is an empty container into
    which the members are put one after the other. *)
Fixpoint build (put : str -> value -> list (str * value) -> list (str * value)) (d : doc) : value :=
  match d with
  | DVal v => v
  | DStr s => VStr s
  | DArr ds => VArr (map (build put) ds)
  | DObj ms => VObj (fold_left (fun m p => put (fst p) (snd p) m) (map (fun p => (fst p, build put (snd p))) ms) [])
  end.

(** [firsts seen ms m]: m are the members of ms whose key is new, in order *)
Inductive firsts {A} : list str -> list (str * A) -> list (str * A) -> Prop :=
| fi_nil seen : firsts seen [] []
| fi_new seen k v ms m : ~ In k seen -> firsts (k :: seen) ms m -> firsts seen ((k, v) :: ms) ((k, v) :: m)
| fi_old seen k v ms m : In k seen -> firsts seen ms m -> firsts seen ((k, v) :: ms) m.

(** [in_order d v]: v is the document's value with the members of each object
    in the order of the text, of members with the same key the first *)
Inductive in_order : doc -> value -> Prop :=
| io_val v : in_order (DVal v) v
| io_str s : in_order (DStr s) (VStr s)
| io_arr ds vs : Forall2 in_order ds vs -> in_order (DArr ds) (VArr vs)
| io_obj ms vs m : Forall2 (fun p q => fst p = fst q /\ in_order (snd p) (snd q)) ms vs -> firsts [] vs m ->
    in_order (DObj ms) (VObj m).

(** a value as a document *)
Fixpoint doc_of (v : value) : doc :=
  match v with
  | VArr l => DArr (map doc_of l)
  | VObj m => DObj (map (fun p => (fst p, doc_of (snd p))) m)
  | VStr s => DStr s
  | v => DVal v
  end.

(** values whose texts are read back unit for unit (SpecDump.ok_value without
    the order of the members) *)
Definition ok_any (cf : scfg) (v : value) : Prop :=
  forall x, sub x v ->
  match x with
  | VObj m => Forall (fun p => ok_string SpecRfc.plain cf (fst p)) m
  | x => ok_node_but ok_float SpecRfc.plain cf x
  end.
(** no object inside v has a key twice *)
Definition distinct (v : value) : Prop := forall m, sub (VObj m) v -> NoDup (map fst m).

(** [arranged v' v]: v is v' with the members of every object sorted by key *)
Inductive arranged : value -> value -> Prop :=
| ar_val v : scalar v -> arranged v v
| ar_str s : arranged (VStr s) (VStr s)
| ar_arr l' l : Forall2 arranged l' l -> arranged (VArr l') (VArr l)
| ar_obj m' m : NoDup (map fst m') -> sorted m ->
    (forall k x, assoc k x m' -> exists y, assoc k y m /\ arranged x y) ->
    (forall k y, assoc k y m -> exists x, assoc k x m') -> arranged (VObj m') (VObj m).
