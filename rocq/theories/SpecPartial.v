(** What json::parse(c, text) leaves in c when it throws, declaratively.
    [t] tells how the decoded text ends: properly or at a byte sequence the
    decoder rejects. *)
From Coq Require Import List NArith.
From Verif Require Import Stream Encoding Value Parser Feeds SpecUnicode SpecGrammar.
Import ListNotations.
Open Scope N_scope.

Section Partial.
Variables (cf : pcfg) (t : term).

(** the parser can take a character further *)
Definition on (l : list N) : Prop := t = TEof \/ l <> [].

(** a string, array or object starts here *)
Definition opens (l : list N) : Prop :=
  exists l1, blank l (34 :: l1) \/ (on l1 /\ (blank l (91 :: l1) \/ blank l (123 :: l1))).
(** a complete value is here *)
Definition has_value (l : list N) : Prop := exists v l', val cf l v l' /\ on l'.
(** a comma is next *)
Definition has_comma (l : list N) : Prop := exists l', blank l (44 :: l') /\ on l'.
(** a complete member is here: key, colon, value *)
Definition member (l : list N) (k : str) (v : value) (l' : list N) : Prop :=
  exists l1 l2 l3, blank l l1 /\ strlit (tgt_enc cf) (tgt_ck cf) l1 k l2 /\ blank l2 (58 :: l3) /\ val cf l3 v l' /\ on l'.
(** no further character of a string can be read and stored here *)
Definition no_more (x : list N) : Prop :=
  (forall w cp us y, item w cp -> out_units (tgt_enc cf) (tgt_ck cf) cp = Some us -> x <> w ++ y) /\
  (forall y, x = 34 :: y -> ~ on y).

(** [remains c l v]: from the text l no complete value can be read; started with
    content c, it ends with content v. *)
Inductive remains : value -> list N -> value -> Prop :=
| le_none c l : ~ opens l -> ~ has_value l -> remains c l c
| le_str c l b x cps s : blank l (34 :: b ++ x) -> items b cps -> out_text (tgt_enc cf) (tgt_ck cf) cps = Some s ->
    no_more x -> remains c l (VStr s)
| le_arr c l l1 vs : blank l (91 :: l1) -> on l1 -> left_elems l1 vs -> remains c l (VArr vs)
| le_obj c l l1 ms m : blank l (123 :: l1) -> on l1 -> left_members l1 ms -> obj_of ms m -> remains c l (VObj m)
(** the elements of an array that is not completed: those that are complete,
    in order, and then the beginning of another one, if it has begun *)
with left_elems : list N -> list value -> Prop :=
| la_none l : ~ opens l -> ~ has_value l -> left_elems l []
| la_part l v : opens l -> ~ has_value l -> remains VNull l v -> left_elems l [v]
| la_last l v l1 : val cf l v l1 -> on l1 -> ~ has_comma l1 -> left_elems l [v]
| la_more l v l1 l2 vs : val cf l v l1 -> blank l1 (44 :: l2) -> on l2 -> left_elems l2 vs -> left_elems l (v :: vs)
(** the members of an object that is not completed: the complete ones *)
with left_members : list N -> list (str * value) -> Prop :=
| lm_none l : (forall k v l', ~ member l k v l') -> left_members l []
| lm_last l k v l1 : member l k v l1 -> ~ has_comma l1 -> left_members l [(k, v)]
| lm_more l k v l1 l2 ms : member l k v l1 -> blank l1 (44 :: l2) -> on l2 -> left_members l2 ms ->
    left_members l ((k, v) :: ms).
End Partial.
