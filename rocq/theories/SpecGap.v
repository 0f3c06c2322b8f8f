(** Closed blanks and the token boundaries of a text.  Declarative, on top of
    SpecGrammar.v. *)
From Coq Require Import List NArith ZArith.
From Verif Require Import Stream Value Parser SpecGrammar SpecPos.
Import ListNotations.
Open Scope N_scope.

(** White space and closed comments: text that may be put between tokens.  A
    line comment is closed by its newline. *)
Inductive gap : list N -> Prop :=
| gp_nil : gap []
| gp_space c g : space c -> gap g -> gap (c :: g)
| gp_line b n g : Forall (fun c => ~ newline c) b -> newline n -> gap g ->
    gap (47 :: 47 :: b ++ n :: g)
| gp_block b g : comment_body b -> gap g -> gap (47 :: 42 :: b ++ 42 :: 47 :: g).

(** [spot cf k l r]: l is a well-formed beginning of a document followed by r,
    r starts between two tokens (possibly between blanks), and what the
    grammar expects there is k.  Compared with [pos], r need not start with a
    token. *)
Inductive in_spot (cf : pcfg) : kind -> list N -> list N -> Prop :=
| is_arr k l l1 r : blank l (91 :: l1) -> e_spot cf k l1 r -> in_spot cf k l r
| is_obj k l l1 r : blank l (123 :: l1) -> m_spot cf k l1 r -> in_spot cf k l r
with e_spot (cf : pcfg) : kind -> list N -> list N -> Prop :=
| es_here g r : gap g -> e_spot cf KElem (g ++ r) r
| es_in k l r : in_spot cf k l r -> e_spot cf k l r
| es_after l v g r : val cf l v (g ++ r) -> gap g -> e_spot cf KAfterElem l r
| es_next k l v l1 l2 r : val cf l v l1 -> blank l1 (44 :: l2) -> e_spot cf k l2 r -> e_spot cf k l r
with m_spot (cf : pcfg) : kind -> list N -> list N -> Prop :=
| ms_here g r : gap g -> m_spot cf KKey (g ++ r) r
| ms_colon l l1 s g r : blank l l1 -> strlit (tgt_enc cf) (tgt_ck cf) l1 s (g ++ r) -> gap g ->
    m_spot cf KColon l r
| ms_val l l1 s l2 g r : blank l l1 -> strlit (tgt_enc cf) (tgt_ck cf) l1 s l2 ->
    blank l2 (58 :: g ++ r) -> gap g -> m_spot cf KVal l r
| ms_in k l l1 s l2 l3 r : blank l l1 -> strlit (tgt_enc cf) (tgt_ck cf) l1 s l2 ->
    blank l2 (58 :: l3) -> in_spot cf k l3 r -> m_spot cf k l r
| ms_after l l1 s l2 l3 v g r : blank l l1 -> strlit (tgt_enc cf) (tgt_ck cf) l1 s l2 ->
    blank l2 (58 :: l3) -> val cf l3 v (g ++ r) -> gap g -> m_spot cf KAfterMem l r
| ms_next k l l1 s l2 l3 v l4 l5 r : blank l l1 -> strlit (tgt_enc cf) (tgt_ck cf) l1 s l2 ->
    blank l2 (58 :: l3) -> val cf l3 v l4 -> blank l4 (44 :: l5) -> m_spot cf k l5 r ->
    m_spot cf k l r.

Inductive spot (cf : pcfg) : kind -> list N -> list N -> Prop :=
| st_start g r : gap g -> spot cf KVal (g ++ r) r
| st_in k l r : in_spot cf k l r -> spot cf k l r
| st_end l v g r : val cf l v (g ++ r) -> gap g -> spot cf KEnd l r.
