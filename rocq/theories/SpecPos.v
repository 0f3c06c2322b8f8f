(** Positions of a text at which the next token is looked at, and what may
    stand there.  Declarative, on top of SpecGrammar.v. *)
From Coq Require Import List NArith ZArith.
From Verif Require Import Stream Value Parser SpecGrammar.
Import ListNotations.
Open Scope N_scope.

Inductive kind :=
| KVal        (* a value must come: start of the text, after ':' *)
| KElem       (* array element or ']' : after '[' or ',' *)
| KAfterElem  (* ',' or ']' *)
| KKey        (* key or '}' : after '{' or ',' *)
| KColon      (* ':' or '}' *)
| KAfterMem   (* ',' or '}' *)
| KEnd.       (* after the document *)

(** [inside cf k l r]: reading the value that starts text l, after its opening
    bracket, one reaches r expecting k.  What was read up to r is well
    formed. *)
Inductive inside (cf : pcfg) : kind -> list N -> list N -> Prop :=
| in_arr k l l1 r : blank l (91 :: l1) -> epos cf k l1 r -> inside cf k l r
| in_obj k l l1 r : blank l (123 :: l1) -> mpos cf k l1 r -> inside cf k l r
with epos (cf : pcfg) : kind -> list N -> list N -> Prop :=
| ep_here l r : blank l r -> epos cf KElem l r
| ep_in k l r : inside cf k l r -> epos cf k l r
| ep_after l v l1 r : val cf l v l1 -> blank l1 r -> epos cf KAfterElem l r
| ep_next k l v l1 l2 r : val cf l v l1 -> blank l1 (44 :: l2) -> epos cf k l2 r -> epos cf k l r
with mpos (cf : pcfg) : kind -> list N -> list N -> Prop :=
| mp_here l r : blank l r -> mpos cf KKey l r
| mp_colon l l1 s l2 r : blank l l1 -> strlit (tgt_enc cf) (tgt_ck cf) l1 s l2 -> blank l2 r ->
    mpos cf KColon l r
| mp_val l l1 s l2 l3 r : blank l l1 -> strlit (tgt_enc cf) (tgt_ck cf) l1 s l2 ->
    blank l2 (58 :: l3) -> blank l3 r -> mpos cf KVal l r
| mp_in k l l1 s l2 l3 r : blank l l1 -> strlit (tgt_enc cf) (tgt_ck cf) l1 s l2 ->
    blank l2 (58 :: l3) -> inside cf k l3 r -> mpos cf k l r
| mp_after l l1 s l2 l3 v l4 r : blank l l1 -> strlit (tgt_enc cf) (tgt_ck cf) l1 s l2 ->
    blank l2 (58 :: l3) -> val cf l3 v l4 -> blank l4 r -> mpos cf KAfterMem l r
| mp_next k l l1 s l2 l3 v l4 l5 r : blank l l1 -> strlit (tgt_enc cf) (tgt_ck cf) l1 s l2 ->
    blank l2 (58 :: l3) -> val cf l3 v l4 -> blank l4 (44 :: l5) -> mpos cf k l5 r ->
    mpos cf k l r.

Inductive pos (cf : pcfg) : kind -> list N -> list N -> Prop :=
| ps_start l r : blank l r -> pos cf KVal l r
| ps_in k l r : inside cf k l r -> pos cf k l r
| ps_end l v l1 r : val cf l v l1 -> blank l1 r -> pos cf KEnd l r.

(** first characters of values *)
Definition starts_val (c : N) : Prop :=
  c = 91 \/ c = 123 \/ c = 34 \/ c = 43 \/ c = 45 \/ (48 <= c /\ c <= 57) \/ c = 116 \/ c = 102 \/ c = 110.

(** what may stand at a position *)
Definition fits (k : kind) (r : list N) : Prop :=
  match k, r with
  | KVal, c :: _ => starts_val c
  | KElem, c :: _ => starts_val c \/ c = 93
  | KAfterElem, c :: _ => c = 44 \/ c = 93
  | KKey, c :: _ => c = 34 \/ c = 125
  | KColon, c :: _ => c = 58 \/ c = 125
  | KAfterMem, c :: _ => c = 44 \/ c = 125
  | KEnd, c :: _ => c = 0
  | KEnd, [] => True
  | _, [] => False
  end.

(** a sign followed by no digit (end of input counts as no digit) *)
Inductive bad_sign (ck : ckind) : list N -> Prop :=
| bs s l c l' : s = 43 \/ s = 45 -> next l c l' -> ~ digit ck c -> bad_sign ck (s :: l).

(** a number whose integer part exceeds 2^63 - 1 after digits [c :: ds].
    With assertions off ([nd]) the character after a sign counts as a digit
    whatever it is. *)
Inductive overflow (ck : ckind) (nd : bool) : list N -> Prop :=
| ov_plain c ds l : 49 <= c -> c <= 57 -> Forall (digit ck) ds ->
    (max_int < dec (Z.of_N (dval c)) ds)%Z -> overflow ck nd (c :: ds ++ l)
| ov_sign s c ds l : s = 43 \/ s = 45 -> c <> 48 -> (nd = true \/ digit ck c) -> Forall (digit ck) ds ->
    (max_int < dec (Z.of_N (dval c)) ds)%Z -> overflow ck nd (s :: c :: ds ++ l).
