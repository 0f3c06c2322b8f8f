(** Several documents in one stream, each read by operator>>. *)
From Verif Require Import Base Stream Value Parser Feeds SpecGrammar.
Open Scope N_scope.

(** [series cf sp s vs]: s is blanks (of the stream's locale) only, and vs is
    empty; or blanks and a document up to the end, and vs is its value; or
    blanks, a document up to a NUL, and more after it.  What comes after the
    NUL is a part s' of s, the text of the rest. *)
Inductive series (cf : pcfg) (sp : N -> bool) : list N -> list value -> Prop :=
| se_none w : Forall (fun u => sp u = true) w -> series cf sp w []
| se_last w s l v : Forall (fun u => sp u = true) w -> feeds (src_enc cf) (src_ck cf) (is_open (IStr s)) l TEof -> document cf l v [] ->
    series cf sp (w ++ s) [v]
| se_more w p s l v l1 vs : Forall (fun u => sp u = true) w -> feeds (src_enc cf) (src_ck cf) (is_open (IStr (p ++ s))) l TEof ->
    document cf l v (0 :: l1) -> feeds (src_enc cf) (src_ck cf) (is_open (IStr s)) l1 TEof -> series cf sp s vs ->
    series cf sp (w ++ p ++ s) (v :: vs).
