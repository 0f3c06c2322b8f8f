(** How much parsing, dumping and comparing cost, by the text or the value. *)
From Verif Require Import Base Stream Encoding Value Parser SpecUnicode SpecGrammar.

(** ** Values *)

(** values inside each other, this one included *)
Fixpoint nest (v : value) : nat :=
  match v with
  | VArr l => S (list_max (map nest l))
  | VObj m => S (list_max (map (fun kv => nest (snd kv)) m))
  | _ => 1
  end.
(** arrays and objects inside each other *)
Fixpoint levels (v : value) : nat :=
  match v with
  | VArr l => S (list_max (map levels l))
  | VObj m => S (list_max (map (fun kv => levels (snd kv)) m))
  | _ => 0
  end.
(** values in all *)
Fixpoint nodes (v : value) : nat :=
  match v with
  | VArr l => S (list_sum (map nodes l))
  | VObj m => S (list_sum (map (fun kv => nodes (snd kv)) m))
  | _ => 1
  end.
(** comparisons of an element are made twice, those of its elements four
    times, and so on *)
Fixpoint doubled (v : value) : nat :=
  match v with
  | VArr l => S (2 * list_sum (map doubled l))
  | VObj m => S (2 * list_sum (map (fun kv => doubled (snd kv)) m))
  | _ => 1
  end.

(** ** Texts: the grammar of SpecGrammar with two numbers, the depth d of the
    recursion and the number k of values copied *)

(** blanks with c comments *)
Inductive blanks : list N -> list N -> nat -> Prop :=
| bk_none l : match l with [] => True | c :: _ => ~ space c /\ c <> 47%N end -> blanks l l 0
| bk_space x l l' c : space x -> blanks l l' c -> blanks (x :: l) l' c
| bk_line b n l l' c : Forall (fun x => ~ newline x) b -> newline n -> blanks l l' c ->
    blanks (47 :: 47 :: b ++ n :: l)%N l' (S c)
| bk_line_end b : Forall (fun x => ~ newline x) b -> blanks (47 :: 47 :: b)%N [] 1
| bk_block b l l' c : comment_body b -> blanks l l' c ->
    blanks (47 :: 42 :: b ++ 42 :: 47 :: l)%N l' (S c).

Open Scope nat_scope.
Definition deepest (l : list nat) : nat := list_max l.

(** a value from its first character on: it takes a call, and within it what
    its contents take *)
Inductive phrase (cf : pcfg) : list N -> value -> list N -> nat -> nat -> Prop :=
| ph_lit l v l' : literal (src_ck cf) l v l' -> phrase cf l v l' 1 0
| ph_num l v l' : number (src_ck cf) (ndebug cf) l v l' -> phrase cf l v l' 1 0
| ph_str l s l' : strlit (tgt_enc cf) (tgt_ck cf) l s l' -> phrase cf l (VStr s) l' 1 0
| ph_arr l vs l' d k : contents cf l vs l' d k -> phrase cf (91%N :: l) (VArr vs) l' (S d) k
| ph_obj l ms m l' d k : fields cf l ms l' d k -> obj_of ms m -> phrase cf (123%N :: l) (VObj m) l' (S d) k
with contents (cf : pcfg) : list N -> list value -> list N -> nat -> nat -> Prop :=
| co_end l l' c : blanks l (93%N :: l') c -> contents cf l [] l' c 0
| co_last l l1 v l2 l' c d k c2 : blanks l l1 c -> phrase cf l1 v l2 d k -> blanks l2 (93%N :: l') c2 ->
    contents cf l [v] l' (deepest [c; d; c2]) k
| co_more l l1 v l2 l3 vs l' c d k c2 d2 k2 : blanks l l1 c -> phrase cf l1 v l2 d k -> blanks l2 (44%N :: l3) c2 ->
    contents cf l3 vs l' d2 k2 -> contents cf l (v :: vs) l' (deepest [c; d; c2; d2]) (k + k2)
(** the value of a member is read, from the blanks before it, within a call,
    and then copied *)
with fields (cf : pcfg) : list N -> list (str * value) -> list N -> nat -> nat -> Prop :=
| fi_end l l' c : blanks l (125%N :: l') c -> fields cf l [] l' c 0
| fi_key l l1 key l2 l' c c1 : blanks l l1 c -> strlit (tgt_enc cf) (tgt_ck cf) l1 key l2 ->
    blanks l2 (125%N :: l') c1 -> fields cf l [] l' (deepest [c; c1]) 0
| fi_last l l1 key l2 l3 l4 v l5 l' c c1 c2 d k c3 : blanks l l1 c -> strlit (tgt_enc cf) (tgt_ck cf) l1 key l2 ->
    blanks l2 (58%N :: l3) c1 -> blanks l3 l4 c2 -> phrase cf l4 v l5 d k -> blanks l5 (125%N :: l') c3 ->
    fields cf l [(key, v)] l' (deepest [c; c1; S c2; d; c3]) (k + nodes v)
| fi_more l l1 key l2 l3 l4 v l5 l6 ms l' c c1 c2 d k c3 d2 k2 : blanks l l1 c -> strlit (tgt_enc cf) (tgt_ck cf) l1 key l2 ->
    blanks l2 (58%N :: l3) c1 -> blanks l3 l4 c2 -> phrase cf l4 v l5 d k -> blanks l5 (44%N :: l6) c3 ->
    fields cf l6 ms l' d2 k2 ->
    fields cf l ((key, v) :: ms) l' (deepest [c; c1; S c2; d; c3; d2]) (k + nodes v + k2).

(** a text read into a variable that held y *)
Inductive takes (cf : pcfg) (y : value) : list N -> value -> list N -> nat -> nat -> Prop :=
| ta_doc l l1 v l2 rest c d k c2 : blanks l l1 c -> phrase cf l1 v l2 d k -> blanks l2 rest c2 ->
    rest = [] \/ (exists l3, rest = 0%N :: l3) ->
    takes cf y l v rest (deepest [S c; S (levels y); d; c2]) k.

(** ** Families *)

(** [[...[]...]] *)
Fixpoint tower (n : nat) : value := match n with 0 => VArr [] | S n => VArr [tower n] end.
Fixpoint tower_text (n : nat) : list N := match n with 0 => [91; 93]%N | S n => (91 :: tower_text n ++ [93])%N end.
(** {"":{"":...{}...}} *)
Fixpoint otower (n : nat) : value := match n with 0 => VObj [] | S n => VObj [([], otower n)] end.
Fixpoint otower_text (n : nat) : list N :=
  match n with 0 => [123; 125]%N | S n => (123 :: 34 :: 34 :: 58 :: otower_text n ++ [125])%N end.
(** n comments and a zero *)
Fixpoint remarks (n : nat) : list N := match n with 0 => [48]%N | S n => (47 :: 42 :: 42 :: 47 :: remarks n)%N end.

(** no object inside has members *)
Fixpoint memberless (v : value) : Prop :=
  match v with
  | VArr l => (fix all (l : list value) : Prop := match l with [] => True | x :: t => memberless x /\ all t end) l
  | VObj m => m = []
  | _ => True
  end.
