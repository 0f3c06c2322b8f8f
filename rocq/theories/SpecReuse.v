(** Several documents one after the other. *)
From Verif Require Import Base Stream Value Token Parser Feeds SpecGrammar Serializer SpecDump.
Open Scope N_scope.

(** [docs cf l vs rest]: l is the documents of vs, all but the last followed
    by a NUL; rest is what follows the last one: nothing, or a NUL and more *)
Inductive docs (cf : pcfg) : list N -> list value -> list N -> Prop :=
| ds_one l v rest : document cf l v rest -> docs cf l [v] rest
| ds_more l v l1 vs rest : document cf l v (0 :: l1) -> docs cf l1 vs rest -> docs cf l (v :: vs) rest.

(** the texts of several values, each followed by a NUL *)
Definition with_nuls (ws : list (list N)) : list N := concat (map (fun w => w ++ [0]) ws).

(** ** Serializers *)
(** the layout of a serializer's options, at any depth *)
Definition layout_of (cf : scfg) : layout :=
  mkLay (if s_pretty cf then [10] else [])
        (fun d => if s_pretty cf then
                    if s_ichar cf =? 0 then [] else repeat (s_ichar cf) (N.to_nat (d mod 65536 * s_step cf))
                  else [])
        (if s_pretty cf then [s_ichar cf] else []).

(** the strings, keys and floats of a value in the order in which they are
    written, each with the number of arrays and objects around it *)
Fixpoint deep (d : N) (v : value) : list (N * leaf) :=
  match v with
  | VArr l => concat (map (deep (d + 1)) l)
  | VObj m => concat (map (fun p => (d + 1, LStr (fst p)) :: deep (d + 1) (snd p)) m)
  | VStr s => [(d, LStr s)]
  | VFloat f => [(d, LFloat f)]
  | _ => []
  end.

(** [left_open cf vs d]: written one after the other, the values of vs that
    cannot be written leave d arrays and objects open *)
Inductive left_open (cf : scfg) : list value -> N -> Prop :=
| lo_none : left_open cf [] 0
| lo_good v vs d : Forall (fun x => ~ bad_leaf cf x) (leaves v) -> left_open cf vs d -> left_open cf (v :: vs) d
| lo_bad v vs pre e x post d : deep 0 v = pre ++ (e, x) :: post -> Forall (fun p => ~ bad_leaf cf (snd p)) pre -> bad_leaf cf x ->
    left_open cf vs d -> left_open cf (v :: vs) (e + d).

(** characters written with a two-character escape *)
Definition short (c : N) : Prop := c = 8 \/ c = 9 \/ c = 10 \/ c = 12 \/ c = 13 \/ c = 34 \/ c = 92.
(** leaves that need no encoding *)
Definition quiet (cf : scfg) (x : leaf) : Prop :=
  match x with
  | LStr s => exists cps, feeds (val_enc cf) (val_ck cf) (is_open (IStr s)) cps TEof /\ Forall short cps
  | LFloat _ => ~ bad_leaf cf x
  end.
