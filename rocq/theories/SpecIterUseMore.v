(** The order of spots. *)
From Coq Require Import ZArith.
From Verif Require Import Base Value ValueOps SpecGrammar SpecIter IterUse SpecIterUse.

Inductive spot_lt : spot -> spot -> Prop :=
| sl_pos i j : (i < j)%nat -> spot_lt (Pos i) (Pos j)
| sl_key k k' : key_lt k k' -> spot_lt (At k) (At k')
| sl_end k : spot_lt (At k) End.
Definition spot_le (p q : spot) : Prop := p = q \/ spot_lt p q.

(** es1, es2, es3 are the elements in front of p, from p up to q, and from q on *)
Definition parts (p q : spot) (es1 es2 es3 : list (option str * value)) : Prop :=
  (forall i, p = Pos i -> q = Pos (i + length es2) /\ length es1 = i) /\
  (forall k x, In (Some k, x) es1 -> spot_lt (At k) p) /\
  (forall k x, In (Some k, x) es2 -> spot_le p (At k) /\ spot_lt (At k) q) /\
  (forall k x, In (Some k, x) es3 -> spot_le q (At k)).
