(** Iterators kept while the value they walk over changes
    (details/iterator.hpp with the member functions of value.hpp that change a
    value).  Iterator.v has positions in a value that stays as it is; here the
    containers have identities, and the iterators remember them.

    One value, [this]; value_ (iterator.hpp:508) is its address.  What the
    standard library says of its iterators: one of std::map stays valid as long
    as its node does, end() as long as the map; one of std::vector is taken to
    be lost as soon as the number of elements changes (the standard keeps those
    in front of an erased element, and those of a vector that grows within its
    capacity; nothing is said about these). *)
From Coq Require Import ZArith.
From Verif Require Import Base Value ValueOps.

(** The content: a vector with the number of its present buffer, a map with its
    number and that of each node. *)
Inductive body :=
| BVal (v : value)                                  (* neither array nor object *)
| BArr (g : nat) (l : list value)
| BObj (c : nat) (m : list (str * (nat * value))).

Record ist := mkI { i_body : body; i_next : nat (* numbers from here on are unused *) }.

(** the value, numbers left out *)
Definition view (b : body) : value :=
  match b with
  | BVal v => v
  | BArr _ l => VArr l
  | BObj _ m => VObj (map (fun p => (fst p, snd (snd p))) m)
  end.

(** A pointer to a node: its key, which is const, and its number. *)
Definition node := (str * nat)%type.

(** iterator.hpp:508-513 *)
Record uit := mkU {
  u_arr : option (nat * nat);            (* array_it_: buffer and position *)
  u_obj : option (nat * option node);    (* object_it_: map and node, None for end() *)
  u_prim : Z                             (* primitive_it_ *)
}.
Definition u_none : uit := mkU None None 0.
Definition with_arr (u : uit) (p : nat * nat) : uit := mkU (Some p) (u_obj u) (u_prim u).
Definition with_obj (u : uit) (p : nat * option node) : uit := mkU (u_arr u) (Some p) (u_prim u).
Definition with_prim (u : uit) (z : Z) : uit := mkU (u_arr u) (u_obj u) z.

(** ** Nodes of a map *)
Definition node_of (p : str * (nat * value)) : node := (fst p, fst (snd p)).
Definition first (m : list (str * (nat * value))) : option node :=
  match m with p :: _ => Some (node_of p) | [] => None end.
Fixpoint last_node (m : list (str * (nat * value))) : option node :=
  match m with [] => None | [p] => Some (node_of p) | _ :: m' => last_node m' end.

(** the entry of a node, if it is in the map *)
Definition entry (d : node) (m : list (str * (nat * value))) : option value :=
  match obj_find (fst d) m with
  | Some (n, x) => if Nat.eqb n (snd d) then Some x else None
  | None => None
  end.

Fixpoint after (k : str) (m : list (str * (nat * value))) : option node :=
  match m with
  | [] => None
  | (k', _) :: m' => if str_eqb k k' then first m' else after k m'
  end.

(** [p]: what is in front of m *)
Fixpoint before (k : str) (p : option node) (m : list (str * (nat * value))) : option node :=
  match m with
  | [] => None
  | e :: m' => if str_eqb k (fst e) then p else before k (Some (node_of e)) m'
  end.

(** object_it_ used with map c, m: [UB] if it is singular or lost *)
Definition use_obj (u : uit) (c : nat) (m : list (str * (nat * value))) : outcome (option (node * value)) :=
  match u_obj u with
  | Some (c', o) =>
      if Nat.eqb c' c then
        match o with
        | None => Ret None
        | Some d => match entry d m with Some x => Ret (Some (d, x)) | None => UB end
        end
      else UB
  | None => UB
  end.

(** array_it_ used with buffer g of n elements *)
Definition use_arr (u : uit) (g n : nat) : outcome nat :=
  match u_arr u with
  | Some (g', i) => if Nat.eqb g' g && Nat.leb i n then Ret i else UB
  | None => UB
  end.

(** ** begin, end, find: value.hpp:234-264, 321-341 *)
Definition u_begin (b : body) : uit :=
  match b with
  | BVal _ => u_none
  | BArr g _ => with_arr u_none (g, 0%nat)
  | BObj c m => with_obj u_none (c, first m)
  end.

Definition u_end (b : body) : uit :=
  match b with
  | BVal VNull => u_none
  | BVal _ => with_prim u_none 1
  | BArr g l => with_arr u_none (g, length l)
  | BObj c _ => with_obj u_none (c, None)
  end.

Definition u_find (k : str) (b : body) : uit :=
  match b with
  | BObj c m => with_obj u_none (c, match obj_find k m with Some (n, _) => Some (k, n) | None => None end)
  | _ => u_end b
  end.

(** ** value() and operator*, iterator.hpp:195-215 with 480-506; key() 185-193 *)
Definition u_entry (u : uit) (b : body) : outcome (option str * value) :=
  match b with
  | BObj c m =>
      let* o := use_obj u c m in
      match o with
      | Some (d, x) => Ret (Some (fst d), x)
      | None => Throw (EOutOfRange "object iterator out of range")
      end
  | BArr g l =>
      let* i := use_arr u g (length l) in
      match nth_error l i with
      | Some x => Ret (None, x)
      | None => Throw (EOutOfRange "array iterator out of range")
      end
  | BVal VNull => Throw (EOutOfRange "null iterator out of range")
  | BVal v => if Z.eqb (u_prim u) 0 then Ret (None, v) else Throw (EOutOfRange "primitive iterator out of range")
  end.
Definition u_read (u : uit) (b : body) : outcome value := let* e := u_entry u b in Ret (snd e).
Definition u_key (u : uit) (b : body) : outcome str :=
  let* e := u_entry u b in
  match fst e with Some k => Ret k | None => Throw (EIter "cannot use key() with non-object type") end.

(** ** operator++ and --, iterator.hpp:221-293 *)
Definition u_incr (u : uit) (b : body) : outcome uit :=
  match b with
  | BObj c m =>
      let* o := use_obj u c m in
      match o with Some (d, _) => Ret (with_obj u (c, after (fst d) m)) | None => UB end
  | BArr g l =>
      let* i := use_arr u g (length l) in
      if Nat.ltb i (length l) then Ret (with_arr u (g, S i)) else UB
  | BVal VNull => Ret u
  | BVal _ => Ret (with_prim u (u_prim u + 1))
  end.

Definition u_decr (u : uit) (b : body) : outcome uit :=
  match b with
  | BObj c m =>
      let* o := use_obj u c m in
      match match o with Some (d, _) => before (fst d) None m | None => last_node m end with
      | Some d => Ret (with_obj u (c, Some d))
      | None => UB
      end
  | BArr g l =>
      let* i := use_arr u g (length l) in
      match i with O => UB | S j => Ret (with_arr u (g, j)) end
  | BVal VNull => Ret u
  | BVal _ => Ret (with_prim u (u_prim u - 1))
  end.

(** ** operator==, iterator.hpp:357-380, both iterators of this value *)
Definition node_eqb (a b : option (node * value)) : bool :=
  match a, b with
  | None, None => true
  | Some (d, _), Some (d', _) => str_eqb (fst d) (fst d')
  | _, _ => false
  end.

Definition u_eq (u w : uit) (b : body) : outcome bool :=
  match b with
  | BObj c m => let* x := use_obj u c m in let* y := use_obj w c m in Ret (node_eqb x y)
  | BArr g l => let* i := use_arr u g (length l) in let* j := use_arr w g (length l) in Ret (Nat.eqb i j)
  | BVal _ => Ret (Z.eqb (u_prim u) (u_prim w))
  end.

(** ** Changes *)

(** a new value takes the place of the old one: operator=, value.hpp:689-707 *)
Fixpoint number (n : nat) (m : list (str * value)) : list (str * (nat * value)) :=
  match m with
  | [] => []
  | (k, x) :: m' => (k, (n, x)) :: number (S n) m'
  end.
Definition fresh (n : nat) (v : value) : ist :=
  match v with
  | VArr l => mkI (BArr n l) (S n)
  | VObj m => mkI (BObj n (number (S n) m)) (S n + length m)
  | _ => mkI (BVal v) n
  end.

(** storing into the member of a key that is present *)
Fixpoint upd_entry (k : str) (x : value) (m : list (str * (nat * value))) : list (str * (nat * value)) :=
  match m with
  | [] => []
  | (k', (n, y)) :: m' => if str_eqb k k' then (k', (n, x)) :: m' else (k', (n, y)) :: upd_entry k x m'
  end.

Inductive ucmd :=
| UAssign (x : value)             (* v = x *)
| UMoveOut                        (* auto w = std::move(v) *)
| UPush (x : value)               (* v.push_back(x) *)
| USetKey (k : str) (x : value)   (* v[k] = x *)
| USetIdx (i : N) (x : value)     (* v[i] = x *)
| UDelKey (k : str)               (* v.erase(k) *)
| UDelIdx (i : N)                 (* v.erase(i) *)
| UClear                          (* v.clear() *)
| UStore (u : uit) (x : value)    (* *u = x *)
| UErase (u : uit).               (* v.erase(u) *)

(** v[i] = x with v an array, value.hpp:718-728 *)
Definition set_idx (i : N) (x : value) (g : nat) (l : list value) (n : nat) : ist * outcome unit :=
  if len l <=? i then
    let l' := l ++ repeat VNull (N.to_nat (u64 (i + 18446744073709551616 - len l + 1))) in
    if i <? len l' then (mkI (BArr n (set_nth (N.to_nat i) x l')) (S n), Ret tt) else (mkI (BArr n l') (S n), UB)
  else (mkI (BArr g (set_nth (N.to_nat i) x l)) n, Ret tt).

(** The result is the iterator that v.erase(u) returns, [u_none] for the rest. *)
Definition u_step (c : ucmd) (st : ist) : ist * outcome uit :=
  let n := i_next st in
  let done (s : ist) := (s, Ret u_none) in
  match c with
  | UAssign x => done (fresh n x)
  | UMoveOut => done (mkI (BVal VNull) n)
  | UPush x =>
      match i_body st with
      | BVal VNull => done (mkI (BArr n [x]) (S n))
      | BArr _ l => done (mkI (BArr n (l ++ [x])) (S n))
      | _ => (st, Throw (EType "use push_back() or emplace_back() with non-array value"))
      end
  | USetKey k x =>
      match i_body st with
      | BVal VNull => done (mkI (BObj n [(k, (S n, x))]) (S (S n)))
      | BObj c m => done (mkI (BObj c (upd_entry k x (obj_emplace k (n, VNull) m))) (S n))
      | _ => (st, Throw (EKey "operator[] called on a non-object type"))
      end
  | USetIdx i x =>
      match i_body st with
      | BVal VNull => let '(s, o) := set_idx i x n [] (S n) in (s, let* _ := o in Ret u_none)
      | BArr g l => let '(s, o) := set_idx i x g l n in (s, let* _ := o in Ret u_none)
      | _ => (st, Throw (EKey "operator[] called on a non-array object"))
      end
  | UDelKey k =>
      match i_body st with
      | BObj c m => done (mkI (BObj c (obj_erase k m)) n)
      | _ => (st, Throw (EKey "cannot use erase() with non-object value"))
      end
  | UDelIdx i =>
      match i_body st with
      | BArr _ l => if i <? len l then done (mkI (BArr n (remove_nth (N.to_nat i) l)) (S n)) else (st, UB)
      | _ => (st, Throw (EKey "cannot use erase() with non-array value"))
      end
  | UClear =>
      match i_body st with
      | BVal v => done (mkI (BVal (v_clear v)) n)
      | BArr _ _ => done (mkI (BArr n []) (S n))
      | BObj c _ => done (mkI (BObj c []) n)
      end
  | UStore u x =>
      match u_entry u (i_body st), i_body st with
      | Ret (Some k, _), BObj c m => done (mkI (BObj c (upd_entry k x m)) n)
      | Ret _, BArr g l =>
          match u_arr u with
          | Some (_, i) => done (mkI (BArr g (set_nth i x l)) n)
          | None => (st, UB)
          end
      | Ret _, BVal _ => done (fresh n x)    (* *u is the value itself *)
      | Ret _, BObj _ _ => (st, UB)
      | Throw e, _ => (st, Throw e)
      | Abort, _ => (st, Abort) | UB, _ => (st, UB) | OutOfFuel, _ => (st, OutOfFuel)
      end
  | UErase u =>   (* value.hpp:368-390 *)
      match i_body st with
      | BObj c m =>
          match use_obj u c m with
          | Ret (Some (d, _)) => (mkI (BObj c (obj_erase (fst d) m)) n, Ret (with_obj (u_end (i_body st)) (c, after (fst d) m)))
          | _ => (st, UB)
          end
      | BArr g l =>
          match use_arr u g (length l) with
          | Ret i =>
              if Nat.ltb i (length l)
              then (mkI (BArr n (remove_nth i l)) (S n), Ret (with_arr (u_end (i_body st)) (n, i)))
              else (st, UB)
          | _ => (st, UB)
          end
      | BVal _ => (st, Throw (EIter "cannot use erase() with non-object & non-array value"))
      end
  end.

Fixpoint u_run (cs : list ucmd) (st : ist) : ist * list (outcome uit) :=
  match cs with
  | [] => (st, [])
  | c :: cs' =>
      match u_step c st with
      | (st', (Ret _ | Throw _) as r) => let (st2, rs) := u_run cs' st' in (st2, r :: rs)
      | (st', r) => (st', [r])
      end
  end.

(** ** for (auto it = v.begin(); it != v.end();) if (p(it)) it = v.erase(it); else ++it; *)
Fixpoint erase_if (p : option str * value -> bool) (fuel : nat) (u : uit) (st : ist) : ist * outcome unit :=
  match fuel with
  | O => (st, OutOfFuel)
  | S fuel' =>
      match u_eq u (u_end (i_body st)) (i_body st) with
      | Ret true => (st, Ret tt)
      | Ret false =>
          match u_entry u (i_body st) with
          | Ret e =>
              if p e then
                match u_step (UErase u) st with
                | (st', Ret u') => erase_if p fuel' u' st'
                | (st', Throw er) => (st', Throw er)
                | (st', _) => (st', UB)
                end
              else
                match u_incr u (i_body st) with
                | Ret u' => erase_if p fuel' u' st
                | Throw er => (st, Throw er)
                | _ => (st, UB)
                end
          | Throw er => (st, Throw er)
          | _ => (st, UB)
          end
      | Throw er => (st, Throw er)
      | _ => (st, UB)
      end
  end.

(** the same with  v.erase(it++)  for  it = v.erase(it) *)
Fixpoint erase_post (p : option str * value -> bool) (fuel : nat) (u : uit) (st : ist) : ist * outcome unit :=
  match fuel with
  | O => (st, OutOfFuel)
  | S fuel' =>
      match u_eq u (u_end (i_body st)) (i_body st) with
      | Ret true => (st, Ret tt)
      | Ret false =>
          match u_entry u (i_body st), u_incr u (i_body st) with
          | Ret e, Ret u' =>
              if p e then
                match u_step (UErase u) st with
                | (st', Ret _) => erase_post p fuel' u' st'
                | (st', Throw er) => (st', Throw er)
                | (st', _) => (st', UB)
                end
              else erase_post p fuel' u' st
          | Throw er, _ => (st, Throw er)
          | _, _ => (st, UB)
          end
      | Throw er => (st, Throw er)
      | _ => (st, UB)
      end
  end.

(** for (auto it = v.begin(); it != v.end(); ++it) *it = f( *it); *)
Fixpoint rewrite_all (f : value -> value) (fuel : nat) (u : uit) (st : ist) : ist * outcome unit :=
  match fuel with
  | O => (st, OutOfFuel)
  | S fuel' =>
      match u_eq u (u_end (i_body st)) (i_body st) with
      | Ret true => (st, Ret tt)
      | Ret false =>
          match u_read u (i_body st) with
          | Ret x =>
              match u_step (UStore u (f x)) st with
              | (st', Ret _) =>
                  match u_incr u (i_body st') with
                  | Ret u' => rewrite_all f fuel' u' st'
                  | Throw er => (st', Throw er)
                  | _ => (st', UB)
                  end
              | (st', Throw er) => (st', Throw er)
              | (st', _) => (st', UB)
              end
          | Throw er => (st, Throw er)
          | _ => (st, UB)
          end
      | Throw er => (st, Throw er)
      | _ => (st, UB)
      end
  end.

(** for (auto it = v.begin(); it != v.end(); ++it) if (g(it)) v[key] = x, where
    g says what is inserted *)
Fixpoint insert_all (g : option str * value -> option (str * value)) (fuel : nat) (u : uit) (st : ist) : ist * outcome unit :=
  match fuel with
  | O => (st, OutOfFuel)
  | S fuel' =>
      match u_eq u (u_end (i_body st)) (i_body st) with
      | Ret true => (st, Ret tt)
      | Ret false =>
          match u_entry u (i_body st) with
          | Ret e =>
              let '(st', o) := match g e with Some (k, x) => u_step (USetKey k x) st | None => (st, Ret u_none) end in
              match o with
              | Ret _ =>
                  match u_incr u (i_body st') with
                  | Ret u' => insert_all g fuel' u' st'
                  | Throw er => (st', Throw er)
                  | _ => (st', UB)
                  end
              | Throw er => (st', Throw er)
              | _ => (st', UB)
              end
          | Throw er => (st, Throw er)
          | _ => (st, UB)
          end
      | Throw er => (st, Throw er)
      | _ => (st, UB)
      end
  end.
