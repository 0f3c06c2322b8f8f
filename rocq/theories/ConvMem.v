(** from_value and get (Convert.v) when requests for memory may be refused.

    The C++ objects read into are containers and strings of the standard
    library.  Every place that may ask for memory looks up whether it is refused;
    the places of one call are told apart by paths, so that a function of paths
    stands for any pattern of refusals.  A place that in fact does not ask (short
    strings, enough capacity) is one that is not refused.  Places: the messages of
    exceptions, copies of strings and values, new and make_shared, the nodes of
    containers, resize, value-initialisation of some types, and the std::string
    made from the name of a bound field.
    Simplifications: moving a C++ object asks for nothing; an object_type that
    cannot be copied in full holds the members copied so far
    (libstdc++ drops them: the same as none copied); what the copy of a
    basic_value loses when it throws is the subject of Alloc.v; a message that is
    put together from pieces can also come out cut off (as in C63), here it is
    whole or std::bad_alloc. *)
From Verif Require Import Base Value Compare ValueOps Iterator Cpp Message Convert.

Definition refusals := list N -> N -> bool.
Definition sub (i : N) (r : refusals) : refusals := fun p => r (i :: p).
Definition refused (r : refusals) (k : N) : bool := r [] k.

(** an expression that asks for memory once its operand is there *)
Definition need {A} (r : refusals) (k : N) (o : outcome A) : outcome A :=
  let* a := o in if refused r k then Throw EAlloc else Ret a.
(** throw: the message is made first *)
Definition saying {A} (r : refusals) (k : N) (o : outcome A) : outcome A :=
  match o with
  | Throw er => Throw (if refused r k then EAlloc else er)
  | _ => o
  end.

(** T{} of a vector, a forward_list, a pointer or a scalar asks for nothing; for
    the other containers some implementations do *)
Fixpoint inits (t : cty) : bool :=
  match t with
  | TyArray n t' => match n with O => false | S _ => inits t' end
  | TySeq k _ => match k with KVector | KForward => false | _ => true end
  | TyMap _ _ | TyRaw true => true
  | TyStruct fs => existsb (fun f => inits (snd f)) fs
  | _ => false
  end.

(** copying a value, value.hpp:110-150 *)
Definition owns (c : value) : bool := match c with VStr _ | VArr _ | VObj _ => true | _ => false end.

(** how many elements are copied before a request is refused; all if [None] *)
Fixpoint copies {A} (r : refusals) (i : N) (l : list A) : option nat :=
  match l with
  | [] => None
  | _ :: l' => if refused (sub i r) 0 then Some O else option_map S (copies r (i + 1) l')
  end.

Section Mem.
Variable e : env.

(** do_get<T>(), value.hpp:586-594 *)
Definition made (r : refusals) (t : cty) (x : unit -> cval * outcome unit) : outcome cval :=
  if inits t && refused r 0 then Throw EAlloc else fresh (x tt).

(** from_value, as in Convert.v *)
Fixpoint from_mem (r : refusals) (t : cty) (c : value) (x : cval) {struct t} : cval * outcome unit :=
  let wrong want := (x, saying r 0 (Throw (conv_error c want))) in
  match t with
  | TyBool => match c with VBool b => (CBool b, Ret tt) | _ => wrong TBoolean end
  | TyInt w sg => match c with VInt z => (CInt (wrap w sg z), Ret tt) | _ => wrong TInteger end
  | TyDouble => match c with VFloat f => (CDbl f, Ret tt) | _ => wrong TFloating end
  | TyFloat => match c with VFloat f => (CFlt (to_single f), Ret tt) | _ => wrong TFloating end
  | TyString => match c with VStr s => assign x (need r 0 (Ret s)) CStr | _ => wrong TString end
  | TyJson => assign x (if owns c then need r 0 (Ret c) else Ret c) CJson
  | TyRaw raw =>
      match raw, c with
      | _, VNull => (dflt (TyRaw raw), Ret tt)
      | false, VArr l =>
          (* v.assign(...): over the old elements, new ones being dropped again; or in new
             storage, which is being refused before the first element *)
          match copies r 0 l, x with
          | None, _ => (CJson c, Ret tt)
          | Some n, CJson (VArr l0) => (CJson (VArr (firstn (Nat.min n (length l0)) l ++ skipn n l0)), Throw EAlloc)
          | Some _, _ => (x, UB)
          end
      | true, VObj m =>
          match copies r 0 m with
          | None => (CJson c, Ret tt)
          | Some n => (CJson (VObj (firstn n m)), Throw EAlloc)
          end
      | false, _ => wrong TArray
      | true, _ => wrong TObject
      end
  | TyPtr t' =>
      match c with
      | VNull => (CPtr None, Ret tt)
      | _ => assign x (need r 0 (made (sub 1 r) t' (fun _ => from_mem (sub 2 r) t' c (dflt t')))) (fun y => CPtr (Some y))
      end
  | TyArray n t' =>
      match x with
      | CSeq l =>
          let '(l', o) :=
            for_loop (S n) (fun i => (i <? v_size c) && (i <? N.of_nat n))
              (fun i l => assign l (let ri := sub i r in let* v := saying ri 0 (at_idx i c) in
                                    made (sub 1 ri) t' (fun _ => from_mem (sub 2 ri) t' v (dflt t')))
                                 (fun y => set_nth (N.to_nat i) y l)) 0 l in
          (CSeq l', o)
      | _ => (x, UB)
      end
  | TySeq k t' =>
      match x with
      | CSeq l =>
          let get_at i j := let ri := sub i r in let* v := saying ri 0 (at_idx j c) in
                            made (sub 1 ri) t' (fun _ => from_mem (sub 2 ri) t' v (dflt t')) in
          let node i o := need (sub i r) 3 o in
          let run_loop := for_loop (S (N.to_nat (v_size c))) (fun i => i <? v_size c) in
          let '(l', o) :=
            match k with
            | KVector | KDeque =>
                if (len l <? v_size c) && refused r 0 then (l, Throw EAlloc) else
                run_loop (fun i l => assign l (get_at i i) (fun y => set_nth (N.to_nat i) y l)) 0
                         (resize (dflt t') (N.to_nat (v_size c)) l)
            | KList => run_loop (fun i l => assign l (node i (get_at i i)) (fun y => l ++ [y])) 0 []
            | KForward => run_loop (fun i l => assign l (node i (get_at i (v_size c - i - 1))) (fun y => y :: l)) 0 []
            | KSet | KUSet => run_loop (fun i l =>
                match get_at i i with
                | Ret y => if ceqb y y then assign l (node i (Ret y)) (fun y => set_insert y l) else (l, UB)
                | o => (l, void o)
                end) 0 []
            end in
          (CSeq l', o)
      | _ => (x, UB)
      end
  | TyMap _ t' =>
      match x with
      | CMap m =>
          let value_of r it := let* v := saying r 0 (it_read (fun _ => c) it) in
                               made (sub 1 r) t' (fun _ => from_mem (sub 2 r) t' v (dflt t')) in
          let key_of r it := saying r 3 (it_key (fun _ => c) it) in
          let pair_of r it :=
            if e_key1 e
            then let* k := key_of r it in let* y := value_of r it in Ret (k, y)
            else let* y := value_of r it in let* k := key_of r it in Ret (k, y) in
          let '((_, m'), o) :=
            match v_begin (fun _ => c) 0 with
            | Ret it =>
                each (S (N.to_nat (v_size c))) c
                  (fun it im => let '(i, m) := im in
                     let '(m', o) := assign m (need (sub i r) 4 (pair_of (sub i r) it)) (fun p => obj_emplace (fst p) (snd p) m) in
                     ((i + 1, m'), o)) it (0, m)
            | o => ((0, m), void o)
            end in
          (CMap m', o)
      | _ => (x, UB)
      end
  | TyStruct fs =>
      match x with
      | CRec l =>
          let '(l', o) :=
            (fix fields (r : refusals) (fs : list (str * bool * cty)) (l : list cval) : list cval * outcome unit :=
               match fs, l with
               | (n, req, t') :: fs', y :: l' =>
                   match (if req then Ret true else need r 0 (Ret (0 <? v_count n c))) with
                   | Ret true =>
                       match need r 1 (Ret tt), saying r 2 (at_key n c) with
                       | Ret _, Ret v =>
                           (* get(v.field): all exceptions are swallowed, value.hpp:657-672 *)
                           match from_mem (sub 3 r) t' v y with
                           | (y', Ret _) | (y', Throw _) =>
                               let '(q, o) := fields (sub 4 r) fs' l' in (y' :: q, o)
                           | (y', o) => (y' :: l', o)
                           end
                       | Ret _, o => (l, void o)
                       | o, _ => (l, o)
                       end
                   | Ret false => let '(q, o) := fields (sub 4 r) fs' l' in (y :: q, o)
                   | o => (l, void o)
                   end
               | _, _ => (l, Ret tt)
               end) r fs l in
          (CRec l', o)
      | _ => (x, UB)
      end
  end.

(** get<T>(), value.hpp:625-631 *)
Definition get_mem (r : refusals) (t : cty) (c : value) : outcome cval :=
  made (sub 1 r) t (fun _ => from_mem (sub 2 r) t c (dflt t)).

(** get(x), value.hpp:653-673 *)
Definition get_into_mem (r : refusals) (t : cty) (c : value) (x : cval) : cval * outcome bool :=
  match from_mem r t c x with
  | (x', Ret _) => (x', Ret true)
  | (x', Throw _) => (x', Ret false)
  | (x', Abort) => (x', Abort)
  | (x', UB) => (x', UB)
  | (x', OutOfFuel) => (x', OutOfFuel)
  end.
End Mem.
