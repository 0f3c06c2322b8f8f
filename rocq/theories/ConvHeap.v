(** Making values from C++ objects when allocation can fail
    (details/value.hpp:155-163, details/conversion.hpp).

    [to_val] of Convert.v on the heap of Heap.v, with the plans of Alloc.v.  The
    converting constructor hands its half-made self to to_value; when that
    throws, the object has no destructor to run and what it had is lost.

    Simplifications: those of Alloc.v and Convert.v.  array_type and object_type
    objects are taken to be constant or temporary, so that they are copied element
    by element (conversion.hpp:296-306, 433-443).  The C++ object lies
    outside the heap: only the blocks of the values are counted. *)
From Verif Require Import Base Value ValueOps Heap Alloc Cpp Convert.

(** a copy of a basic_value that is part of the C++ object, value.hpp:117-145 *)
Fixpoint fbuild (v : value) : F cell :=
  match v with
  | VNull => fconstruct INull
  | VBool b => fconstruct (IBool b)
  | VInt z => fconstruct (IInt z)
  | VFloat f => fconstruct (IFloat f)
  | VStr s => fconstruct (IStr s)
  | VArr l =>
      let! q <- fcreate (let! _ <- alloc;
                         let! l' <- (fix each (l : list value) : F (list cell) :=
                                       match l with
                                       | [] => fret []
                                       | x :: l' => let! y <- fbuild x; let! ys <- on_throw (each l') (destroy_cell y); fret (y :: ys)
                                       end) l;
                         fret (BArr 0 l'));
      fret (mkCell TArray (WPtr q))
  | VObj m =>
      let! q <- fcreate (let! m' <- (fix each (m : list (str * value)) : F (list (str * cell)) :=
                                       match m with
                                       | [] => fret []
                                       | (k, x) :: m' =>
                                           let! _ <- alloc; let! _ <- alloc;
                                           let! y <- fbuild x;
                                           let! ys <- on_throw (each m') (destroy_cell y);
                                           fret ((k, y) :: ys)
                                       end) m;
                         fret (BObj m'));
      fret (mkCell TObject (WPtr q))
  end.

(** basic_value(x) as a temporary, then k; value.hpp:155-163 *)
Definition fmake {A} (conv : loc -> F unit) (k : loc -> F A) : F A :=
  let! t <- lift (push_slot null_cell);
  let! _ <- on_throw (conv (LSlot t)) forget_slot;
  ffinally (k (LSlot t)) pop_slot.

Section Conv.
Variable e : env.
Variable lf : bool.   (* the left operand of = is evaluated first *)

(** <dest> = y.  A basic_value is copied by operator=(const basic_value&),
    value.hpp:689-697; anything else becomes a temporary that is moved from, 699-707 *)
Definition fset (t : cty) (conv : cval -> loc -> F unit) (y : cval) (dest : F loc) : F unit :=
  match t, y with
  | TyJson, CJson v => let! l <- dest; let! c <- fbuild v; ftemp c (fun t => lift (swap l t))
  | _, _ =>
      if lf then let! l <- dest; fmake (conv y) (fun t => lift (assign_move l t))
      else fmake (conv y) (fun t => let! l <- dest; lift (assign_move l t))
  end.

(** c[i] = y for each element, conversion.hpp:196-200, 280-284, 301-305, ... *)
Fixpoint fput_seq (set : cval -> F loc -> F unit) (a : loc) (i : N) (l : list cval) : F unit :=
  match l with
  | [] => fret tt
  | y :: l' => let! _ <- set y (fsub_loc a (Idx i)); fput_seq set a (i + 1) l'
  end.

(** c[key] = y for each entry, conversion.hpp:440-443, 466-469 *)
Fixpoint fput_map (set : cval -> F loc -> F unit) (a : loc) (m : list (str * cval)) : F unit :=
  match m with
  | [] => fret tt
  | (k, y) :: m' => let! _ <- set y (fsub_loc a (Key k)); fput_map set a m'
  end.

(** to_value(c, x), c the value at a; anchors as for [to_val] *)
Fixpoint fto (t : cty) (x : cval) (a : loc) {struct t} : F unit :=
  match t, x with
  | TyBool, CBool b => freset a (IBool b)
  | TyInt _ _, CInt z => freset a (IInt (wrap 64 true z))
  | TyDouble, CDbl f => freset a (IFloat f)
  | TyFloat, CFlt f => freset a (IFloat (to_double f))
  | TyString, CStr s => freset a (IStr s)
  | TyRaw false, CJson (VArr l) => let! _ <- freset a IArr; fput_seq (fset TyJson (fun _ _ => fret tt)) a 0 (map CJson l)
  | TyRaw true, CJson (VObj m) => let! _ <- freset a IObj; fput_map (fset TyJson (fun _ _ => fret tt)) a (map (fun p => (fst p, CJson (snd p))) m)
  | TyPtr _, CPtr None => fassign_new a INull
  | TyPtr t', CPtr (Some y) => fset t' (fto t') y (fret a)
  | TyArray _ t', CSeq l => let! _ <- freset a IArr; fput_seq (fset t' (fto t')) a 0 l
  | TySeq KUSet t', CSeq l => let! _ <- freset a IArr; fput_seq (fset t' (fto t')) a 0 (e_set e l)
  | TySeq _ t', CSeq l => let! _ <- freset a IArr; fput_seq (fset t' (fto t')) a 0 l
  | TyMap true t', CMap m => let! _ <- freset a IObj; fput_map (fset t' (fto t')) a (e_map e m)
  | TyMap false t', CMap m => let! _ <- freset a IObj; fput_map (fset t' (fto t')) a m
  | TyStruct fs, CRec l =>
      (fix fields (fs : list (str * bool * cty)) (l : list cval) : F unit :=
         match fs, l with
         | (n, req, t') :: fs', y :: l' =>
             let! _ <- (if req || negb (ceqb y (dflt t')) then fset t' (fto t') y (fsub_loc a (Key n)) else fret tt);
             fields fs' l'
         | _, _ => fret tt
         end) fs l
  | _, _ => lift (fail UB)    (* not a value of the type, or a basic_value *)
  end.

(** a cell made from x: value.hpp:117-145 for a basic_value, 155-163 otherwise *)
Definition fof (t : cty) (x : cval) : F cell :=
  match t, x with
  | TyJson, CJson v => fbuild v
  | _, _ =>
      let! n <- lift (push_slot null_cell);
      let! _ <- on_throw (fto t x (LSlot n)) forget_slot;
      let! c <- lift (read_loc (LSlot n));
      let! _ <- lift forget_slot;
      fret c
  end.

(** json v(x); *)
Definition fnew_from (t : cty) (x : cval) : F unit := let! c <- fof t x; let! _ <- lift (push_slot c); fret tt.
(** v = x; *)
Definition fset_from (a : place) (t : cty) (x : cval) : F unit := let! la <- lift (locate a); fset t (fto t) x (fret la).
(** v.emplace_back(x);  value.hpp:428-440 *)
Definition fpush_from (a : place) (t : cty) (x : cval) : F unit := let! la <- lift (locate a); fpush_back la (fof t x).
End Conv.
