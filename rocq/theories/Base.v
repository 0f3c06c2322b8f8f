(** Outcomes, exceptions, and fixed-width integer helpers shared by the model.

    A C++ function is modelled as a total Gallina function whose result is an
    [outcome].  Undefined behaviour and a failed assertion are outcomes of
    their own, never totalised away. *)
From Coq Require Export String List NArith ZArith Bool.
Export ListNotations.
Open Scope N_scope.

(** include/configor/details/exception.hpp:33-118 and the two standard
    exceptions the library throws (std::out_of_range from at(), and from the
    iterator; std::invalid_argument is never thrown).
    [msg] is the whole text given to the constructor; what() adds a prefix to
    it ([exn_msg], Parser.v). *)
Inductive exn :=
| EDeser (msg : string)      (* configor_deserialization_error *)
| ESer (msg : string)        (* configor_serialization_error *)
| EType (msg : string)       (* configor_type_error *)
| EKey (msg : string)        (* configor_invalid_key *)
| EIter (msg : string)       (* configor_invalid_iterator *)
| EOutOfRange (msg : string) (* std::out_of_range *)
| EAlloc                     (* std::bad_alloc; only in Alloc *).

Inductive outcome (A : Type) :=
| Ret (a : A)        (* normal return *)
| Throw (e : exn)    (* C++ exception *)
| Abort              (* CONFIGOR_ASSERT failed, configor_declare/assert *)
| UB                 (* undefined behaviour of C++ *)
| OutOfFuel.         (* model artefact: recursion budget exhausted *)
Arguments Ret {A} a.
Arguments Throw {A} e.
Arguments Abort {A}.
Arguments UB {A}.
Arguments OutOfFuel {A}.

Definition bind {A B} (m : outcome A) (k : A -> outcome B) : outcome B :=
  match m with
  | Ret a => k a
  | Throw e => Throw e
  | Abort => Abort
  | UB => UB
  | OutOfFuel => OutOfFuel
  end.

Notation "'let*' x ':=' m 'in' k" := (bind m (fun x => k))
  (at level 200, x pattern, m at level 100, k at level 200, right associativity).

(** uint32_t / uint16_t / uint8_t arithmetic is modulo 2^w. *)
Definition u32 (n : N) : N := n mod 4294967296.
Definition u16 (n : N) : N := n mod 65536.
Definition u8 (n : N) : N := n mod 256.
Definition u32_sub (a b : N) : N := (a + 4294967296 - b) mod 4294967296.

(** int64_t range. *)
Definition int64_max : Z := 9223372036854775807%Z.
Definition int64_min : Z := (-9223372036854775808)%Z.
Definition in_int64 (z : Z) : bool := ((int64_min <=? z) && (z <=? int64_max))%Z.
(** Signed arithmetic whose mathematical result leaves int64_t is UB. *)
Definition chk64 (z : Z) : outcome Z := if in_int64 z then Ret z else UB.

(** ASCII constants used by the lexer and the serializer. *)
Notation c_nul := 0%N.
Notation c_bs := 8%N.
Notation c_tab := 9%N.
Notation c_nl := 10%N.
Notation c_ff := 12%N.
Notation c_cr := 13%N.
Notation c_space := 32%N.
Notation c_quote := 34%N.
Notation c_star := 42%N.
Notation c_plus := 43%N.
Notation c_comma := 44%N.
Notation c_minus := 45%N.
Notation c_dot := 46%N.
Notation c_slash := 47%N.
Notation c_0 := 48%N.
Notation c_9 := 57%N.
Notation c_colon := 58%N.
Notation c_E := 69%N.
Notation c_lbrack := 91%N.
Notation c_bslash := 92%N.
Notation c_rbrack := 93%N.
Notation c_a := 97%N.
Notation c_b := 98%N.
Notation c_e := 101%N.
Notation c_f := 102%N.
Notation c_n := 110%N.
Notation c_r := 114%N.
Notation c_t := 116%N.
Notation c_u := 117%N.
Notation c_lbrace := 123%N.
Notation c_rbrace := 125%N.

Definition lit_true : list N := [116; 114; 117; 101].
Definition lit_false : list N := [102; 97; 108; 115; 101].
Definition lit_null : list N := [110; 117; 108; 108].
