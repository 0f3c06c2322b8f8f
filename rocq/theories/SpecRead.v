(** Reading a text, whatever is in between. *)
From Verif Require Import Base Stream Read SpecStream.

Section Text.
(** how get and peek return a character, and the end *)
Variables (code : N -> Z) (eof : Z) (text : list N).

(** where the reader is, eofbit, failbit *)
Record rd := mkRd { at_ : nat; eof_ : bool; fail_ : bool }.
Definition rd_good (s : rd) : Prop := eof_ s = false /\ fail_ s = false.

Inductive reads : rd -> rop -> rd -> rres -> Prop :=
| get_char p u : nth_error text p = Some u -> reads (mkRd p false false) Get (mkRd (S p) false false) (GotC (code u))
| get_end p : nth_error text p = None -> reads (mkRd p false false) Get (mkRd p true true) (GotC eof)
| get_bad s : ~ rd_good s -> reads s Get (mkRd (at_ s) (eof_ s) true) (GotC eof)
| peek_char p u : nth_error text p = Some u -> reads (mkRd p false false) Peek (mkRd p false false) (GotC (code u))
| peek_end p : nth_error text p = None -> reads (mkRd p false false) Peek (mkRd p true false) (GotC eof)
| peek_bad s : ~ rd_good s -> reads s Peek (mkRd (at_ s) (eof_ s) true) (GotC eof)
| read_all p l n : (exists rest, skipn p text = l ++ rest) -> length l = n -> reads (mkRd p false false) (Read n) (mkRd (p + n) false false) (GotN l n)
| read_some p l n : skipn p text = l -> (length l < n)%nat -> reads (mkRd p false false) (Read n) (mkRd (p + length l) true true) (GotN l (length l))
| read_bad s n : ~ rd_good s -> reads s (Read n) (mkRd (at_ s) (eof_ s) true) (GotN [] 0)
| clear s : reads s Clear (mkRd (at_ s) false false) Cleared.

Inductive reads_all : rd -> list rop -> rd -> list rres -> Prop :=
| ra_nil s : reads_all s [] s []
| ra_cons s op s1 r ops s2 rs : reads s op s1 r -> reads_all s1 ops s2 rs -> reads_all s (op :: ops) s2 (r :: rs).
(** no read of a good stream comes to the end of the text *)
Inductive reads_full : rd -> list rop -> rd -> list rres -> Prop :=
| rf_nil s : reads_full s [] s []
| rf_cons s op s1 r ops s2 rs : reads s op s1 r -> (forall n, op = Read n -> rd_good s -> exists l, r = GotN l n) ->
    reads_full s1 ops s2 rs -> reads_full s (op :: ops) s2 (r :: rs).
End Text.

(** no read directly after a peek (a clear() in between makes no difference) *)
Definition no_read_after_peek (ops : list rop) : Prop :=
  forall pre cs n post, ops = pre ++ Peek :: cs ++ Read n :: post -> Forall (eq Clear) cs -> False.
Definition is_read (op : rop) : Prop := exists n, op = Read n.

(** an adapter with the text s, answering EOF from then on *)
Definition adapts (ck : ckind) (s : list N) (src : nat -> N) : Prop :=
  (forall n, src n = nth n s (eof_unit ck)) /\ Forall (fun u => u <> 0 /\ u < eof_unit ck) s.

(** a fresh buffer over the text s, and how it returns characters *)
Inductive over (ck : ckind) (s : list N) : rbuf -> (N -> Z) -> Prop :=
| over_string : Forall (fun u => Z.of_N u <> eof_int ck) s -> over ck s (RStr s 0) Z.of_N
| over_buffer : Forall (fun u => Z.of_N u <> eof_int ck) s -> over ck s (RBuf s 0) Z.of_N
| over_adapter src : adapts ck s src -> over ck s (RAdp src 0 0) (int_of_char ck)
| over_file : Forall (fun u => u <> 0 /\ Z.of_N u <> eof_int ck) s -> over ck s (RFile s 0) Z.of_N.
Definition start_rd : rd := mkRd 0 false false.
