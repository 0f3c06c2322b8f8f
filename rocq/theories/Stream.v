(** Character kinds, input streams and output streams. *)
From Verif Require Import Base.

(** sizeof(char_type): char, a 16-bit character type, wchar_t/char32_t on a
    platform with 32-bit wchar_t.  Units are stored as unsigned numbers; the
    places where the signedness of char matters are modelled explicitly. *)
Inductive ckind := C8 | C16 | C32.

Definition narrow (ck : ckind) (n : N) : N :=
  match ck with C8 => u8 n | C16 => u16 n | C32 => u32 n end.

(** std::char_traits<char_type>::eof() as a value of int_type. *)
Definition eof_int (ck : ckind) : Z :=
  match ck with C8 => (-1)%Z | C16 => 65535%Z | C32 => 4294967295%Z end.

(** Implicit conversion of a char_type to int_type (stream.hpp:167 stores the
    character itself into an int_type): sign extension for char. *)
Definition int_of_char (ck : ckind) (u : N) : Z :=
  match ck with
  | C8 => if u <? 128 then Z.of_N u else (Z.of_N u - 256)%Z
  | _ => Z.of_N u
  end.

(** Stream buffers.
    - [IStr]: fast_string_istreambuf / fast_buffer_istreambuf
      (details/stream.hpp:248-334), the not yet consumed units.  For the
      C-string variant the list stops before the first NUL (ctor, line 301).
      xsgetn is never called by the parser and is not part of [ibuf].
    - [IAdp]: basic_iadapterstream::streambuf (details/stream.hpp:153-195):
      an adapter whose n-th read() returns [src n], the number of reads done
      so far, and last_char_.
    - [IFile]: fast_cfile_istreambuf (details/stream.hpp:339-423): remaining
      file content and last_char_.
    - [IThr]: as [IAdp], with an adapter whose read() throws from the
      [stop]-th call on. *)
Inductive ibuf :=
| IStr (rest : list N)
| IAdp (src : nat -> N) (pos : nat) (last : Z)
| IFile (rest : list N) (last : Z)
| IThr (src : nat -> N) (stop pos : nat) (last : Z).

(** The next underflow() or uflow() ends in the adapter's exception. *)
Definition throws (b : ibuf) : bool :=
  match b with IThr _ stop pos last => (last =? 0)%Z && (stop <=? pos)%nat | _ => false end.

(** fgetc / fgetwc. *)
Definition fgetc (ck : ckind) (rest : list N) : Z * list N :=
  match rest with
  | [] => (eof_int ck, [])
  | u :: r => (Z.of_N u, r)
  end.

(** underflow(): details/stream.hpp:163-169, 264-269, 306-311, 355-361. *)
Definition underflow (ck : ckind) (b : ibuf) : Z * ibuf :=
  match b with
  | IStr [] => (eof_int ck, IStr [])
  | IStr (u :: r) => (Z.of_N u, IStr (u :: r))
  | IAdp src pos last =>
      if (last =? 0)%Z
      then let c := int_of_char ck (src pos) in (c, IAdp src (S pos) c)
      else (last, b)
  | IFile rest last =>
      if (last =? 0)%Z
      then let '(c, r) := fgetc ck rest in (c, IFile r c)
      else (last, b)
  | IThr src stop pos last =>
      if (last =? 0)%Z
      then let c := int_of_char ck (src pos) in (c, IThr src stop (S pos) c)
      else (last, b)
  end.

(** uflow(): details/stream.hpp:171-176, 271-276, 313-318, 363-368.
    For strings, ++index_ past the end is harmless: underflow tests >=. *)
Definition uflow (ck : ckind) (b : ibuf) : Z * ibuf :=
  match b with
  | IStr [] => (eof_int ck, IStr [])
  | IStr (u :: r) => (Z.of_N u, IStr r)
  | IAdp _ _ _ =>
      let '(c, b') := underflow ck b in
      (c, match b' with IAdp s p _ => IAdp s p 0%Z | x => x end)
  | IFile _ _ =>
      let '(c, b') := underflow ck b in
      (c, match b' with IFile r _ => IFile r 0%Z | x => x end)
  | IThr _ _ _ _ =>
      let '(c, b') := underflow ck b in
      (c, match b' with IThr s n p _ => IThr s n p 0%Z | x => x end)
  end.

(** std::basic_istream as the parser uses it: rdbuf, eofbit, and failbit or
    badbit (the parser and the decoders do not tell these apart: they ask for
    good() and eof()).  An exception from the buffer is caught by peek() and
    get(), which set badbit and return eof; exceptions() has no bit set in the
    streams the library makes. *)
Record istream := mkIs { is_buf : ibuf; is_eof : bool; is_fail : bool }.

Definition is_good (i : istream) : bool := negb (is_eof i) && negb (is_fail i).
Definition set_fail (i : istream) : istream := mkIs (is_buf i) (is_eof i) true.

(** std::basic_istream<C>::peek(): fails on a stream that is not good,
    otherwise sgetc(), setting eofbit on eof (libstdc++ istream.tcc). *)
Definition is_peek (ck : ckind) (i : istream) : Z * istream :=
  if is_good i then
    if throws (is_buf i) then (eof_int ck, set_fail i) else
    let '(c, b) := underflow ck (is_buf i) in
    (c, mkIs b (Z.eqb c (eof_int ck)) false)
  else (eof_int ck, set_fail i).

(** std::basic_istream<C>::get(): as peek with sbumpc(); eof sets
    eofbit|failbit. *)
Definition is_get (ck : ckind) (i : istream) : Z * istream :=
  if is_good i then
    if throws (is_buf i) then (eof_int ck, set_fail i) else
    let '(c, b) := uflow ck (is_buf i) in
    let e := Z.eqb c (eof_int ck) in
    (c, mkIs b e e)
  else (eof_int ck, set_fail i).

(** A fresh istream over a buffer (parser.hpp:46, json.hpp:881). *)
Definition is_open (b : ibuf) : istream := mkIs b false false.

(** Conversions of the int_type returned by get()/peek(). *)
Definition z_u8 (z : Z) : N := Z.to_N (z mod 256).
Definition z_u16 (z : Z) : N := Z.to_N (z mod 65536).
Definition z_u32 (z : Z) : N := Z.to_N (z mod 4294967296).

(** Output stream: units written so far and failure state.  put() on a failed
    stream does nothing; a unit equal to eof is refused by overflow()
    (details/stream.hpp:225-232), which sets badbit. *)
Record ostream := mkOs { os_units : list N; os_fail : bool }.

Definition os_put (ck : ckind) (o : ostream) (u : N) : ostream :=
  if os_fail o then o
  else if Z.eqb (Z.of_N u) (eof_int ck) then mkOs (os_units o) true
  else mkOs (os_units o ++ [u]) false.

Definition os_setfail (o : ostream) : ostream := mkOs (os_units o) true.

(** write(): xsputn appends everything (details/stream.hpp:234-238); nothing
    on a failed stream. *)
Definition os_write (o : ostream) (l : list N) : ostream :=
  if os_fail o then o else mkOs (os_units o ++ l) false.
