(** The input stream buffers with xsgetn, and get, peek, read and clear of an
    istream over them: basic_iadapterstream (details/stream.hpp:137-198) and
    the buffers behind parse (248-423).

    The parser itself only gets and peeks; for that Stream has a shorter model
    of the same buffers ([plain] below).

    Simplifications: index_ and counts are unbounded; the counts passed to
    fgets are below 2^31; a count of 0 makes fgets return a null pointer
    (as in glibc). *)
From Verif Require Import Base Stream.

Inductive rbuf :=
| RStr (s : list N) (i : nat)                    (* fast_string_istreambuf *)
| RBuf (s : list N) (i : nat)                    (* fast_buffer_istreambuf *)
| RAdp (src : nat -> N) (pos : nat) (last : Z)   (* basic_iadapterstream::streambuf *)
| RFile (rest : list N) (last : Z).              (* fast_cfile_istreambuf *)

(** stream.hpp:264-269, 306-311, 163-169, 355-361, 398-404 *)
Definition r_underflow (ck : ckind) (b : rbuf) : Z * rbuf :=
  match b with
  | RStr s i | RBuf s i => (match nth_error s i with None => eof_int ck | Some u => Z.of_N u end, b)
  | RAdp src pos last =>
      if (last =? 0)%Z then let c := int_of_char ck (src pos) in (c, RAdp src (S pos) c) else (last, b)
  | RFile rest last =>
      if (last =? 0)%Z then let '(c, r) := fgetc ck rest in (c, RFile r c) else (last, b)
  end.

(** stream.hpp:271-276, 313-318, 171-176, 363-368, 406-411 *)
Definition r_uflow (ck : ckind) (b : rbuf) : Z * rbuf :=
  let '(c, b) := r_underflow ck b in
  (c, match b with
      | RStr s i => RStr s (S i)
      | RBuf s i => RBuf s (S i)
      | RAdp src pos _ => RAdp src pos 0
      | RFile rest _ => RFile rest 0
      end).

(** fgets / fgetws with a room of S n: up to n characters, none after a newline *)
Fixpoint fgets (n : nat) (l : list N) : list N * list N :=
  match n, l with
  | S n', u :: r => if u =? 10 then ([u], r) else let '(g, r') := fgets n' r in (u :: g, r')
  | _, _ => ([], l)
  end.

(** xsgetn(s, num): what is stored from s on, and the value returned. *)
Inductive got := Got (stored : list N) (ret : nat) (b : rbuf) | GotThrow | GotUB.
Definition xsgetn (ck : ckind) (b : rbuf) (num : nat) : got :=
  match b with
  (* 278-282: copy throws out_of_range if index_ > size() *)
  | RStr s i =>
      if (length s <? i)%nat then GotThrow
      else let l := firstn num (skipn i s) in Got l (length l) b
  (* 320-328: size_ - index_ wraps around if index_ > size_ *)
  | RBuf s i =>
      if (length s <=? i + num)%nat then
        if (length s <? i)%nat then GotUB
        else let num := (length s - i)%nat in
             if (num =? 0)%nat then Got [] 0 b else Got (firstn num s) num b
      else if (num =? 0)%nat then Got [] 0 b
      else Got (firstn num s) num b
  (* 178-190, 124-131: with num == 0 and a pending character, s[0] is written
     and the adapter asked for size_t(-1) characters *)
  | RAdp src pos last =>
      if (last =? 0)%Z then Got (map src (seq pos num)) num (RAdp src (pos + num) 0)
      else match num with
           | O => GotUB
           | S n => Got (narrow ck (z_u32 last) :: map src (seq pos n)) n (RAdp src (pos + n) 0)
           end
  (* 370-375, 413-418 *)
  | RFile rest last =>
      match num with
      | O => Got [] 0 b
      | S n => match n, rest with
               | S _, [] => Got [] 0 b
               | _, _ => let '(g, r) := fgets n rest in Got (g ++ [0]) num (RFile r last)
               end
      end
  end.

(** std::basic_istream: [r_fail] is failbit or badbit (fail()). *)
Record rin := mkIn { r_buf : rbuf; r_eof : bool; r_fail : bool }.
Definition r_good (i : rin) : bool := negb (r_eof i) && negb (r_fail i).

Inductive rop := Get | Peek | Read (n : nat) | Clear.
(** what get and peek return; what read stores and gcount() *)
Inductive rres := GotC (c : Z) | GotN (stored : list N) (count : nat) | Cleared.

(** get(), peek(), read(s, n), clear().  read reports a count other than n by
    eofbit|failbit, and an exception of the buffer by badbit. *)
Definition rexec (ck : ckind) (op : rop) (i : rin) : outcome (rin * rres) :=
  match op with
  | Get =>
      if r_good i then
        let '(c, b) := r_uflow ck (r_buf i) in
        let e := Z.eqb c (eof_int ck) in Ret (mkIn b e e, GotC c)
      else Ret (mkIn (r_buf i) (r_eof i) true, GotC (eof_int ck))
  | Peek =>
      if r_good i then
        let '(c, b) := r_underflow ck (r_buf i) in Ret (mkIn b (Z.eqb c (eof_int ck)) false, GotC c)
      else Ret (mkIn (r_buf i) (r_eof i) true, GotC (eof_int ck))
  | Read n =>
      if r_good i then
        match xsgetn ck (r_buf i) n with
        | Got l m b => let e := negb (m =? n)%nat in Ret (mkIn b e e, GotN l m)
        | GotThrow => Ret (mkIn (r_buf i) false true, GotN [] 0)
        | GotUB => UB
        end
      else Ret (mkIn (r_buf i) (r_eof i) true, GotN [] 0)
  | Clear => Ret (mkIn (r_buf i) false false, Cleared)
  end.
Fixpoint rexec_all (ck : ckind) (ops : list rop) (i : rin) : outcome (rin * list rres) :=
  match ops with
  | [] => Ret (i, [])
  | op :: ops' =>
      bind (rexec ck op i) (fun '(i1, r) => bind (rexec_all ck ops' i1) (fun '(i2, rs) => Ret (i2, r :: rs)))
  end.
Definition r_open (b : rbuf) : rin := mkIn b false false.

(** the same buffer and stream in Stream *)
Definition plain (b : rbuf) : ibuf :=
  match b with
  | RStr s i | RBuf s i => IStr (skipn i s)
  | RAdp src pos last => IAdp src pos last
  | RFile rest last => IFile rest last
  end.
Definition plain_is (i : rin) : istream := mkIs (plain (r_buf i)) (r_eof i) (r_fail i).
