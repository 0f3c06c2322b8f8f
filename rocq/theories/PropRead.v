(** C50: reading through the input stream buffers. *)
From Verif Require Import Base Stream Read SpecText SpecStream SpecRead ReadProofs.
Open Scope N_scope.
Notation text s := (chars s%string).

(** C50.  Every sequence of get, peek and clear on a stream over a string, a
    C string, an adapter or a file gives what reading the text gives. *)
Theorem C50_get_peek : forall ck s b code ops, over ck s b code -> Forall (fun op => ~ is_read op) ops ->
  exists d rs i, reads_all code (eof_int ck) s start_rd ops d rs /\ rexec_all ck ops (r_open b) = Ret (i, rs) /\ r_eof i = eof_ d /\ r_fail i = fail_ d.
Proof. exact over_run. Qed.
Print Assumptions C50_get_peek.

Example C50_get_peek_case : rexec_all C8 [Peek; Get; Peek; Peek; Get; Get; Clear; Peek] (r_open (RFile (text "hi") 0)) =
  Ret (mkIn (RFile [] (-1)) true false, [GotC 104; GotC 104; GotC 105; GotC 105; GotC 105; GotC (-1); Cleared; GotC (-1)]).
Proof. vm_compute. reflexivity. Qed.

(** basic_iadapterstream: also with read(s, n), unless it directly follows a
    peek, asks for nothing, or reaches the end. *)
Theorem C50_adapter : forall ck s src ops d rs, adapts ck s src -> no_read_after_peek ops -> ~ In (Read 0) ops ->
  reads_full (int_of_char ck) (eof_int ck) s start_rd ops d rs ->
  exists i, rexec_all ck ops (r_open (RAdp src 0 0)) = Ret (i, rs) /\ r_eof i = eof_ d /\ r_fail i = fail_ d.
Proof. exact adapter_reads. Qed.
Print Assumptions C50_adapter.

Definition C50_src (n : nat) : N := nth n (text "configor") 255.
Example C50_adapter_case : rexec_all C8 [Peek; Get; Read 3; Get; Read 3; Get] (r_open (RAdp C50_src 0 0)) =
  Ret (mkIn (RAdp C50_src 9 0) true true, [GotC 99; GotC 99; GotN (text "onf") 3; GotC 105; GotN (text "gor") 3; GotC (-1)]).
Proof. vm_compute. reflexivity. Qed.

(** After a peek, read stores the right characters, but reports one too few
    and the end of the file, for every adapter and count. *)
Theorem C50_after_peek_refuted : forall ck src pos n, src pos <> 0 -> src pos < eof_unit ck ->
  rexec_all ck [Peek; Read (S n)] (r_open (RAdp src pos 0)) =
  Ret (mkIn (RAdp src (pos + S n) 0) true true, [GotC (int_of_char ck (src pos)); GotN (map src (seq pos (S n))) n]).
Proof. exact peek_read. Qed.
Print Assumptions C50_after_peek_refuted.

(** and reading nothing after a peek is undefined. *)
Theorem C50_nothing_refuted : forall ck src pos, src pos <> 0 -> src pos < eof_unit ck -> rexec_all ck [Peek; Read 0] (r_open (RAdp src pos 0)) = UB.
Proof. exact peek_read0. Qed.
Print Assumptions C50_nothing_refuted.

(** Without a peek before it, read never notices the end: it delivers n
    characters whatever the adapter answers. *)
Theorem C50_end_refuted : forall ck src pos n, rexec ck (Read n) (r_open (RAdp src pos 0)) = Ret (r_open (RAdp src (pos + n) 0), GotN (map src (seq pos n)) n).
Proof. exact read_past. Qed.
Print Assumptions C50_end_refuted.
Example C50_end_case : rexec_all C8 [Read 10] (r_open (RAdp C50_src 0 0)) =
  Ret (r_open (RAdp C50_src 10 0), [GotN (text "configor" ++ [255; 255]) 10]).
Proof. vm_compute. reflexivity. Qed.

(** fast_string_istreambuf: a read is right if it is the last operation; *)
Theorem C50_string : forall ck s ops n, Forall (fun u => Z.of_N u <> eof_int ck) s -> Forall (fun op => op = Get \/ op = Peek) ops ->
  exists d rs i, reads_all Z.of_N (eof_int ck) s start_rd (ops ++ [Read n]) d rs /\
    rexec_all ck (ops ++ [Read n]) (r_open (RStr s 0)) = Ret (i, rs) /\ r_eof i = eof_ d /\ r_fail i = fail_ d.
Proof. exact string_run. Qed.
Print Assumptions C50_string.
(** it does not move on. *)
Theorem C50_string_refuted : rexec_all C8 [Read 2; Read 2; Get] (r_open (RStr (text "abcd") 0)) =
  Ret (mkIn (RStr (text "abcd") 1) false false, [GotN (text "ab") 2; GotN (text "ab") 2; GotC 97]).
Proof. vm_compute. reflexivity. Qed.
Print Assumptions C50_string_refuted.

(** At the end of the string, get() moves on beyond it; a read after clear()
    then fails by an exception of the buffer: nothing read, no end of file. *)
Theorem C50_string_end_refuted : forall ck s n, Forall (fun u => Z.of_N u <> eof_int ck) s ->
  exists rs, rexec_all ck (repeat Get (length s) ++ [Get; Clear; Read n]) (r_open (RStr s 0)) =
    Ret (mkIn (RStr s (S (length s))) false true, rs ++ [GotC (eof_int ck); Cleared; GotN [] 0]).
Proof. exact string_past. Qed.
Print Assumptions C50_string_end_refuted.

(** fast_buffer_istreambuf: a read delivers the right number of characters,
    but from the start of the buffer, wherever the reader is; *)
Theorem C50_buffer_refuted : forall ck s ops p rs n, Forall (fun u => Z.of_N u <> eof_int ck) s -> Forall (fun op => op = Get \/ op = Peek) ops ->
  reads_all Z.of_N (eof_int ck) s start_rd ops (mkRd p false false) rs ->
  exists i, rexec_all ck (ops ++ [Read n]) (r_open (RBuf s 0)) = Ret (i, rs ++ [GotN (firstn (Nat.min n (length s - p)) s) (Nat.min n (length s - p))]).
Proof. exact buffer_read. Qed.
Print Assumptions C50_buffer_refuted.
Example C50_buffer_case : rexec_all C8 [Get; Read 2] (r_open (RBuf (text "abcd") 0)) =
  Ret (mkIn (RBuf (text "abcd") 1) false false, [GotC 97; GotN (text "ab") 2]).
Proof. vm_compute. reflexivity. Qed.
(** beyond the end it is undefined. *)
Theorem C50_buffer_end_refuted : rexec_all C8 [Get; Get; Clear; Read 1] (r_open (RBuf (text "a") 0)) = UB.
Proof. vm_compute. reflexivity. Qed.
Print Assumptions C50_buffer_end_refuted.

(** fast_cfile_istreambuf: a read of n characters claims to have delivered n,
    but the last that it stores is a NUL, and there are at most n - 1 from the
    file; a pending character is passed over. *)
Theorem C50_file_refuted : forall ck rest last n, exists i r, rexec ck (Read (S n)) (r_open (RFile rest last)) = Ret (i, r) /\
  (rest = [] /\ r = GotN [] 0 \/ exists l rest', rest = l ++ rest' /\ (length l <= n)%nat /\ r = GotN (l ++ [0]) (S n) /\ i = r_open (RFile rest' last)).
Proof. exact file_read. Qed.
Print Assumptions C50_file_refuted.
Example C50_file_case : rexec_all C8 [Peek; Read 3; Get; Get] (r_open (RFile (text "abcd") 0)) =
  Ret (r_open (RFile [] 0), [GotC 97; GotN (text "bc" ++ [0]) 3; GotC 97; GotC 100]).
Proof. vm_compute. reflexivity. Qed.

(** Reading no characters does nothing, unless the index is behind the end or a
    character of an adapter is pending (C50_nothing_refuted). *)
Theorem C50_none : forall ck b,
  match b with RStr s i | RBuf s i => (i <= length s)%nat | RAdp _ _ last => last = 0%Z | RFile _ _ => True end ->
  rexec ck (Read 0) (r_open b) = Ret (r_open b, GotN [] 0).
Proof. exact none_read. Qed.
Print Assumptions C50_none.
Example C50_none_case : rexec_all C8 [Get; Read 0; Get] (r_open (RFile (text "ab") 0)) = Ret (r_open (RFile [] 0), [GotC 97; GotN [] 0; GotC 98]).
Proof. vm_compute. reflexivity. Qed.

(** For get and peek, Stream's shorter buffers are the same. *)
Theorem C50_same_get : forall ck i, exists i' c, rexec ck Get i = Ret (i', GotC c) /\ is_get ck (plain_is i) = (c, plain_is i').
Proof. exact plain_get. Qed.
Print Assumptions C50_same_get.
Theorem C50_same_peek : forall ck i, exists i' c, rexec ck Peek i = Ret (i', GotC c) /\ is_peek ck (plain_is i) = (c, plain_is i').
Proof. exact plain_peek. Qed.
Print Assumptions C50_same_peek.
