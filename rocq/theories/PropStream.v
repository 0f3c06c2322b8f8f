(** C45: reading through an adapter or from a C file. *)
From Coq Require Import Lia.
From Verif Require Import Base Stream Encoding SpecUnicode SpecGrammar SpecText Value Token Parser Feeds SpecStream StreamProofs NulProofs.
Open Scope N_scope.

(** C45.  The whole result (value, outcome with its message, what a recording
    handler got) is that of the string, from the budget the string needs on. *)
Theorem C45_same : forall cf h c s b n, enc_ok (src_enc cf) (src_ck cf) = true ->
  behind (src_ck cf) s b -> Forall (a_unit (src_ck cf)) s -> (src_enc cf = Utf8 -> ~ In 0 s) ->
  (fuel_for s <= n)%nat ->
  parse_ibuf cf h n c b = parse_into cf h c s /\ fst (snd (parse_into cf h c s)) <> OutOfFuel.
Proof. exact same_outcome. Qed.
Print Assumptions C45_same.

Example C45_same_case :
  let s := [91; 34; 195; 169; 34; 93] in
  behind C8 s (IAdp (fun n => nth n s 255) 0 0) /\ behind C8 s (IFile s 0) /\
  parse_ibuf cfg_json HNone 20 VNull (IAdp (fun n => nth n s 255) 0 0) = (VArr [VStr [195; 169]], (Ret tt, ""%string)) /\
  parse_ibuf cfg_json HNone 20 VNull (IFile s 0) = (VArr [VStr [195; 169]], (Ret tt, ""%string)).
Proof.
  split; [constructor; [reflexivity|cbn; intros _ H; repeat destruct H as [H|H]; (discriminate || contradiction)]|].
  split; [constructor|]. split; vm_compute; reflexivity.
Qed.

(** Why the provisos: a NUL is dropped by the UTF-8 decoder and the next
    character taken as it is; a final NUL reads as 194 without a second byte... *)
Theorem C45_nul_inside : forall cf h c s b n, src_enc cf = Utf8 -> behind (src_ck cf) s b ->
  Forall (fun u => u < 128) s -> (fuel_for s <= n)%nat ->
  parse_ibuf cf h n c b = parse_into cf h c (after_nuls s).
Proof. exact nul_outcome. Qed.
Print Assumptions C45_nul_inside.

(** ...so a file may parse although the string does not, and an adapter ends
    at a byte 255. *)
Theorem C45_without_provisos_refuted :
  ~ (forall h c s b n, behind C8 s b -> Forall (a_unit C8) s -> (fuel_for s <= n)%nat ->
     parse_ibuf cfg_json h n c b = parse_into cfg_json h c s) /\
  ~ (forall h c s n, Forall (a_unit C8) s -> ~ In 0 s -> (fuel_for s <= n)%nat ->
     parse_ibuf cfg_json h n c (IAdp (fun k => nth k s 255) 0 0) = parse_into cfg_json h c s).
Proof.
  split; intro H.
  - assert (U : Forall (a_unit C8) [91; 0; 93]) by (repeat (constructor; [unfold a_unit; cbn; lia|]); constructor).
    specialize (H HNone VNull [91; 0; 93] (IFile [91; 0; 93] 0) 20%nat (bh_file C8 _) U). cbv in H. assert (9 <= 20)%nat as K by lia.
    specialize (H K). discriminate.
  - assert (U : Forall (a_unit C8) [49; 255; 50]) by (repeat (constructor; [unfold a_unit; cbn; lia|]); constructor).
    assert (Z : ~ In 0 [49; 255; 50]) by (cbn; intro K; repeat destruct K as [K|K]; (discriminate || contradiction)).
    specialize (H HNone VNull [49; 255; 50] 20%nat U Z). cbv in H. assert (9 <= 20)%nat as K by lia.
    specialize (H K). discriminate.
Qed.
Print Assumptions C45_without_provisos_refuted.

(** An adapter that answers NUL after its text (as the one in
    tests/test_json/test_parser.cpp does): the text is read as the string is,
    message and all but for a string cut short, or the parse never ends, and then the text
    ends inside a comment. *)
Theorem C45_nul_ended : forall cf h c s b l, enc_ok (src_enc cf) (src_ck cf) = true -> nul_ended s b ->
  Forall (fun u => u < eof_unit (src_ck cf)) s -> (src_enc cf = Utf8 -> ~ In 0 s) ->
  feeds (src_enc cf) (src_ck cf) (is_open (IStr s)) l TEof ->
  ((exists pre o, l = pre ++ o /\ open_comment o) /\
   forall n, (fuel_for s <= n)%nat -> fst (snd (parse_ibuf cf h n c b)) = OutOfFuel) \/
  (forall n, (fuel_for s <= n)%nat -> agree h (parse_into cf h c s) (parse_ibuf cf h n c b)).
Proof. exact nul_dichotomy. Qed.
Print Assumptions C45_nul_ended.

Theorem C45_nul_ended_same : forall cf h c s b l n, enc_ok (src_enc cf) (src_ck cf) = true -> nul_ended s b ->
  Forall (fun u => u < eof_unit (src_ck cf)) s -> (src_enc cf = Utf8 -> ~ In 0 s) ->
  feeds (src_enc cf) (src_ck cf) (is_open (IStr s)) l TEof -> (forall pre o, l = pre ++ o -> ~ open_comment o) ->
  (fuel_for s <= n)%nat -> agree h (parse_into cf h c s) (parse_ibuf cf h n c b).
Proof. exact nul_same. Qed.
Print Assumptions C45_nul_ended_same.

(** Blanks and then a comment without an end: no budget is enough, whereas
    the string is refused or read (C45_nul_ended_case). *)
Theorem C45_nul_ended_forever : forall cf h c s b l n, enc_ok (src_enc cf) (src_ck cf) = true -> nul_ended s b ->
  Forall (fun u => u < eof_unit (src_ck cf)) s -> (src_enc cf = Utf8 -> ~ In 0 s) ->
  feeds (src_enc cf) (src_ck cf) (is_open (IStr s)) l TEof -> blank_open l ->
  fst (snd (parse_ibuf cf h n c b)) = OutOfFuel.
Proof. exact nul_forever. Qed.
Print Assumptions C45_nul_ended_forever.

Definition C45_open : list N := chars " /* a"%string.
Example C45_nul_ended_case :
  nul_ended C45_open (IAdp (fun n => nth n C45_open 0) 0 0) /\ blank_open C45_open /\
  utf8_text C45_open C45_open /\
  (forall n, fst (snd (parse_ibuf cfg_json HNone n VNull (IAdp (fun n => nth n C45_open 0) 0 0))) = OutOfFuel) /\
  (exists m, fst (snd (parse_into cfg_json HNone VNull C45_open)) = Throw (EDeser m)) /\
  (let s := chars "[1, 2]"%string in
   parse_ibuf cfg_json HNone 20 VNull (IAdp (fun n => nth n s 0) 0 0) = (VArr [VInt 1; VInt 2], (Ret tt, ""%string))).
Proof.
  assert (T : utf8_text C45_open C45_open) by (repeat (apply (u8t_cons _ [_]); [constructor; cbn; lia|]); constructor).
  assert (N0 : nul_ended C45_open (IAdp (fun n => nth n C45_open 0) 0 0)) by (eexists; split; [intro n; reflexivity|reflexivity]).
  assert (B : blank_open C45_open).
  { apply (bo_here [32] [47; 42; 32; 97]); [repeat constructor|]. apply (oc_block [32; 97]). apply cb_char; [discriminate|]. apply cb_char; [discriminate|]. constructor. }
  split; [assumption|]. split; [assumption|]. split; [assumption|]. split; [|split].
  - intro n. apply C45_nul_ended_forever with (s := C45_open) (l := C45_open); try assumption.
    + reflexivity.
    + repeat (constructor; [cbn; lia|]); constructor.
    + cbn. intros _ K. repeat destruct K as [K|K]; (discriminate || contradiction).
    + apply (feeds_utf8_text C8). assumption.
  - vm_compute. eauto.
  - vm_compute. reflexivity.
Qed.
