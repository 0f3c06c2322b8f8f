(** C51: parsing when memory runs out. *)
From Verif Require Import Base Stream Encoding Value Token ValueOps Parser Feeds Heap Alloc SpecText SpecUnicode SpecHeap SpecAlloc ParseHeap SpecParseHeap SpecContainer Container SpecParseDoc ParseDoc ParseHeapMain.
Open Scope N_scope.
Notation text s := (chars s%string).

(** Every text is read as one document, members in order, repeated keys
    included. *)
Theorem C51_document : forall cf w, exists d, read_as cf w d /\ forall d', read_as cf w d' -> d' = d.
Proof. exact read_one. Qed.
Print Assumptions C51_document.

(** For a text of the grammar it is the document of the grammar. *)
Theorem C51_document_text : forall cf w l t d rest, enc_ok (tgt_enc cf) (tgt_ck cf) = true ->
  feeds (src_enc cf) (src_ck cf) (is_open (Stream.IStr w)) l t ->
  wrote cf l d rest -> t = TEof \/ rest <> [] -> read_as cf w d.
Proof. exact read_text. Qed.
Print Assumptions C51_document_text.

(** What parse_into leaves is its value, or what was there before. *)
Theorem C51_document_value : forall cf w d h y, read_as cf w d ->
  fst (parse_into cf h y w) = y \/ means d (fst (parse_into cf h y w)).
Proof. exact read_into. Qed.
Print Assumptions C51_document_value.

Example C51_document_case :
  read_as cfg_json (text "{""b"":[1,""x""],""a"":2,""b"":{}") (DObj [(text "b", DArr [DVal (VInt 1); DStr (text "x")]); (text "a", DVal (VInt 2)); (text "b", DObj [])]).
Proof.
  split; [eexists; apply ContainerProofs.build_means; cbn; tauto|].
  intro put. vm_compute. reflexivity.
Qed.

(** C51.  json::parse(v, text) for every text, every configuration and
    handler, every variable or part of one, from every state of memory (with
    any blocks qs already lost) and under every plan of refusals.  With
    nothing refused it is parse_into, and no memory is lost.  Otherwise it may
    also end with std::bad_alloc or with an encoding error; the value then is
    the old one or holds a beginning of the document d of the text; nothing else changed,
    all memory is accounted for, and lost is at most some bare storage. *)
Theorem C51_into : forall cf h w d S a y s pl qs, read_as cf w d -> sget S a y -> holds_but s S qs ->
  let '(v, o) := parse_into cf h y w in
  exists s' pl' r', mparse_into cf h a w (s, pl) = ((s', pl'), r') /\ (exists u, pl = u ++ pl') /\
    ended h r' (said o) /\ (granted pl pl' -> r' = said o) /\
    (comes_back r' -> exists v' S' ks, sset S a v' S' /\ holds_but s' S' (ks ++ qs) /\
       (forall p, In p ks -> bare s' p) /\ (length ks <= 2 * length w + 3)%nat /\
       (granted pl pl' -> v' = v /\ ks = []) /\ (v' = y \/ cut_to v' d) /\
       (h <> HIgnore -> (ks = [] \/ r' = Throw EAlloc) /\ (r' = Ret ""%string -> short_to v' d /\ means d v))).
Proof. exact into_ok. Qed.
Print Assumptions C51_into.

(** v holds [1, "x"]; parsing {"k": ["ab", 2]} over it with an error handler,
    the copy of the member refused: std::bad_alloc, v is {}, two blocks lost.
    A refusal inside a string comes out as an encoding error. *)
Definition C51_program : list cmd := [New IArr; PushNew (0%nat, []) (IInt 1); PushNew (0%nat, []) (IStr (text "x"))].
Definition C51_start : hstate := fst (exec_all C51_program start).
Fixpoint C51_refuse (n : nat) : plan := match n with O => [true] | S n => false :: C51_refuse n end.
Definition C51_text : str := text "{""k"":[""ab"",2]}".

Example C51_into_case :
  mparse_into cfg_json HRecord (0%nat, []) C51_text (C51_start, C51_refuse 13) =
    ((mkSt [Some (mkCell TObject (WPtr 2))] [None; None; Some (BObj []); None; None; Some (BStr []); Some (BStr [])], []), Throw EAlloc) /\
  mparse_into cfg_json HRecord (0%nat, []) C51_text (C51_start, C51_refuse 6) =
    ((mkSt [Some (mkCell TObject (WPtr 2))] [None; None; Some (BObj []); None; None], []),
     Ret "value deserialization error: encoding failed with codepoint '\u0062'"%string) /\
  mparse_into cfg_json HRecord (0%nat, []) C51_text (C51_start, []) =
    ((mkSt [Some (mkCell TObject (WPtr 2))]
       [None; None; Some (BObj [(text "k", mkCell TArray (WPtr 5))]); None; None;
        Some (BArr 0 [mkCell TString (WPtr 6); mkCell TInteger (WInt 2)]); Some (BStr (text "ab"))], []), Ret ""%string).
Proof. split; [|split]; vm_compute; reflexivity. Qed.

(** With enough memory it is parse_into. *)
Theorem C51_enough : forall cf h w S a y s pl qs, sget S a y -> holds_but s S qs -> Forall (eq false) pl ->
  let '(v, o) := parse_into cf h y w in
  exists s' pl', mparse_into cf h a w (s, pl) = ((s', pl'), said o) /\
    (comes_back (said o) -> exists S', sset S a v S' /\ holds_but s' S' qs).
Proof. exact into_enough. Qed.
Print Assumptions C51_enough.

(** auto v = json::parse(text): it yields a variable only if the text is a
    document, and then with the value of the document up to clipped strings; when it throws
    there is no new variable. *)
Theorem C51_new : forall cf w d S s pl qs, read_as cf w d -> holds_but s S qs ->
  exists s' pl' r', mparse_new cf w (s, pl) = ((s', pl'), r') /\ (exists u, pl = u ++ pl') /\
    ends_as r' (let* _ := parse_string cf w in Ret tt) /\
    (granted pl pl' -> r' = let* _ := parse_string cf w in Ret tt) /\
    (r' = Ret tt -> exists v v', parse_string cf w = Ret v /\ short_to v' d /\ means d v /\ holds_but s' (S ++ [Some v']) qs /\ (granted pl pl' -> v' = v)) /\
    (forall e, r' = Throw e -> exists ks, holds_but s' S (ks ++ qs) /\ (forall p, In p ks -> bare s' p) /\ (length ks <= 2 * length w + 3)%nat /\
       (granted pl pl' \/ e <> EAlloc -> ks = [])).
Proof. exact new_ok. Qed.
Print Assumptions C51_new.

Example C51_new_case :
  mparse_new cfg_json (text "[[7]]") (start, C51_refuse 3) = ((mkSt [] [None; None], []), Throw EAlloc) /\
  mparse_new cfg_json (text "[[7]") (start, []) = ((mkSt [] [None; None], []), Throw (EDeser "unexpected token, expect 'end_array', but got 'end_of_input'")) /\
  mparse_new cfg_json (text "[[7]]") (start, [false]) =
    ((mkSt [Some (mkCell TArray (WPtr 0))] [Some (BArr 1 [mkCell TArray (WPtr 1)]); Some (BArr 1 [mkCell TInteger (WInt 7)])], []), Ret tt).
Proof. split; [|split]; vm_compute; reflexivity. Qed.

(** "A parse that returns has read the whole document" is false: a refusal at
    an escape that ends a string is not noticed, and the character is missing.
    (Here at the 16th character, where std::string starts to ask for memory.) *)
Theorem C51_complete_refuted : exists w v s' v', parse_string cfg_json w = Ret v /\
  mparse_new cfg_json w (start, C51_refuse 16) = ((s', []), Ret tt) /\ holds_but s' [Some v'] [] /\ v' <> v.
Proof.
  exists (text """0123456789abcde\n"""), (VStr (text "0123456789abcde" ++ [10])).
  exists (mkSt [Some (mkCell TString (WPtr 0))] [Some (BStr (text "0123456789abcde"))]), (VStr (text "0123456789abcde")).
  split; [vm_compute; reflexivity|]. split; [vm_compute; reflexivity|]. split; [|discriminate].
  exists [0%nat], [], []. split; [|split; [constructor|split; [repeat constructor; intros []|]]].
  - change [0%nat] with ([0%nat] ++ []). apply oe_live; [|constructor]. apply ow_str. reflexivity.
  - intro p. cbn [app In]. split; [intros [b B]|intros [E|[]]; subst p; eexists; reflexivity].
    destruct p as [|[|p]]; [auto|discriminate B|discriminate B].
Qed.
Print Assumptions C51_complete_refuted.

(** A value with no string or key that ends in such a character is complete. *)
Theorem C51_complete : forall cf w S s pl qs s' pl', holds_but s S qs -> mparse_new cf w (s, pl) = ((s', pl'), Ret tt) ->
  exists v v', parse_string cf w = Ret v /\ holds_but s' (S ++ [Some v']) qs /\ (plain v -> v' = v).
Proof. exact new_exact. Qed.
Print Assumptions C51_complete.

Theorem C51_complete_into : forall cf h w S a y s pl qs s' pl', sget S a y -> holds_but s S qs -> h <> HIgnore ->
  mparse_into cf h a w (s, pl) = ((s', pl'), Ret ""%string) ->
  exists v' S', sset S a v' S' /\ holds_but s' S' qs /\ (plain (fst (parse_into cf h y w)) -> v' = fst (parse_into cf h y w)).
Proof. exact into_exact. Qed.
Print Assumptions C51_complete_into.

(** "A parse that throws gives its memory back" is false: the copy of a member
    into its object, as in the case above. *)
Theorem C51_no_leak_refuted : exists w s', mparse_new cfg_json w (start, C51_refuse 7) = ((s', []), Throw EAlloc) /\ env s' = [] /\ live s' 2.
Proof.
  exists (text "{""k"":[1]}"), (mkSt [] [None; None; Some (BStr [])]). split; [vm_compute; reflexivity|]. split; [reflexivity|]. eexists. reflexivity.
Qed.
Print Assumptions C51_no_leak_refuted.
