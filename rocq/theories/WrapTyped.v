(** Stream insertion and extraction: the statements of C46 that put several
    lemmas together. *)
From Coq Require Import Lia ZifyBool ZifyNat ZifyN.
From Verif Require Import Base Stream Encoding SpecUnicode SpecGrammar SpecText SpecRfc SpecDump Value Token Parser FloatFmt Serializer Cpp Convert SpecConv
  EncodingProofs Feeds SpecStream DumpFacts RoundTrip DumpMore ConvMain ConvThm Wrapper WrapProofs WrapMore.
Open Scope N_scope.

Notation text s := (chars s%string).

Lemma in_untouched : forall cf sp sk t c,
  take_json cf sp (mkIn false sk t) c = (c, Ret (mkIn false sk t)) /\
  (Forall (fun x => sp x = true) t -> take_json cf sp (mkIn true true t) c = (c, Ret (mkIn false true []))).
Proof. intros. split; [apply take_bad; reflexivity|apply take_blank]. Qed.

Lemma in_whole : forall cf sp sk s c l v, (forall x, sp x = true -> x <= 32) -> ~ In 0 l ->
  feeds (src_enc cf) (src_ck cf) (is_open (IStr s)) l TEof ->
  (src_ck cf = C8 \/ Forall (fun u => u < eof_unit (src_ck cf)) s) -> parse_string cf s = Ret v ->
  take_json cf sp (mkIn true sk s) c = (v, Ret (mkIn true sk [])).
Proof. intros cf sp sk s c l v L N F U P. eapply take_whole; try eassumption. unfold units_below. tauto. Qed.

Lemma in_nul :
  take_json cfg_json classic_space (mkIn true true (text " 1" ++ 0 :: text " 2")) VNull = (VInt 1, Ret (mkIn true true (text " 2"))).
Proof. vm_compute. reflexivity. Qed.

Lemma in_case :
  (forall x, classic_space x = true <-> In x [9; 10; 11; 12; 13; 32]) /\
  take_json cfg_json classic_space (mkIn true true (11 :: text " [1,2] //")) (VInt 7) = (VArr [VInt 1; VInt 2], Ret (mkIn true true [])) /\
  take_json cfg_json classic_space (mkIn true false (11 :: text " [1,2]")) (VInt 7) = (VInt 7, Throw (EDeser "unexpected character '\u000B'")) /\
  take_json cfg_json classic_space (mkIn true true (text " [1,2] [3]")) (VInt 7) = (VArr [VInt 1; VInt 2], Throw (EDeser "unexpected token 'end_of_input'")).
Proof. split; [intro x; unfold classic_space; cbn [In]; lia|]. split; [|split]; vm_compute; reflexivity. Qed.

Lemma any_width_refuted :
  ~ (forall v o w, o_good o = true -> (0 < f_width (o_fmt o))%Z -> f_fill (o_fmt o) <> 0 -> height v < 65536 ->
     (put_json C8 C8 v o = (mkOut true (no_width (o_fmt o)) (o_text o ++ w), Ret tt) ->
      rend (unit_string (ser_cfg C8 C8 (o_fmt o) [])) (float_text (shown (f_ff (o_fmt o))) (f_prec (o_fmt o)))
        (indented (Z.to_N (f_width (o_fmt o))) (f_fill (o_fmt o))) 0 v w)).
Proof.
  intro H. specialize (H (VArr [VNull]) (mkOut true (mkFmt 256 32 6 FGeneral) []) [91; 10; 110; 117; 108; 108; 10; 93] eq_refl).
  assert (R : rend (unit_string (ser_cfg C8 C8 (mkFmt 256 32 6 FGeneral) [])) (float_text (shown FGeneral) 6) (indented 256 32) 0 (VArr [VNull]) [91; 10; 110; 117; 108; 108; 10; 93]).
  { apply H; [reflexivity|discriminate|reflexivity|vm_compute; reflexivity]. }
  clear H. inversion R as [| | | | | | |d v vs w E E1 E2 E3| |]; subst. inversion E as [d v w' E4 E5 E6|]; subst. inversion E4; subst.
  cbn in E3. discriminate.
Qed.

Lemma typed_out : forall e vck ock t x o,
  (forall v, of_cpp e t x = Ret v -> put_typed e vck ock t x o = put_json vck ock v o) /\
  (forall r, o_good o = true -> of_cpp e t x = Throw r -> put_typed e vck ock t x o = (o, Throw r)).
Proof. intros. split; intros; [apply put_conv|apply put_fail]; assumption. Qed.

Lemma typed_in : forall e cf sp t i x,
  (forall v i', take_json cf sp i VNull = (v, Ret i') -> i_good i' = true ->
     (forall y, get e t v = Ret y -> take_typed e cf sp t i x = (y, Ret i')) /\
     (forall r, get e t v = Throw r -> take_typed e cf sp t i x = (x, Throw r))) /\
  (forall v i', take_json cf sp i VNull = (v, Ret i') -> i_good i' = false -> take_typed e cf sp t i x = (x, Ret i')) /\
  (forall v r, take_json cf sp i VNull = (v, Throw r) -> take_typed e cf sp t i x = (x, Throw r)).
Proof.
  intros e cf sp t i x. destruct (take_conv e cf sp t i x) as (A & B & C). split; [|split; assumption].
  intros v i' H G. split; intros y Y; rewrite (A v i' H G), Y; reflexivity.
Qed.

Lemma typed_put_take : forall e e' pc vck ock t x o sp sk x0, let cf := ser_cfg vck ock (o_fmt o) [] in
  ock <> C16 -> o_good o = true -> reads pc cf ->
  ((0 < f_width (o_fmt o))%Z -> space (f_fill (o_fmt o))) -> (forall u, sp u = true -> u <= 32) ->
  fair e -> wf_ty t -> typed t x -> telling t x -> (forall v, of_cpp e t x = Ret v -> ok_value plain cf v) ->
  exists w, put_typed e vck ock t x o = (mkOut true (no_width (o_fmt o)) (o_text o ++ w), Ret tt) /\
            take_typed e' pc sp t (mkIn true sk w) x0 = (x, Ret (mkIn true sk [])).
Proof.
  intros e e' pc vck ock t x o sp sk x0 cf Oc G R B Low Fa Wt Ty Te Ok.
  destruct (ConvThm.round_trip e e' t x Fa Wt Ty) as (v & y & V & Y & I). apply I in Te. subst y.
  destruct (put_take pc vck ock v o sp sk VNull Oc G R B Low (Ok v V)) as (w & P & T). exists w. split.
  - rewrite (put_conv e vck ock t x o v V). exact P.
  - destruct (typed_in e' pc sp t (mkIn true sk w) x0) as (A & _). destruct (A _ _ T eq_refl) as [A1 _]. exact (A1 _ Y).
Qed.
