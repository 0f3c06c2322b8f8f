(** The serializer without its stream and indentation state: text written and
    outcome as a function of the value and its depth. *)
From Coq Require Import Lia ZifyBool ZifyNat ZifyN Floats.SpecFloat.
From Verif Require Import Base Stream Encoding Value Token FloatFmt Message Parser Serializer Feeds SpecGrammar.
Ltac Zify.zify_post_hook ::= Z.div_mod_to_equations.
Open Scope N_scope.

Definition dres := (list N * outcome unit)%type.
Definition dthen (a b : dres) : dres :=
  match a with
  | (w, Ret _) => (w ++ fst b, snd b)
  | x => x
  end.
Definition txt (w : list N) : dres := (w, Ret tt).
Definition dfail (e : exn) : dres := ([], Throw e).

Fixpoint decs (e : enc) (ck : ckind) (fuel : nat) (i : istream) : list N * term :=
  match fuel with
  | O => ([], TBad 0)
  | S f =>
      let '(ok, cp, i) := decode e ck i 0 in
      if negb ok then ([], TEof)
      else if negb (is_good i) then ([], TBad cp)
      else let '(l, t) := decs e ck f i in (cp :: l, t)
  end.

Definition d_char (cf : scfg) (cp : N) : dres :=
  match short_escape cp with
  | Some e => txt [92; e]
  | None =>
      if (cp <=? 31) || (s_esc cf && (127 <=? cp)) then
        if cp <=? 65535 then txt (json_hex 2 (u16 cp))
        else txt (json_hex 4 (fst (encode_surrogates cp)) ++ json_hex 4 (snd (encode_surrogates cp)))
      else match out_units (out_enc cf) (out_ck cf) cp with
           | Some us => txt us
           | None => dfail (ESer (with_code "encoding failed with codepoint" cp))
           end
  end.

Fixpoint d_chars (cf : scfg) (cps : list N) (t : term) : dres :=
  match cps with
  | [] => match t with TEof => txt [] | TBad c => dfail (ESer (with_code "unexpected character" c)) end
  | cp :: cps => dthen (d_char cf cp) (d_chars cf cps t)
  end.

Definition d_string (cf : scfg) (s : str) : dres :=
  let '(cps, t) := decs (val_enc cf) (val_ck cf) (S (length s)) (sis s) in
  dthen (txt [34]) (dthen (d_chars cf cps t) (txt [34])).

Definition d_float (cf : scfg) (f : f64) : dres :=
  if f64_integral f then
    match f64_to_int64 f with
    | Ret z => txt (dec_of_Z z ++ [46; 48])
    | r => ([], stop r)
    end
  else txt (fmt_float (s_ff cf) (s_prec cf) f).

Definition d_nl (cf : scfg) : list N := if s_pretty cf then [10] else [].
Definition d_ind (cf : scfg) (d : N) : list N :=
  if s_pretty cf then
    if s_ichar cf =? 0 then [] else repeat (s_ichar cf) (N.to_nat (u16 d * s_step cf))
  else [].
Definition d_sp (cf : scfg) : list N := if s_pretty cf then [s_ichar cf] else [].

(** items on lines of their own, separated by commas *)
Fixpoint d_seq (pre : list N) (l : list dres) : dres :=
  match l with
  | [] => txt []
  | r :: l' => dthen (txt pre) (dthen r match l' with [] => txt [] | _ => dthen (txt [44]) (d_seq pre l') end)
  end.

Fixpoint d_val (cf : scfg) (d : N) (v : value) : dres :=
  match v with
  | VObj m =>
      dthen (txt [123]) (dthen
        (d_seq (d_nl cf ++ d_ind cf (d + 1))
           (map (fun p => dthen (d_string cf (fst p)) (dthen (txt (58 :: d_sp cf)) (d_val cf (d + 1) (snd p)))) m))
        (txt (d_nl cf ++ d_ind cf d ++ [125])))
  | VArr l =>
      dthen (txt [91]) (dthen (d_seq (d_nl cf ++ d_ind cf (d + 1)) (map (d_val cf (d + 1)) l))
        (txt (d_nl cf ++ d_ind cf d ++ [93])))
  | VStr x => d_string cf x
  | VBool true => txt lit_true
  | VBool false => txt lit_false
  | VInt z => txt (dec_of_Z z)
  | VFloat f => d_float cf f
  | VNull => txt lit_null
  end.
Definition d_member (cf : scfg) (d : N) (p : str * value) : dres :=
  dthen (d_string cf (fst p)) (dthen (txt (58 :: d_sp cf)) (d_val cf d (snd p))).

(** ** Induction on values *)
Section Ind.
Variable P : value -> Prop.
Hypothesis Hnull : P VNull.
Hypothesis Hint : forall z, P (VInt z).
Hypothesis Hflt : forall f, P (VFloat f).
Hypothesis Hstr : forall s, P (VStr s).
Hypothesis Hbool : forall b, P (VBool b).
Hypothesis Harr : forall l, Forall P l -> P (VArr l).
Hypothesis Hobj : forall m, Forall (fun p => P (snd p)) m -> P (VObj m).
Fixpoint value_rect2 (v : value) : P v :=
  match v with
  | VNull => Hnull
  | VInt z => Hint z
  | VFloat f => Hflt f
  | VStr s => Hstr s
  | VBool b => Hbool b
  | VArr l => Harr l ((fix go (l : list value) : Forall P l :=
      match l with [] => Forall_nil _ | v :: l => Forall_cons v (value_rect2 v) (go l) end) l)
  | VObj m => Hobj m ((fix go (m : list (str * value)) : Forall (fun p => P (snd p)) m :=
      match m with [] => Forall_nil _ | p :: m => Forall_cons p (value_rect2 (snd p)) (go m) end) m)
  end.
End Ind.
