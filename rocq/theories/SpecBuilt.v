(** Values a program can make: parsed, constructed, or changed by any of the
    operations at any depth, without undefined behaviour or with it. *)
From Verif Require Import Base Encoding Value Parser ValueOps Iterator.

Inductive built : value -> Prop :=
| bt_parse cf s v : enc_ok (tgt_enc cf) (tgt_ck cf) = true -> parse_string cf s = Ret v -> built v
| bt_default t : built (of_type t)
| bt_bool b : built (VBool b)
| bt_int z : built (VInt z)
| bt_float f : built (VFloat f)
| bt_str s : built (VStr s)
| bt_array l : (forall x, In x l -> built x) -> built (make_array l)
| bt_object l : (forall k x, In (k, x) l -> built x) -> built (make_object l)
| bt_assign p x v : built x -> built v -> built (fst (run p (Assign x) v))
| bt_push p x v : built x -> built v -> built (fst (run p (PushBack x) v))
| bt_erase_key p k v : built v -> built (fst (run p (EraseKey k) v))
| bt_erase_idx p i v : built v -> built (fst (run p (EraseIdx i) v))
| bt_clear p v : built v -> built (fst (run p Clear v))
| bt_get p v x : built v -> snd (run p Get v) = Ret (RVal x) -> built x
| bt_erase_it mem a it : built (mem a) -> built (fst (v_erase_it mem a it))
| bt_erase_range mem a it jt : built (mem a) -> built (fst (v_erase_range mem a it jt)).
