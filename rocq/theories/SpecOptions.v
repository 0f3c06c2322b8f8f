(** Options: the last one that says something about a setting decides. *)
From Verif Require Import Base Encoding Parser FloatFmt Serializer Options.

Inductive decided {O A} (says : O -> option A) (default : A) : list O -> A -> Prop :=
| de_default opts : Forall (fun o => says o = None) opts -> decided says default opts default
| de_last before o after x : says o = Some x -> Forall (fun o => says o = None) after ->
    decided says default (before ++ o :: after) x.

(** about the parser *)
Definition p_source (o : popt) : option enc := match o with PEnc e | PSrcEnc e => Some e | _ => None end.
Definition p_target (o : popt) : option enc := match o with PEnc e | PTgtEnc e => Some e | _ => None end.
Definition p_handler (o : popt) : option handler := match o with POnError h => Some h | _ => None end.

(** about the serializer: pretty?, step, character of the indentation *)
Definition d_source (o : dopt) : option enc := match o with DOpt (OEnc e) | DOpt (OSrcEnc e) => Some e | _ => None end.
Definition d_target (o : dopt) : option enc := match o with DOpt (OEnc e) | DOpt (OTgtEnc e) => Some e | _ => None end.
Definition d_handler (o : dopt) : option handler := match o with DOnError h => Some h | _ => None end.
Definition d_indent (o : dopt) : option (bool * N * N) :=
  match o with DOpt (OIndent step ch) => Some (negb (step =? 0)%N, step, ch) | _ => None end.
Definition d_escape (o : dopt) : option bool := match o with DOpt (OEscape b) => Some b | _ => None end.
Definition d_float (o : dopt) : option (Z * ffield) := match o with DOpt (OPrecision p f) => Some (p, f) | _ => None end.
