(** The options of parse and dump, and the default encoding of basic_json. *)
From Verif Require Import Base Stream Encoding Value Parser FloatFmt Serializer.

(** json.hpp:114-141; with_error_handler(nullptr) is [POnError HNone] *)
Inductive popt :=
| POnError (h : handler)
| PEnc (e : enc)
| PSrcEnc (e : enc)
| PTgtEnc (e : enc).

Definition apply_popt (p : pcfg * handler) (o : popt) : pcfg * handler :=
  let '(cf, h) := p in
  match o with
  | POnError h => (cf, h)
  | PEnc e => (mkCfg (src_ck cf) e (tgt_ck cf) e (ndebug cf), h)
  | PSrcEnc e => (mkCfg (src_ck cf) e (tgt_ck cf) (tgt_enc cf) (ndebug cf), h)
  | PTgtEnc e => (mkCfg (src_ck cf) (src_enc cf) (tgt_ck cf) e (ndebug cf), h)
  end.

(** details/parser.hpp:45-50 and 246-249 with json.hpp:152-155.  [dflt] is the
    _DefaultEncoding of basic_json (json.hpp:40; for json and wjson auto_utf),
    at the character type it is used with *)
Definition parser_of (dflt : ckind -> enc) (sck vck : ckind) (nd : bool) (opts : list popt) : pcfg * handler :=
  fold_left apply_popt opts (mkCfg sck (dflt sck) vck (dflt vck) nd, HNone).

(** parse(c, str, options), details/parser.hpp:263-270 *)
Definition parse_opts (dflt : ckind -> enc) (sck vck : ckind) (nd : bool) (opts : list popt) (c : value) (s : str)
  : value * (outcome unit * string) :=
  let '(cf, h) := parser_of dflt sck vck nd opts in parse_into cf h c s.

(** json.hpp:666-714 *)
Inductive dopt :=
| DOnError (h : handler)
| DOpt (o : sopt).

Definition apply_dopt (p : scfg * handler) (o : dopt) : scfg * handler :=
  let '(cf, h) := p in
  match o with
  | DOnError h => (cf, h)
  | DOpt o => (apply_opt cf o, h)
  end.

(** json.hpp:716-736 and details/serializer.hpp:47-55, 226-229 *)
Definition serializer_of (dflt : ckind -> enc) (vck ock : ckind) (f : osfmt) (opts : list dopt) : scfg * handler :=
  let '(cf, h) := fold_left apply_dopt opts
    (mkSc vck (dflt vck) ock (dflt ock) (0 <? f_width f)%Z (Z.to_N (f_width f mod 256)) (f_fill f) false (f_prec f) (f_ff f), HNone) in
  (prepare cf [], h).

(** dump(str, v, options), details/serializer.hpp:235-242: what is appended to
    the string, the outcome, the recorded message *)
Definition dump_opts (dflt : ckind -> enc) (vck ock : ckind) (opts : list dopt) (v : value) : list N * (outcome unit * string) :=
  let '(cf, h) := serializer_of dflt vck ock fmt_default opts in dump_to cf h (mkOs [] false) v.
