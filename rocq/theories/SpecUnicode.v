(** Independent specification of Unicode encodings (RFC 3629, RFC 2781).
    Nothing here refers to the model. *)
From Coq Require Import List NArith.
Import ListNotations.
Open Scope N_scope.

(** Unicode scalar values: code points that are not surrogates. *)
Definition scalar (cp : N) : Prop := cp < 55296 \/ (57344 <= cp /\ cp <= 1114111).

(** Continuation byte 10xxxxxx. *)
Definition cont (b : N) : Prop := 128 <= b /\ b <= 191.

(** RFC 3629, section 4: the byte-sequence table, with the code point each
    sequence denotes. *)
Inductive utf8_seq : N -> list N -> Prop :=
| u8_1 b : b <= 127 -> utf8_seq b [b]
| u8_2 a b : 194 <= a -> a <= 223 -> cont b ->
    utf8_seq ((a - 192) * 64 + (b - 128)) [a; b]
| u8_3_e0 b c : 160 <= b -> b <= 191 -> cont c ->
    utf8_seq ((b - 128) * 64 + (c - 128)) [224; b; c]
| u8_3 a b c : (225 <= a /\ a <= 236) \/ (238 <= a /\ a <= 239) -> cont b -> cont c ->
    utf8_seq ((a - 224) * 4096 + (b - 128) * 64 + (c - 128)) [a; b; c]
| u8_3_ed b c : 128 <= b -> b <= 159 -> cont c ->
    utf8_seq (53248 + (b - 128) * 64 + (c - 128)) [237; b; c]
| u8_4_f0 b c d : 144 <= b -> b <= 191 -> cont c -> cont d ->
    utf8_seq ((b - 128) * 4096 + (c - 128) * 64 + (d - 128)) [240; b; c; d]
| u8_4 a b c d : 241 <= a -> a <= 243 -> cont b -> cont c -> cont d ->
    utf8_seq ((a - 240) * 262144 + (b - 128) * 4096 + (c - 128) * 64 + (d - 128)) [a; b; c; d]
| u8_4_f4 b c d : 128 <= b -> b <= 143 -> cont c -> cont d ->
    utf8_seq (1048576 + (b - 128) * 4096 + (c - 128) * 64 + (d - 128)) [244; b; c; d].

(** Well-formed UTF-8 text and the code points it denotes. *)
Inductive utf8_text : list N -> list N -> Prop :=
| u8t_nil : utf8_text [] []
| u8t_cons cp bs cps s :
    utf8_seq cp bs -> utf8_text cps s -> utf8_text (cp :: cps) (bs ++ s).

(** UTF-16 (RFC 2781). *)
Inductive utf16_seq : N -> list N -> Prop :=
| u16_1 cp : scalar cp -> cp <= 65535 -> utf16_seq cp [cp]
| u16_2 hi lo : 55296 <= hi -> hi <= 56319 -> 56320 <= lo -> lo <= 57343 ->
    utf16_seq (65536 + (hi - 55296) * 1024 + (lo - 56320)) [hi; lo].

Inductive utf16_text : list N -> list N -> Prop :=
| u16t_nil : utf16_text [] []
| u16t_cons cp us cps s :
    utf16_seq cp us -> utf16_text cps s -> utf16_text (cp :: cps) (us ++ s).

(** Arithmetic definition of the unit sequences, for code points (surrogates
    included, as generalised UTF-8 does); None above U+10FFFF. *)
Definition units8 (cp : N) : option (list N) :=
  if cp <? 128 then Some [cp]
  else if cp <? 2048 then Some [192 + cp / 64; 128 + cp mod 64]
  else if cp <? 65536 then Some [224 + cp / 4096; 128 + cp / 64 mod 64; 128 + cp mod 64]
  else if cp <? 1114112 then
    Some [240 + cp / 262144; 128 + cp / 4096 mod 64; 128 + cp / 64 mod 64; 128 + cp mod 64]
  else None.

Definition units16 (cp : N) : option (list N) :=
  if cp <? 65536 then Some [cp]
  else if cp <? 1114112 then
    Some [55296 + (cp - 65536) / 1024; 56320 + (cp - 65536) mod 1024]
  else None.

Definition units32 (cp : N) : option (list N) :=
  if cp <? 1114112 then Some [cp] else None.

(** Number of bytes a first byte announces (RFC 3629 and, from F8 on, the
    obsolete RFC 2279; a stray continuation byte counts as one). *)
Definition announced (b : N) : nat :=
  (if b <? 192 then 1 else if b <? 224 then 2 else if b <? 240 then 3
  else if b <? 248 then 4 else if b <? 252 then 5 else 6)%nat.

