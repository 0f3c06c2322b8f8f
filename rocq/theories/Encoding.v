(** details/encoding.hpp, function by function. *)
From Verif Require Import Base Stream.

(** encoding.hpp:47-50 *)
Definition is_lead_surrogate (cp : N) : bool := (55296 <=? cp) && (cp <=? 56319).
(** encoding.hpp:52-55 *)
Definition is_trail_surrogate (cp : N) : bool := (56320 <=? cp) && (cp <=? 57343).

(** encoding.hpp:57-63 (uint32_t arithmetic) *)
Definition decode_surrogates (lead trail : N) : N :=
  let cp := u32 (N.shiftl (u32_sub lead 55296) 10) in
  let cp := u32 (cp + u32_sub trail 56320) in
  u32 (cp + 65536).

(** encoding.hpp:65-71 *)
Definition encode_surrogates (cp : N) : N * N :=
  let cp := u32_sub cp 65536 in
  (u16 (55296 + N.shiftr cp 10), u16 (56320 + N.land cp 1023)).

(** The encoding class templates: ignore, utf8, utf16, utf32
    (encoding.hpp:81-304).  auto_utf (307-355) is [auto_enc]. *)
Inductive enc := Ignore | Utf8 | Utf16 | Utf32.

Definition auto_enc (ck : ckind) : enc :=
  match ck with C8 => Utf8 | C16 => Utf16 | C32 => Utf32 end.

(** The static_asserts at encoding.hpp:220 and 280. *)
Definition enc_ok (e : enc) (ck : ckind) : bool :=
  match e, ck with
  | Utf16, C8 => false
  | Utf32, C8 => false
  | Utf32, C16 => false
  | _, _ => true
  end.

(** encoding.hpp:89-92 *)
Definition ignore_encode (ck : ckind) (o : ostream) (cp : N) : ostream :=
  os_put ck o (narrow ck cp).

(** encoding.hpp:94-98: get() narrowed to char_type and converted to
    uint32_t, which sign-extends a (signed) char. *)
Definition ignore_decode (ck : ckind) (i : istream) : bool * N * istream :=
  let '(c, i') := is_get ck i in
  let u := narrow ck (z_u32 c) in
  (negb (is_eof i'), z_u32 (int_of_char ck u), i').

(** encoding.hpp:111-148 *)
Definition utf8_encode (ck : ckind) (o : ostream) (cp : N) : ostream :=
  if cp <? 128 then os_put ck o (narrow ck cp)
  else if cp <=? 2047 then
    let o := os_put ck o (narrow ck (N.lor 192 (N.shiftr cp 6))) in
    os_put ck o (narrow ck (N.lor 128 (N.land cp 63)))
  else if cp <=? 65535 then
    let o := os_put ck o (narrow ck (N.lor 224 (N.shiftr cp 12))) in
    let o := os_put ck o (narrow ck (N.lor 128 (N.land (N.shiftr cp 6) 63))) in
    os_put ck o (narrow ck (N.lor 128 (N.land cp 63)))
  else if cp <=? 1114111 then
    let o := os_put ck o (narrow ck (N.lor 240 (N.shiftr cp 18))) in
    let o := os_put ck o (narrow ck (N.lor 128 (N.land (N.shiftr cp 12) 63))) in
    let o := os_put ck o (narrow ck (N.lor 128 (N.land (N.shiftr cp 6) 63))) in
    os_put ck o (narrow ck (N.lor 128 (N.land cp 63)))
  else os_setfail o.

(** encoding.hpp:157-166, the 256-entry table utf8_extra_bytes. *)
Definition utf8_extra_bytes (b : N) : nat :=
  if b <? 192 then 0%nat
  else if b <? 224 then 1%nat
  else if b <? 240 then 2%nat
  else if b <? 248 then 3%nat
  else if b <? 252 then 4%nat
  else 5%nat.

(** encoding.hpp:168-170, utf8_offsets. *)
Definition utf8_offset (extra : nat) : N :=
  match extra with
  | 0%nat => 0
  | 1%nat => 12416
  | 2%nat => 925824
  | 3%nat => 63447168
  | 4%nat => 4194836608
  | _ => 2181570688
  end.

(** encoding.hpp:182-201: the fall-through switch reads extra+1 bytes. *)
Fixpoint utf8_read (ck : ckind) (extra : nat) (cp : N) (i : istream) : N * istream :=
  let '(c, i) := is_get ck i in
  let cp := u32 (cp + z_u8 c) in
  match extra with
  | O => (cp, i)
  | S e => utf8_read ck e (u32 (N.shiftl cp 6)) i
  end.

(** encoding.hpp:150-208.  [cur] is the previous content of the output
    parameter, untouched at end of input. *)
Definition utf8_decode (ck : ckind) (i : istream) (cur : N) : bool * N * istream :=
  let '(c, i) := is_peek ck i in
  let first := z_u8 c in
  if is_eof i then (false, cur, i)
  else
    let extra := utf8_extra_bytes first in
    let '(cp, i) := utf8_read ck extra 0 i in
    let cp := u32_sub cp (utf8_offset extra) in
    (true, cp, if 1114111 <? cp then set_fail i else i).

(** encoding.hpp:222-239 *)
Definition utf16_encode (ck : ckind) (o : ostream) (cp : N) : ostream :=
  if cp <=? 65535 then os_put ck o (narrow ck cp)
  else if cp <=? 1114111 then
    let '(lead, trail) := encode_surrogates cp in
    os_put ck (os_put ck o (narrow ck lead)) (narrow ck trail)
  else os_setfail o.

(** encoding.hpp:241-268 *)
Definition utf16_decode (ck : ckind) (i : istream) : bool * N * istream :=
  let '(c, i) := is_get ck i in
  let cp := z_u16 c in
  if is_eof i then (false, cp, i)
  else
    let '(cp, i) :=
      if is_lead_surrogate cp then
        let '(c2, i) := is_get ck i in
        let trail := z_u16 c2 in
        if is_trail_surrogate trail then (decode_surrogates cp trail, i)
        else (cp, set_fail i)
      else (cp, i) in
    (true, cp, if 1114111 <? cp then set_fail i else i).

(** encoding.hpp:282-289: the put after setstate(failbit) does nothing. *)
Definition utf32_encode (ck : ckind) (o : ostream) (cp : N) : ostream :=
  os_put ck (if 1114111 <? cp then os_setfail o else o) (narrow ck cp).

(** encoding.hpp:291-303 *)
Definition utf32_decode (ck : ckind) (i : istream) : bool * N * istream :=
  let '(c, i) := is_get ck i in
  let cp := z_u32 c in
  if is_eof i then (false, cp, i)
  else (true, cp, if 1114111 <? cp then set_fail i else i).

(** encoder / decoder function pointers (encoding.hpp:75-79). *)
Definition encode (e : enc) (ck : ckind) (o : ostream) (cp : N) : ostream :=
  match e with
  | Ignore => ignore_encode ck o cp
  | Utf8 => utf8_encode ck o cp
  | Utf16 => utf16_encode ck o cp
  | Utf32 => utf32_encode ck o cp
  end.

Definition decode (e : enc) (ck : ckind) (i : istream) (cur : N) : bool * N * istream :=
  match e with
  | Ignore => ignore_decode ck i
  | Utf8 => utf8_decode ck i cur
  | Utf16 => utf16_decode ck i
  | Utf32 => utf32_decode ck i
  end.
