(** UTF-8, as implemented by core::str::from_utf8 and char::encode_utf8 of the Rust
    standard library, which crates/musli/src/str.rs:1-60 calls ([simdutf8] is
    a faster implementation of the same predicate). The table is Unicode 15, table 3-7. *)
From Verif Require Import Base.
Local Open Scope N_scope.

Definition between (lo hi b : N) : bool := (lo <=? b) && (b <=? hi).

(** [is_digit], json/parser/integer.rs:550-552; [u8::is_ascii_digit] *)
Definition is_digit (b : N) : bool := between 48 57 b.

(** A continuation byte. *)
Definition cont (b : N) : bool := between 128 191 b.

(** Allowed second bytes of three- and four-byte sequences. *)
Definition second3 (b0 b1 : N) : bool :=
  if b0 =? 224 then between 160 191 b1
  else if b0 =? 237 then between 128 159 b1
  else cont b1.
Definition second4 (b0 b1 : N) : bool :=
  if b0 =? 240 then between 144 191 b1
  else if b0 =? 244 then between 128 143 b1
  else cont b1.

(** core::str::from_utf8: the byte string is valid UTF-8. *)
Fixpoint utf8_valid (bs : bytes) : bool :=
  match bs with
  | [] => true
  | b0 :: r0 =>
      if b0 <? 128 then utf8_valid r0
      else match r0 with
      | [] => false
      | b1 :: r1 =>
          if between 194 223 b0 then cont b1 && utf8_valid r1
          else match r1 with
          | [] => false
          | b2 :: r2 =>
              if between 224 239 b0 then second3 b0 b1 && cont b2 && utf8_valid r2
              else match r2 with
              | [] => false
              | b3 :: r3 =>
                  between 240 244 b0 && second4 b0 b1 && cont b2 && cont b3 && utf8_valid r3
              end
          end
      end
  end.

(** char::from_u32: a Unicode scalar value. *)
Definition char_valid (c : N) : bool :=
  (c <? 0x110000) && negb (between 0xD800 0xDFFF c).

(** char::encode_utf8 *)
Definition utf8_enc (c : N) : bytes :=
  if c <? 0x80 then [c]
  else if c <? 0x800 then [192 + c / 64; 128 + c mod 64]
  else if c <? 0x10000 then [224 + c / 4096; 128 + c / 64 mod 64; 128 + c mod 64]
  else [240 + c / 262144; 128 + c / 4096 mod 64; 128 + c / 64 mod 64; 128 + c mod 64].
