(** Specifications for the integer encodings, independent of the model's code. *)
From Verif Require Import Base Options.
Local Open Scope N_scope.

(** Split off one variable-length integer: bytes up to and including the first
    one below 128. *)
Fixpoint leb_split (bs : bytes) : option (bytes * bytes) :=
  match bs with
  | [] => None
  | b :: r =>
      if b <? 128 then Some ([b], r)
      else match leb_split r with
           | Some (h, t) => Some (b :: h, t)
           | None => None
           end
  end.

(** The number a sequence of 7-bit groups denotes, least significant first. *)
Fixpoint leb_value (bs : bytes) : N :=
  match bs with
  | [] => 0
  | b :: r => b mod 128 + 128 * leb_value r
  end.

(** The number denoted by bytes in a byte order. *)
Fixpoint number_le (bs : bytes) : N :=
  match bs with
  | [] => 0
  | b :: r => b + 256 * number_le r
  end.
Definition number (bo : ByteOrder) (bs : bytes) : N :=
  match bo with Little => number_le bs | Big => number_le (rev bs) end.

(** Range of a signed integer of [tb] bits. *)
Definition signed_range (tb : N) (z : Z) : Prop :=
  (- 2 ^ (Z.of_N tb - 1) <= z < 2 ^ (Z.of_N tb - 1))%Z.
