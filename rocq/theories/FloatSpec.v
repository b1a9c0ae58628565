(** What the theorems about floating point numbers say, in terms of rational numbers: the IEEE 754 binary formats,
    rounding to the nearest number with ties to even, and the number that a decimal text denotes. *)
From Verif Require Import Base JsonNumSpec.
From Coq Require Import QArith.
Local Open Scope N_scope.

(** A binary interchange format: the bits of the fraction and of the exponent. *)
Record binary := { mbits : N; ebits : N }.
Definition binary32 : binary := {| mbits := 23; ebits := 8 |}.
Definition binary64 : binary := {| mbits := 52; ebits := 11 |}.

Definition bias (B : binary) : Z := (2 ^ (Z.of_N (ebits B) - 1) - 1)%Z.

(** The least positive number *)
Definition least (B : binary) : Q := (2 ^ (1 - bias B - Z.of_N (mbits B)))%Q.

(** The number with the bits [b], sign bit not set, as a multiple of the least one: a subnormal number has exponent 0
    and no hidden bit, the others have the hidden bit [2 ^ mbits]. *)
Definition units (B : binary) (b : N) : N :=
  if b <? 2 ^ mbits B then b else (2 ^ mbits B + b mod 2 ^ mbits B) * 2 ^ (b / 2 ^ mbits B - 1).
Definition float_value (B : binary) (b : N) : Q := (inject_Z (Z.of_N (units B b)) * least B)%Q.

(** The bits of infinity. [float_value] of it is the power of two after the largest number, as IEEE 754 wants for
    rounding. *)
Definition infinity (B : binary) : N := (2 ^ ebits B - 1) * 2 ^ mbits B.

(** The point between a number and the next one *)
Definition midpoint (B : binary) (b : N) : Q := ((float_value B b + float_value B (b + 1)) / 2)%Q.

(** [b] are the bits of the number that is nearest to [x], which is not negative; of the two that are if [x] is in the middle of
    them it is the even one. *)
Definition rounds_to (B : binary) (x : Q) (b : N) : Prop :=
  b <= infinity B /\
  (0 < b -> (midpoint B (b - 1) < x)%Q \/ (midpoint B (b - 1) == x)%Q /\ N.even b = true) /\
  (b < infinity B -> (x < midpoint B b)%Q \/ (x == midpoint B b)%Q /\ N.even b = true).

(** The number that the digits [ds.fs] and the exponent [e] denote. *)
Definition decimal_value (ds fs : bytes) (e : Z) : Q :=
  (inject_Z (Z.of_N (JsonNumSpec.value (ds ++ fs))) * 10 ^ (e - Z.of_nat (length fs)))%Q.
