(** The texts of floating point numbers. *)
From Verif Require Import Base JsonNumSpec FloatSpec.
From Coq Require Import QArith.
Local Open Scope N_scope.

(** A number [ds.fs * 10 ^ e] that need not follow JSON's grammar: there may be leading zeros, and digits on only one side of the
    point. *)
Definition loose (ds fs : bytes) (e : Z) (s : bytes) : Prop :=
  exists sf se, Forall digit ds /\ frac true fs sf /\ ds ++ fs <> [] /\ expo false e se /\ s = ds ++ sf ++ se.

(** The bits of a number with its sign *)
Definition signed (B : binary) (neg : bool) (b : N) : N := if neg then 2 ^ (ebits B + mbits B) + b else b.

(** The exponent or the number of digits is not enormous. *)
Definition moderate (ds fs : bytes) (e : Z) : Prop := (Z.abs e < 655360)%Z \/ (Z.of_nat (length (ds ++ fs)) <= 65000)%Z.

(** The words "inf", "nan" and "infinity", in letters of any case, and the bits that they stand for. *)
Definition same_letter (a c : N) : bool := (c =? a) || (c =? a - 32).
Fixpoint is_word (w s : bytes) : bool :=
  match w, s with
  | [], [] => true
  | a :: w', c :: s' => same_letter a c && is_word w' s'
  | _, _ => false
  end.
Definition special (B : binary) (s : bytes) (b : N) : Prop :=
  (is_word [105; 110; 102] s = true \/ is_word [105; 110; 102; 105; 110; 105; 116; 121] s = true) /\ b = infinity B \/
  is_word [110; 97; 110] s = true /\ b = infinity B + 2 ^ (mbits B - 1).
