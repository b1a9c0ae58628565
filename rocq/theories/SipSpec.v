(** SipHash-1-3 with 128 bits of output, as its authors define it (Aumasson and
    Bernstein, "SipHash: a fast short-input PRF", and the reference code's
    128-bit mode), on a whole message. *)
From Verif Require Import Base Int.
Local Open Scope N_scope.

Definition add (a b : N) : N := (a + b) mod 2 ^ 64.
Definition rotl (x r : N) : N := N.lor (N.shiftl x r mod 2 ^ 64) (N.shiftr x (64 - r)).

Definition sipround (s : N * N * N * N) : N * N * N * N :=
  let '(a, b, c, d) := s in
  let a := add a b in let c := add c d in
  let b := rotl b 13 in let d := rotl d 16 in
  let b := N.lxor b a in let d := N.lxor d c in
  let a := rotl a 32 in
  let c := add c b in let a := add a d in
  let b := rotl b 17 in let d := rotl d 21 in
  let b := N.lxor b c in let d := N.lxor d a in
  let c := rotl c 32 in
  (a, b, c, d).

(** One compression round per word. *)
Definition absorb_word (s : N * N * N * N) (m : N) : N * N * N * N :=
  let '(a, b, c, d) := s in
  let '(a, b, c, d) := sipround (a, b, c, N.lxor d m) in
  (N.lxor a m, b, c, d).

(** All full words of the message; what remains. *)
Fixpoint absorb (s : N * N * N * N) (m : bytes) : (N * N * N * N) * bytes :=
  match m with
  | a :: b :: c :: d :: e :: f :: g :: h :: r => absorb (absorb_word s (of_le [a; b; c; d; e; f; g; h])) r
  | _ => (s, m)
  end.

Definition out (s : N * N * N * N) : N :=
  let '(a, b, c, d) := s in N.lxor (N.lxor (N.lxor a b) c) d.

Definition siphash13_128 (k0 k1 : N) (m : bytes) : N * N :=
  let init := (N.lxor k0 0x736f6d6570736575, N.lxor (N.lxor k1 0x646f72616e646f6d) 0xee,
               N.lxor k0 0x6c7967656e657261, N.lxor k1 0x7465646279746573) in
  let (s, rest) := absorb init m in
  let '(a, b, c, d) := absorb_word s (of_le rest + 2 ^ 56 * (lenN m mod 256)) in
  let s := sipround (sipround (sipround (a, b, N.lxor c 0xee, d))) in
  let h1 := out s in
  let '(a, b, c, d) := s in
  let s := sipround (sipround (sipround (a, N.lxor b 0xdd, c, d))) in
  (h1, out s).
