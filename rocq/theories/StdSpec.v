(** The values of the types of [Std.v], and which of them are portable. *)
From Verif Require Import Base Options Int Utf8 Types Std.
Local Open Scope N_scope.

Definition octet (n : N) (v : val) : Prop := exists b, v = VBytes b /\ bytes_ok b = true /\ lenN b = n.
Definition num (k : N) (v : val) : Prop := exists n, v = VN n /\ n < 2 ^ k.
Definition socket4_value (v : val) : Prop := exists a b, v = VList [a; b] /\ octet 4 a /\ num 16 b.
Definition socket6_value (v : val) : Prop :=
  exists a b c d, v = VList [a; b; c; d] /\ octet 16 a /\ num 16 b /\ num 32 c /\ num 32 d.

Definition std_value (p : plat) (s : std) (v : val) : Prop :=
  match s with
  | SIpv4 => octet 4 v
  | SIpv6 => octet 16 v
  | SIp => exists x, v = VVar 0 x /\ octet 4 x \/ v = VVar 1 x /\ octet 16 x
  | SSocketV4 => socket4_value v
  | SSocketV6 => socket6_value v
  | SSocket => exists x, v = VVar 0 x /\ socket4_value x \/ v = VVar 1 x /\ socket6_value x
  | SRange t => exists a b, v = VList [a; b] /\ has_type p t a = true /\ has_type p t b = true
  | SRangeOne t => exists a, v = VList [a] /\ has_type p t a = true
  | SRangeFull => v = VUnit
  | SResult t u => exists x, v = VVar 0 x /\ has_type p t x = true \/ v = VVar 1 x /\ has_type p u x = true
  (* the last byte, and no other one, is nul *)
  | SCStr => exists b, v = VBytes (b ++ [0]) /\ bytes_ok b = true /\ ~ In 0 b /\ lenN b + 1 < 2 ^ usize_bits p
  | SOsUnix => exists b, v = VBytes b /\ bytes_ok b = true /\ lenN b < 2 ^ usize_bits p
  | SOsWindows => exists ws, v = VList ws /\ Forall (num 16) ws /\ 2 * lenN ws < 2 ^ usize_bits p
  end.

(** What the contained types have to satisfy. *)
Definition parts (s : std) (P : ty -> Prop) : Prop :=
  match s with
  | SRange t | SRangeOne t => P t
  | SResult t u => P t /\ P u
  | _ => True
  end.
