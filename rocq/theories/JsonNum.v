(** Model of the full number syntax of crates/musli/src/json/parser/integer.rs: integers with
    a fraction and an exponent, which the [parse-full] feature reads for integer types and
    [parse_number] reads for [decode_any].

    Simplification: the exponent of the mantissa is not bounded. It is an [i32] in the code, which
    overflows after 2^31 digits of a fraction. *)
From Verif Require Import Base Options Int Utf8 Types Json.
Local Open Scope N_scope.

(** [Parts] and [Mantissa], json/parser/integer.rs:96-102, 143-151 *)
Record parts := { pt_base : N; pt_m : N; pt_exp : N; pt_e : Z }.

(** [decode_zeros], json/parser/integer.rs:532-546 *)
Fixpoint zeros (bs : bytes) : N * bytes :=
  match bs with
  | b :: r => if b =? 48 then let (n, r') := zeros r in (n + 1, r') else (0, bs)
  | [] => (0, [])
  end.

(** [checked_pow10], json/parser/integer.rs:653-665, and [checked_pow]: the power itself must fit.
    The table POWS holds the powers of ten. A power of [tb] or more does not fit; it is not
    computed. *)
Definition pow10 (tb x e : N) : option N :=
  if tb <=? e then None
  else if 2 ^ tb <=? 10 ^ e then None
  else if 2 ^ tb <=? x * 10 ^ e then None
  else Some (x * 10 ^ e).

(** [checked_neg_pow10], json/parser/integer.rs:668-677 *)
Definition neg_pow10 (tb x e : N) : option N :=
  match pow10 tb 1 e with
  | Some d => if x mod d =? 0 then Some (x / d) else None
  | None => None
  end.

(** The digits of the fraction after its leading zeros, json/parser/integer.rs:453-471. [zs]: the
    zeros since the last other digit, which the code counts in one go after each digit. *)
Fixpoint fraction (oc : bool) (tb zs m ex : N) (bs : bytes) : res (N * N * bytes) :=
  match bs with
  | b :: r =>
      if b =? 48 then fraction oc tb (zs + 1) m ex r
      else if is_digit b then
        match (if zs =? 0 then Some m else pow10 tb m zs) with
        | None => Err
        | Some m1 =>
            if 2 ^ tb <=? m1 * 10 then Err
            else
              let s := m1 * 10 + (b - 48) in
              if 2 ^ tb <=? s then
                if oc then Panic else fraction oc tb 0 (s mod 2 ^ tb) (ex + zs + 1) r
              else fraction oc tb 0 s (ex + zs + 1) r
        end
      else Ok (m, ex, bs)
  | [] => Ok (m, ex, [])
  end.

(** [decode_exponent], json/parser/integer.rs:486-514 *)
Definition exponent (oc : bool) (bs : bytes) : res (Z * bytes) :=
  let (neg, r) := match bs with
                  | b :: r => if b =? 45 then (true, r) else if b =? 43 then (false, r) else (false, bs)
                  | [] => (false, bs)
                  end in
  let* (n, r') := digits oc 32 0 r in
  let* z := if neg : bool then negate 32 n else signed 32 n in
  Ok (z, r').

(** [decode_unsigned_full], json/parser/integer.rs:432-482: the mantissa with its exponent, 446-472, the
    exponent, 474-479, and both *)
Definition full_frac (oc : bool) (tb : N) (r : bytes) : res (N * N * bytes) :=
  match r with
  | b :: r' => if b =? 46 then let (z, r0) := zeros r' in fraction oc tb 0 0 z r0
               else Ok ((0, 0), r)
  | [] => Ok ((0, 0), r)
  end.

Definition full_exp (oc : bool) (r : bytes) : res (Z * bytes) :=
  match r with
  | b :: r' => if (b =? 101) || (b =? 69) then exponent oc r' else Ok (0%Z, r)
  | [] => Ok (0%Z, r)
  end.

Definition unsigned_full (oc : bool) (tb : N) (bs : bytes) : res (parts * bytes) :=
  let* (base, r) := unsigned_base oc tb bs in
  let* (mx, r1) := full_frac oc tb r in
  let* (e, r2) := full_exp oc r1 in
  Ok ({| pt_base := base; pt_m := fst mx; pt_exp := snd mx; pt_e := e |}, r2).

(** [Parts::compute], json/parser/integer.rs:158-201. [-e] overflows for the least [i32]. *)
Definition compute (oc : bool) (tb : N) (q : parts) : res N :=
  let of_opt (x : option N) := match x with Some n => Ok n | None => Err end in
  if (pt_e q =? 0)%Z then (if pt_m q =? 0 then Ok (pt_base q) else Err)
  else if (0 <=? pt_e q)%Z then
    let d := (pt_e q - Z.of_N (pt_exp q))%Z in
    if (d <? 0)%Z then Err
    else
      let* b := if pt_base q =? 0 then Ok 0 else of_opt (pow10 tb (pt_base q) (Z.to_N (pt_e q))) in
      let* m := of_opt (pow10 tb (pt_m q) (Z.to_N d)) in
      if 2 ^ tb <=? b + m then Err else Ok (b + m)
  else if negb (pt_m q =? 0) then Err
  else if (pt_e q =? - 2 ^ 31)%Z && oc then Panic
  else of_opt (neg_pow10 tb (pt_base q) (Z.to_N (- pt_e q))).

(** [parse_unsigned_full], json/parser/integer.rs:282-297 *)
Definition parse_unsigned_full (oc : bool) (tb : N) (bs : bytes) : res (N * bytes) :=
  let* (q, r) := unsigned_full oc tb (skip_ws bs) in
  let* n := compute oc tb q in Ok (n, r).

(** [decode_signed_full_inner], json/parser/integer.rs:340-361 *)
Definition signed_full (oc : bool) (tb : N) (bs : bytes) : res (bool * parts * bytes) :=
  match bs with
  | b :: r => if b =? 45 then let* (q, r') := unsigned_full oc tb r in Ok (true, q, r')
              else let* (q, r') := unsigned_full oc tb bs in Ok (false, q, r')
  | [] => Err
  end.

(** [SignedPartsFull::compute], json/parser/integer.rs:59-76 *)
Definition signed_compute (oc : bool) (tb : N) (neg : bool) (q : parts) : res Z :=
  let* n := compute oc tb q in if neg then negate tb n else signed tb n.

(** [parse_signed_full], json/parser/integer.rs:385-399 *)
Definition parse_signed_full (oc : bool) (tb : N) (bs : bytes) : res (Z * bytes) :=
  let* (nq, r) := signed_full oc tb (skip_ws bs) in
  let* z := signed_compute oc tb (fst nq) (snd nq) in Ok (z, r).
