(** The decimal text of numbers: what the crates itoa and ryu write, which the JSON encoder uses. These
    crates are not part of the repository; json/en/mod.rs:104-195 calls them. Integers are modelled digit by digit. For floating point numbers the result that
    ryu documents is modelled, not its algorithm: the shortest decimal number
    that rounds to the given one, the nearest of those, in the layout of its function [format64]. *)
From Verif Require Import Base FloatSpec FloatTextSpec Dec2flt.
Local Open Scope N_scope.

(** [itoa::Buffer::format] *)
Fixpoint dec_go (fuel : nat) (n : N) (acc : bytes) : bytes :=
  match fuel with
  | O => acc
  | S f =>
      if n <? 10 then (48 + n) :: acc
      else dec_go f (n / 10) ((48 + n mod 10) :: acc)
  end.
Definition itoa (n : N) : bytes := dec_go (S (N.size_nat n)) n [].
Definition itoa_z (z : Z) : bytes :=
  match z with
  | Z0 => [48]
  | Zpos q => itoa (Npos q)
  | Zneg q => 45 :: itoa (Npos q)
  end.

(** [m * 10 ^ k] rounds to [b]. *)
Definition rounds_back (B : binary) (b m : N) (k : Z) : bool :=
  rnd B (m * 10 ^ Z.to_N k) (10 ^ Z.to_N (- k)) =? b.

(** The nearest multiples of [10 ^ k], the largest [k] for which one of them rounds to [b]. For
    the last [k], which is the exponent of the least positive number, the multiple is the number itself. *)
Fixpoint shortest (fuel : nat) (B : binary) (b : N) (k : Z) : N * Z :=
  let num := units B b * 10 ^ Z.to_N (- k) in
  let den := 2 ^ Z.to_N (bias B - 1 + Z.of_N (mbits B)) * 10 ^ Z.to_N k in
  let m := num / den in
  match fuel with
  | O => (m, k)
  | S f =>
      let (m1, m2) := if 2 * (num mod den) <? den then (m, m + 1) else (m + 1, m) in
      if rounds_back B b m1 k then (m1, k)
      else if rounds_back B b m2 k then (m2, k)
      else shortest f B b (k - 1)
  end.
Definition ryu_digits (F : raw_float) (b : N) : N * Z :=
  shortest (Z.to_nat (r_large F + (bias (r_bin F) - 1 + Z.of_N (meb F)))) (r_bin F) b (r_large F).

(** [m * 10 ^ k]: ryu/pretty/mod.rs, [format64] with [hi = 16], [lo = -5] and [format32] with 13 and -6 *)
Definition zeros (n : Z) : bytes := repeat 48 (Z.to_nat n).
Definition layout (hi lo : Z) (m : N) (k : Z) : bytes :=
  let ds := itoa m in
  let kk := (Z.of_nat (length ds) + k)%Z in
  if ((0 <=? k) && (kk <=? hi))%Z then ds ++ zeros k ++ [46; 48]
  else if ((0 <? kk) && (kk <=? hi))%Z then firstn (Z.to_nat kk) ds ++ 46 :: skipn (Z.to_nat kk) ds
  else if ((lo <? kk) && (kk <=? 0))%Z then [48; 46] ++ zeros (- kk) ++ ds
  else
    let e := 101 :: itoa_z (kk - 1) in
    match ds with
    | [d] => d :: e
    | d :: ds' => d :: 46 :: ds' ++ e
    | [] => e
    end.

(** [ryu::Buffer::format] *)
Definition float_text (F : raw_float) (hi lo : Z) (x : N) : bytes :=
  let B := r_bin F in
  let b := x mod 2 ^ (ebits B + mbits B) in
  let s := if 2 ^ (ebits B + mbits B) <=? x then [45] else [] in
  if infinity B <? b then [78; 97; 78]
  else if b =? infinity B then s ++ [105; 110; 102]
  else if b =? 0 then s ++ [48; 46; 48]
  else let (m, k) := ryu_digits F b in s ++ layout hi lo m k.
Definition text_f32 : N -> bytes := float_text F32 13 (-6).
Definition text_f64 : N -> bytes := float_text F64 16 (-5).
