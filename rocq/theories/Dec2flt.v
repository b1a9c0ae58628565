(** Model of crates/musli/src/dec2flt: the conversion of decimal text to binary floating point numbers that the JSON
    parser uses for [f32] and [f64].

    Floating point numbers are their bits. Arithmetic that would overflow, and indexes out of bounds, are
    [Panic], whatever the build does in this case. Simplifications: lengths of the input are not bounded (the code stores some of
    them in [i32] and [isize]); the array of digits of a [Decimal] is a list that holds [num_digits] digits, which is
    all that the code reads of it; on x86 without SSE2 the precision of the FPU is taken to be set as [fpu.rs] wants. *)
From Verif Require Import Base Utf8 FloatSpec Dec2fltTable.
Local Open Scope N_scope.

(** ** Formats *)

(** The constants of the trait [RawFloat], dec2flt/float.rs:14-81 *)
Record raw_float := {
  r_bin : binary;                    (* MANTISSA_EXPLICIT_BITS, and the number of bits of the exponent *)
  r_min_even : Z; r_max_even : Z;    (* MIN_EXPONENT_ROUND_TO_EVEN, MAX_EXPONENT_ROUND_TO_EVEN *)
  r_min_fast : Z; r_max_fast : Z;    (* MIN_EXPONENT_FAST_PATH, MAX_EXPONENT_FAST_PATH *)
  r_max_disg : Z;                    (* MAX_EXPONENT_DISGUISED_FAST_PATH *)
  r_min_exp : Z;                     (* MINIMUM_EXPONENT *)
  r_inf : Z;                         (* INFINITE_POWER *)
  r_small : Z; r_large : Z;          (* SMALLEST_POWER_OF_TEN, LARGEST_POWER_OF_TEN *)
  r_pows : N; r_pow_max : N          (* the length of the table of powers of ten and its last entry that is not zero *)
}.
Definition meb (F : raw_float) : N := mbits (r_bin F).

(** dec2flt/float.rs:103-159 *)
Definition F32 : raw_float := {|
  r_bin := binary32; r_min_even := -17; r_max_even := 10; r_min_fast := -10; r_max_fast := 10; r_max_disg := 17;
  r_min_exp := -127; r_inf := 255; r_small := -65; r_large := 38; r_pows := 16; r_pow_max := 10 |}.
(** dec2flt/float.rs:160-213 *)
Definition F64 : raw_float := {|
  r_bin := binary64; r_min_even := -4; r_max_even := 23; r_min_fast := -22; r_max_fast := 22; r_max_disg := 37;
  r_min_exp := -1023; r_inf := 2047; r_small := -342; r_large := 308; r_pows := 32; r_pow_max := 22 |}.

Definition u64 (n : N) : res N := if n <? 2 ^ 64 then Ok n else Panic.

(** ** IEEE 754 operations *)

(** [num / den] rounded to nearest, ties to even: what the hardware does. [C72_rnd] shows that it is [rounds_to]. *)
Definition rnd (B : binary) (num den : N) : N :=
  let x := 2 * num * 2 ^ Z.to_N (bias B - 1 + Z.of_N (mbits B)) in
  let q := x / den in
  let s := if q <? 2 ^ (mbits B + 2) then 0 else N.log2 q - (mbits B + 1) in
  let m := q / 2 ^ s in
  let exact := (x mod den =? 0) && (q mod 2 ^ s =? 0) in
  let r := if exact && (m mod 4 =? 1) then m / 2 else (m + 1) / 2 in
  N.min (s * 2 ^ mbits B + r) (infinity B).

(** [v as f64], [a * b], [a / b]. The operands are finite, the divisor is not zero. *)
Definition from_u64 (B : binary) (v : N) : N := rnd B v 1.
Definition fmul (B : binary) (a b : N) : N :=
  rnd B (units B a * units B b) (2 ^ (2 * Z.to_N (bias B - 1 + Z.of_N (mbits B)))).
Definition fdiv (B : binary) (a b : N) : N := rnd B (units B a) (units B b).

(** ** Parsing *)

(** dec2flt/common.rs:60-64 *)
Definition is_8digits (v : N) : bool :=
  let a := (v + 0x4646464646464646) mod 2 ^ 64 in
  let b := (v + (2 ^ 64 - 0x3030303030303030)) mod 2 ^ 64 in
  N.land (N.lor a b) 0x8080808080808080 =? 0.

(** dec2flt/parse.rs:17-26 *)
Definition parse_8digits (v : N) : N :=
  let mask := 0x000000FF000000FF in
  let v := v - 0x3030303030303030 in
  let v := v * 10 + v / 2 ^ 8 in
  let v1 := (N.land v mask * 0x000F424000000064) mod 2 ^ 64 in
  let v2 := (N.land (v / 2 ^ 16) mask * 0x0000271000000001) mod 2 ^ 64 in
  ((v1 + v2) mod 2 ^ 64 / 2 ^ 32) mod 2 ^ 32.

(** [read_u64], dec2flt/common.rs:22-26. Bytes are less than 256 anyway. *)
Fixpoint le (bs : bytes) : N := match bs with b :: r => N.min b 255 + 256 * le r | [] => 0 end.

(** [try_parse_digits], dec2flt/parse.rs:29-47: eight digits at a time, then one *)
Fixpoint eights (s : bytes) (x : N) : bytes * N :=
  match s with
  | b0 :: b1 :: b2 :: b3 :: b4 :: b5 :: b6 :: b7 :: r =>
      let v := le [b0; b1; b2; b3; b4; b5; b6; b7] in
      if is_8digits v then eights r ((x * 100000000 + parse_8digits v) mod 2 ^ 64) else (s, x)
  | _ => (s, x)
  end.
Fixpoint ones (s : bytes) (x : N) : bytes * N :=
  match s with
  | c :: r => if is_digit c then ones r ((x * 10 + (c - 48)) mod 2 ^ 64) else (s, x)
  | [] => (s, x)
  end.
Definition try_parse_digits (s : bytes) (x : N) : bytes * N := let (s1, x1) := eights s x in ones s1 x1.

(** [try_parse_19digits], dec2flt/parse.rs:50-71 *)
Fixpoint try_parse_19digits (s : bytes) (x : N) : bytes * N :=
  match s with
  | c :: r => if (x <? 10 ^ 18) && is_digit c then try_parse_19digits r (x * 10 + (c - 48)) else (s, x)
  | [] => (s, x)
  end.

(** [parse_digits], dec2flt/common.rs:39-56: the digits at the front *)
Fixpoint span_digits (s : bytes) : bytes * bytes :=
  match s with
  | c :: r => if is_digit c then let (d, r') := span_digits r in (c :: d, r') else ([], s)
  | [] => ([], [])
  end.

(** The exponent as it is read digit by digit, dec2flt/parse.rs:88-91, decimal.rs:272-274 *)
Definition exp_step (e : Z) (c : N) : Z := if (e <? 0x10000)%Z then (10 * e + Z.of_N (c - 48))%Z else e.

(** [parse_scientific], dec2flt/parse.rs:74-103 *)
Definition parse_scientific (s : bytes) : option (Z * bytes) :=
  let (neg, r) := match s with
                  | c :: r => (c =? 45, if (c =? 45) || (c =? 43) then r else s)
                  | [] => (false, s)
                  end in
  match span_digits r with
  | ([], _) => None
  | (ds, r') => let e := fold_left exp_step ds 0%Z in Some ((if neg : bool then (- e)%Z else e), r')
  end.

(** [Number], dec2flt/number.rs:26-31; the sign is handled in [dec2flt]. *)
Record number := { n_exp : Z; n_man : N; n_many : bool }.

(** The loop over leading zeros, dec2flt/parse.rs:165-172 *)
Fixpoint lead (s : bytes) (n : Z) : Z :=
  match s with
  | c :: r => if (c =? 46) || (c =? 48) then lead r (n - Z.of_N (c - 47))%Z else n
  | [] => n
  end.

(** [parse_partial_number], dec2flt/parse.rs:109-205. Returns what follows the number in place of its length. *)
Definition parse_partial_number (s : bytes) : res (option (number * bytes)) :=
  let len (x : bytes) := Z.of_N (lenN x) in
  let (s1, m1) := try_parse_digits s 0 in
  let '(s2, m2, after) :=
    match s1 with
    | c :: r => if c =? 46 then let (s2, m2) := try_parse_digits r m1 in (s2, m2, (len r - len s2)%Z)
                else (s1, m1, 0%Z)
    | [] => (s1, m1, 0%Z)
    end in
  let n_digits := (len s - len s1 + after)%Z in
  if (n_digits =? 0)%Z then Ok None
  else
    match (match s2 with
           | c :: r => if (c =? 101) || (c =? 69) then parse_scientific r else Some (0%Z, s2)
           | [] => Some (0%Z, s2)
           end) with
    | None => Ok None
    | Some (e, s3) =>
        if (n_digits <=? 19)%Z then Ok (Some ({| n_exp := (- after + e)%Z; n_man := m2; n_many := false |}, s3))
        else if (0 <? lead s (n_digits - 19))%Z then
          let (p, m) := try_parse_19digits s 0 in
          if 10 ^ 18 <=? m then
            Ok (Some ({| n_exp := (len p - len s1 + e)%Z; n_man := m; n_many := true |}, s3))
          else
            match p with
            | [] => Panic
            | _ :: r =>
                let (p', m') := try_parse_19digits r m in
                Ok (Some ({| n_exp := (- (len r - len p') + e)%Z; n_man := m'; n_many := true |}, s3))
            end
        else Ok (Some ({| n_exp := (- after + e)%Z; n_man := m2; n_many := false |}, s3))
    end.

(** [parse_inf_nan], dec2flt/parse.rs:208-255: only if the rest of the input is one of the words *)
Definition parse_inf_nan (B : binary) (s : bytes) : option N :=
  let reg := N.land (le s) 0xDFDFDFDFDFDFDFDF in
  if lenN s =? 8 then
    if reg =? 0x5954494E49464E49 then Some (infinity B) else None
  else if lenN s =? 3 then
    if reg =? 0x464E49 then Some (infinity B)
    else if reg =? 0x4E414E then Some (infinity B + 2 ^ (mbits B - 1)) else None
  else None.

(** ** The fast path, dec2flt/number.rs *)

(** [pow10_fast_path], dec2flt/float.rs:129-136, 185-191: the literals of the table, correctly rounded by the compiler *)
Definition pow10_fast (F : raw_float) (e : N) : N :=
  let i := e mod r_pows F in if i <=? r_pow_max F then rnd (r_bin F) (10 ^ i) 1 else 0.

(** [try_fast_path], dec2flt/number.rs:37-87. [INT_POW10] has 16 entries. *)
Definition try_fast_path (F : raw_float) (n : number) : res (option N) :=
  let B := r_bin F in
  if (r_min_fast F <=? n_exp n)%Z && (n_exp n <=? r_max_disg F)%Z && (n_man n <=? 2 * 2 ^ meb F) && negb (n_many n) then
    if (n_exp n <=? r_max_fast F)%Z then
      if (n_exp n <? 0)%Z then Ok (Some (fdiv B (from_u64 B (n_man n)) (pow10_fast F (Z.to_N (- n_exp n)))))
      else Ok (Some (fmul B (from_u64 B (n_man n)) (pow10_fast F (Z.to_N (n_exp n)))))
    else
      let shift := Z.to_N (n_exp n - r_max_fast F) in
      if 16 <=? shift then Panic
      else
        let m := n_man n * 10 ^ shift in
        if 2 ^ 64 <=? m then Ok None
        else if 2 * 2 ^ meb F <? m then Ok None
        else Ok (Some (fmul B (from_u64 B m) (pow10_fast F (Z.to_N (r_max_fast F)))))
  else Ok None.

(** ** The Eisel-Lemire algorithm, dec2flt/lemire.rs *)

(** [BiasedFp], dec2flt/common.rs:69-74 *)
Record biased := { bf : N; be : Z }.

(** dec2flt/lemire.rs:126-128 *)
Definition power (q : Z) : Z := (q * (152170 + 65536) / 2 ^ 16 + 63)%Z.

(** [compute_product_approx], dec2flt/lemire.rs:139-172. The lower and the upper 64 bits *)
Definition product_approx (q : Z) (w precision : N) : res (N * N) :=
  if (q <? -342)%Z then Panic
  else
    match nth_error POWER_OF_FIVE_128 (Z.to_nat (q + 342)) with
    | None => Panic
    | Some (lo5, hi5) =>
        let mask := if precision <? 64 then (2 ^ 64 - 1) / 2 ^ precision else 2 ^ 64 - 1 in
        let first_lo := (w * lo5) mod 2 ^ 64 in
        let first_hi := (w * lo5) / 2 ^ 64 in
        if N.land first_hi mask =? mask then
          let second_hi := (w * hi5) / 2 ^ 64 in
          let lo := (first_lo + second_hi) mod 2 ^ 64 in
          if lo <? second_hi then let* hi := u64 (first_hi + 1) in Ok (lo, hi) else Ok (lo, first_hi)
        else Ok (first_lo, first_hi)
    end.

(** [compute_float], dec2flt/lemire.rs:25-119. The exponent -1 is an error. *)
Definition compute_float (F : raw_float) (q : Z) (w : N) : res biased :=
  let zero := {| bf := 0; be := 0 |} in
  let inf := {| bf := 0; be := r_inf F |} in
  if (w =? 0) || (q <? r_small F)%Z then Ok zero
  else if (r_large F <? q)%Z then Ok inf
  else
    let lz := 63 - N.log2 w in
    let* (lo, hi) := product_approx q (w * 2 ^ lz) (meb F + 3) in
    if (lo =? 2 ^ 64 - 1) && negb ((-27 <=? q)%Z && (q <=? 55)%Z) then Ok {| bf := 0; be := -1 |}
    else
      let ub := hi / 2 ^ 63 in
      let sh := ub + 64 - meb F - 3 in
      let m := hi / 2 ^ sh in
      let power2 := (power q + Z.of_N ub - Z.of_N lz - r_min_exp F)%Z in
      if (power2 <=? 0)%Z then
        if (64 <=? - power2 + 1)%Z then Ok zero
        else
          let m1 := m / 2 ^ Z.to_N (- power2 + 1) in
          let m2 := (m1 + m1 mod 2) / 2 in
          Ok {| bf := m2; be := if 2 ^ meb F <=? m2 then 1 else 0 |}
      else
        let m1 := if (lo <=? 1) && (r_min_even F <=? q)%Z && (q <=? r_max_even F)%Z &&
                     (m mod 4 =? 1) && ((m * 2 ^ sh) mod 2 ^ 64 =? hi)
                  then m - m mod 2 else m in
        let m2 := (m1 + m1 mod 2) / 2 in
        let (m3, p3) := if 2 * 2 ^ meb F <=? m2 then (2 ^ meb F, (power2 + 1)%Z) else (m2, power2) in
        let m4 := N.ldiff m3 (2 ^ meb F) in
        if (r_inf F <=? p3)%Z then Ok inf else Ok {| bf := m4; be := p3 |}.

(** ** Decimals, dec2flt/decimal.rs *)

(** [Decimal], dec2flt/decimal.rs:15-24: [0.d1d2d3.. * 10 ^ point] *)
Record big := { b_digits : list N; b_point : Z; b_trunc : bool }.
Definition MAX_DIGITS : nat := 768.

(** dec2flt/decimal.rs:77-89 *)
Fixpoint trim (ds : list N) : list N :=
  match ds with
  | d :: r => match trim r with [] => if d =? 0 then [] else [d] | r' => d :: r' end
  | [] => []
  end.

(** dec2flt/decimal.rs:91-116 *)
Definition round (d : big) : res N :=
  let ds := b_digits d in
  if (match ds with [] => true | _ => false end) || (b_point d <? 0)%Z then Ok 0
  else if (18 <? b_point d)%Z then Ok (2 ^ 64 - 1)
  else
    let dp := Z.to_nat (b_point d) in
    let n := fold_left (fun n i => 10 * n + nth i ds 0) (seq 0 dp) 0 in
    let up :=
      if (dp <? length ds)%nat then
        if (nth dp ds 0 =? 5) && (dp + 1 =? length ds)%nat then
          b_trunc d || (negb (dp =? 0)%nat && (nth (dp - 1) ds 0 mod 2 =? 1))
        else 5 <=? nth dp ds 0
      else false in
    if up then u64 (n + 1) else u64 n.

(** The comparison in [number_of_digits_decimal_left_shift], dec2flt/decimal.rs:351-361: whether the digits [ds] are less
    than the digits [p5] of a power of five. *)
Fixpoint below (ds p5 : list N) : bool :=
  match p5 with
  | [] => false
  | p :: p5' =>
      match ds with
      | [] => true
      | d :: ds' => if d =? p then below ds' p5' else d <? p
      end
  end.

(** [number_of_digits_decimal_left_shift], dec2flt/decimal.rs:286-363 *)
Definition new_digits (ds : list N) (shift : N) : res N :=
  let s := N.to_nat (shift mod 64) in
  match nth_error TABLE s, nth_error TABLE (s + 1) with
  | Some xa, Some xb =>
      let n := xa / 2 ^ 11 in
      let a := N.to_nat (xa mod 2 ^ 11) in
      let b := N.to_nat (xb mod 2 ^ 11) in
      if (b <? a)%nat || (length TABLE_POW5 <? a)%nat then Panic
      else if below ds (firstn (b - a) (skipn a TABLE_POW5)) then (if n =? 0 then Panic else Ok (n - 1)) else Ok n
  | _, _ => Panic
  end.

(** The loops of [left_shift], dec2flt/decimal.rs:127-151, from the last digit to the first; [ds] is reversed. *)
Fixpoint left_loop (shift : N) (ds : list N) (n : N) (out : list N) : res (N * list N) :=
  match ds with
  | [] => Ok (n, out)
  | d :: r =>
      let* n1 := u64 (n + d * 2 ^ shift) in
      left_loop shift r (n1 / 10) (n1 mod 10 :: out)
  end.
Fixpoint left_rest (fuel : nat) (n : N) (out : list N) : res (list N) :=
  match fuel with
  | O => Panic
  | S f => if n =? 0 then Ok out else left_rest f (n / 10) (n mod 10 :: out)
  end.

(** [left_shift], dec2flt/decimal.rs:119-157. If there were less digits than announced the first digits would
    be those of before, and with more [write_index] would overflow: [Panic] in both cases. *)
Definition left_shift (d : big) (shift : N) : res big :=
  match b_digits d with
  | [] => Ok d
  | ds =>
      let* k := new_digits ds shift in
      let* (n, out) := left_loop shift (rev ds) 0 [] in
      let* out := left_rest 21 n out in
      if negb (lenN out =? lenN ds + k) then Panic
      else
        Ok {| b_digits := trim (firstn MAX_DIGITS out);
              b_point := (b_point d + Z.of_N k)%Z;
              b_trunc := b_trunc d || existsb (fun x => 0 <? x) (skipn MAX_DIGITS out) |}
  end.

(** The first loop of [right_shift], dec2flt/decimal.rs:164-177: the first digits of the quotient, the number of digits read, and
    the digits that are left. [None]: the number is zero. *)
Fixpoint right_pad (fuel : nat) (shift n read : N) : res (N * N) :=
  match fuel with
  | O => Panic
  | S f => if n / 2 ^ shift =? 0 then let* n' := u64 (n * 10) in right_pad f shift n' (read + 1) else Ok (n, read)
  end.
Fixpoint right_first (shift : N) (ds : list N) (n read : N) : res (option (N * N * list N)) :=
  if n / 2 ^ shift =? 0 then
    match ds with
    | d :: r => let* n' := u64 (10 * n + d) in right_first shift r n' (read + 1)
    | [] => if n =? 0 then Ok None else let* (n', read') := right_pad 21 shift n read in Ok (Some (n', read', []))
    end
  else Ok (Some (n, read, ds)).

(** The other loops, dec2flt/decimal.rs:186-203 *)
Fixpoint right_loop (shift : N) (ds : list N) (n : N) : res (N * list N) :=
  match ds with
  | [] => Ok (n, [])
  | d :: r =>
      let* n' := u64 (10 * (n mod 2 ^ shift) + d) in
      let* (n2, out) := right_loop shift r n' in
      Ok (n2, n / 2 ^ shift :: out)
  end.
Fixpoint right_rest (fuel : nat) (shift n : N) : res (list N) :=
  match fuel with
  | O => Panic
  | S f =>
      if n =? 0 then Ok []
      else
        let* n' := u64 (10 * (n mod 2 ^ shift)) in
        let* out := right_rest f shift n' in
        Ok (n / 2 ^ shift :: out)
  end.

(** [right_shift], dec2flt/decimal.rs:160-206 *)
Definition right_shift (d : big) (shift : N) : res big :=
  let* x := right_first shift (b_digits d) 0 0 in
  match x with
  | None => Ok d
  | Some (n, read, ds) =>
      let point := (b_point d - (Z.of_N read - 1))%Z in
      if (point <? -2047)%Z then Ok {| b_digits := []; b_point := 0; b_trunc := false |}
      else
        let* (n1, out1) := right_loop shift ds n in
        let* out2 := right_rest 66 shift n1 in
        let out := out1 ++ out2 in
        Ok {| b_digits := trim (firstn MAX_DIGITS out); b_point := point;
              b_trunc := b_trunc d || existsb (fun x => 0 <? x) (skipn MAX_DIGITS out) |}
  end.

Fixpoint skip_zeros (s : bytes) : bytes :=
  match s with c :: r => if c =? 48 then skip_zeros r else s | [] => [] end.

(** The loop over trailing zeros, dec2flt/decimal.rs:246-252, over the reversed text *)
Fixpoint trailing (s : bytes) : N :=
  match s with c :: r => if c =? 48 then 1 + trailing r else if c =? 46 then trailing r else 0 | [] => 0 end.

(** dec2flt/decimal.rs:229-237: eight digits at a time while there is room *)
Fixpoint chunks (s : bytes) (n : N) : bytes * bytes :=
  match s with
  | b0 :: b1 :: b2 :: b3 :: b4 :: b5 :: b6 :: b7 :: r =>
      if (n + 8 <? N.of_nat MAX_DIGITS) && is_8digits (le [b0; b1; b2; b3; b4; b5; b6; b7]) then
        let (d, r') := chunks r (n + 8) in
        (b0 :: b1 :: b2 :: b3 :: b4 :: b5 :: b6 :: b7 :: d, r')
      else ([], s)
  | _ => ([], s)
  end.

(** [parse_decimal], dec2flt/decimal.rs:210-284. All digits are collected; of those that [try_add_digit] drops only
    the number matters. *)
Definition parse_decimal (s : bytes) : res big :=
  let (ds, s1) := span_digits (skip_zeros s) in
  let '(all, s2, point) :=
    match s1 with
    | c :: first =>
        if c =? 46 then
          let r := match ds with [] => skip_zeros first | _ => first end in
          let (f1, r1) := chunks r (lenN ds) in
          let (f2, r2) := span_digits r1 in
          (ds ++ f1 ++ f2, r2, (Z.of_N (lenN r2) - Z.of_N (lenN first))%Z)
        else (ds, s1, 0%Z)
    | [] => (ds, s1, 0%Z)
    end in
  let z := trailing (rev (firstn (length s - length s2) s)) in
  let* (digits, point, trunc) :=
    match all with
    | [] => Ok ([], point, false)
    | _ =>
        if lenN all <? z then Panic
        else
          let n := (length all - N.to_nat z)%nat in
          Ok (map (fun c => c - 48) (firstn (Nat.min n MAX_DIGITS) all), (point + Z.of_N z + Z.of_nat n)%Z, (MAX_DIGITS <? n)%nat)
    end in
  let e :=
    match s2 with
    | c :: r =>
        if (c =? 101) || (c =? 69) then
          let (neg, r1) := match r with
                           | c :: r1 => (c =? 45, if (c =? 45) || (c =? 43) then r1 else r)
                           | [] => (false, r)
                           end in
          let e := fold_left exp_step (fst (span_digits r1)) 0%Z in
          if neg : bool then (- e)%Z else e
        else 0%Z
    | [] => 0%Z
    end in
  Ok {| b_digits := digits; b_point := (point + e)%Z; b_trunc := trunc |}.

(** ** The slow path, dec2flt/slow.rs *)

(** dec2flt/slow.rs:27-39 *)
Definition POWERS : list N := [0; 3; 6; 9; 13; 16; 19; 23; 26; 29; 33; 36; 39; 43; 46; 49; 53; 56; 59].
Definition get_shift (n : N) : N := nth (N.to_nat n) POWERS 60.

(** The three loops, dec2flt/slow.rs:53-61, 63-77 and 80-87. [None]: the function returns zero or infinity. *)
Fixpoint shrink (fuel : nat) (d : big) (exp2 : Z) : res (option (big * Z)) :=
  match fuel with
  | O => Panic
  | S f =>
      if (0 <? b_point d)%Z then
        let shift := get_shift (Z.to_N (b_point d)) in
        let* d' := right_shift d shift in
        if (b_point d' <? -2047)%Z then Ok None else shrink f d' (exp2 + Z.of_N shift)%Z
      else Ok (Some (d, exp2))
  end.
Fixpoint grow (fuel : nat) (d : big) (exp2 : Z) : res (option (big * Z)) :=
  match fuel with
  | O => Panic
  | S f =>
      if (b_point d <=? 0)%Z then
        let* shift :=
          if (b_point d =? 0)%Z then
            match b_digits d with
            | [] => Panic
            | x :: _ => Ok (if 5 <=? x then 0 else if x <=? 1 then 2 else 1)
            end
          else Ok (get_shift (Z.to_N (- b_point d))) in
        if (shift =? 0) && (b_point d =? 0)%Z then Ok (Some (d, exp2))
        else
          let* d' := left_shift d shift in
          if (2047 <? b_point d')%Z then Ok None else grow f d' (exp2 - Z.of_N shift)%Z
      else Ok (Some (d, exp2))
  end.
Fixpoint subnormal (fuel : nat) (least : Z) (d : big) (exp2 : Z) : res (big * Z) :=
  match fuel with
  | O => Panic
  | S f =>
      if (exp2 <? least)%Z then
        let n := Z.min 60 (least - exp2) in
        let* d' := right_shift d (Z.to_N n) in
        subnormal f least d' (exp2 + n)%Z
      else Ok (d, exp2)
  end.

(** [parse_long_mantissa], dec2flt/slow.rs:26-117 *)
Definition parse_long_mantissa (F : raw_float) (s : bytes) : res biased :=
  let zero := {| bf := 0; be := 0 |} in
  let inf := {| bf := 0; be := r_inf F |} in
  let* d := parse_decimal s in
  if (match b_digits d with [] => true | _ => false end) || (b_point d <? -324)%Z then Ok zero
  else if (310 <=? b_point d)%Z then Ok inf
  else
    let* x := shrink 2000 d 0 in
    match x with
    | None => Ok zero
    | Some (d, exp2) =>
        let* x := grow 2000 d exp2 in
        match x with
        | None => Ok inf
        | Some (d, exp2) =>
            let* (d, exp2) := subnormal 2000 (r_min_exp F + 1) d (exp2 - 1) in
            if (r_inf F <=? exp2 - r_min_exp F)%Z then Ok inf
            else
              let* d := left_shift d (meb F + 1) in
              let* m := round d in
              let finish (m : N) (exp2 : Z) :=
                let power2 := (exp2 - r_min_exp F)%Z in
                let power2 := if m <? 2 ^ meb F then (power2 - 1)%Z else power2 in
                Ok {| bf := m mod 2 ^ meb F; be := power2 |} in
              if 2 ^ (meb F + 1) <=? m then
                let* d := right_shift d 1 in
                let exp2 := (exp2 + 1)%Z in
                let* m := round d in
                if (r_inf F <=? exp2 - r_min_exp F)%Z then Ok inf else finish m exp2
              else finish m exp2
        end
    end.

(** ** The function, dec2flt/mod.rs *)

(** [biased_fp_to_float], dec2flt/mod.rs:100-104; float.rs:125-127, 181-183 *)
Definition to_float (B : binary) (x : biased) : N :=
  N.lor (bf x) (Z.to_N (be x) * 2 ^ mbits B) mod 2 ^ (1 + ebits B + mbits B).

Definition negate_float (B : binary) (neg : bool) (b : N) : N := if neg then b + 2 ^ (ebits B + mbits B) else b.

Definition same (x y : biased) : bool := (bf x =? bf y) && (be x =? be y)%Z.

(** [dec2flt], dec2flt/mod.rs:108-152. The bits of the number and what follows it. *)
Definition dec2flt (F : raw_float) (s : bytes) : res (option (N * bytes)) :=
  let B := r_bin F in
  match s with
  | [] => Ok None
  | c :: r =>
      let neg := c =? 45 in
      let s := if (c =? 45) || (c =? 43) then r else s in
      match s with
      | [] => Ok None
      | _ =>
          let* x := parse_partial_number s in
          match x with
          | None =>
              match parse_inf_nan B s with
              | Some b => Ok (Some (negate_float B neg b, []))
              | None => Ok None
              end
          | Some (n, rest) =>
              let* fast := try_fast_path F n in
              match fast with
              | Some b => Ok (Some (negate_float B neg b, rest))
              | None =>
                  let* fp := compute_float F (n_exp n) (n_man n) in
                  let* bad :=
                    if n_many n && (0 <=? be fp)%Z then
                      let* m := u64 (n_man n + 1) in
                      let* fp' := compute_float F (n_exp n) m in
                      Ok (negb (same fp fp'))
                    else Ok (be fp <? 0)%Z in
                  let* fp := if bad : bool then parse_long_mantissa F s else Ok fp in
                  Ok (Some (negate_float B neg (to_float B fp), rest))
              end
          end
      end
  end.

(** [parse_f32], [parse_f64] of json/parser/slice_parser.rs:127-152, [decode_f32], [decode_f64], json/de/mod.rs:264-272.
    Whitespace is not skipped. *)
Definition json_decode_float (F : raw_float) (bs : bytes) : res (N * bytes) :=
  let* x := dec2flt F bs in
  match x with Some y => Ok y | None => Err end.
