(** Model of crates/musli-zerocopy/src/sip.rs: SipHash-1-3 with 128 bits of
    output, the hash function of the swiss and perfect-hash maps. *)
From Verif Require Import Base Options Int Zc.
Local Open Scope N_scope.

(** [u64] arithmetic. *)
Definition add64 (a b : N) : N := (a + b) mod 2 ^ 64.
Definition rotl64 (x r : N) : N := N.lor (N.shiftl x r mod 2 ^ 64) (N.shiftr x (64 - r)).
Definition shl64 (x r : N) : N := N.shiftl x r mod 2 ^ 64.

(** [State], sip.rs:42-52 *)
Record sst := { v0 : N; v1 : N; v2 : N; v3 : N }.

(** [compress!], sip.rs:54-75, statement by statement *)
Definition compress (s : sst) : sst :=
  let '{| v0 := v0; v1 := v1; v2 := v2; v3 := v3 |} := s in
  let v0 := add64 v0 v1 in
  let v1 := rotl64 v1 13 in
  let v1 := N.lxor v1 v0 in
  let v0 := rotl64 v0 32 in
  let v2 := add64 v2 v3 in
  let v3 := rotl64 v3 16 in
  let v3 := N.lxor v3 v2 in
  let v0 := add64 v0 v3 in
  let v3 := rotl64 v3 21 in
  let v3 := N.lxor v3 v0 in
  let v2 := add64 v2 v1 in
  let v1 := rotl64 v1 17 in
  let v1 := N.lxor v1 v2 in
  let v2 := rotl64 v2 32 in
  {| v0 := v0; v1 := v1; v2 := v2; v3 := v3 |}.

(** [c_rounds], sip.rs:377-379, and [d_rounds], 382-386 *)
Definition c_rounds (s : sst) : sst := compress s.
Definition d_rounds (s : sst) : sst := compress (compress (compress s)).

(** [Hasher], sip.rs:25-40. The keys are used by [reset] only. *)
Record hasher := { hlen : N; hst : sst; htail : N; hntail : N }.

(** [new_with_keys], sip.rs:148-165, and [reset], 168-175 *)
Definition h_new (k0 k1 : N) : hasher :=
  {| hlen := 0;
     hst := {| v0 := N.lxor k0 0x736f6d6570736575; v1 := N.lxor k1 0x646f72616e646f83;
               v2 := N.lxor k0 0x6c7967656e657261; v3 := N.lxor k1 0x7465646279746573 |};
     htail := 0; hntail := 0 |}.

(** The three statements that process a full word [m], sip.rs:207-209, 316-318,
    331-333 *)
Definition process (s : sst) (m : N) : sst :=
  let s := {| v0 := v0 s; v1 := v1 s; v2 := v2 s; v3 := N.lxor (v3 s) m |} in
  let s := c_rounds s in
  {| v0 := N.lxor (v0 s) m; v1 := v1 s; v2 := v2 s; v3 := v3 s |}.

(** [load_int_le!], sip.rs:81-92: the little-endian value of [k] bytes at [i], on
    targets of either byte order. Reading outside the slice is undefined. *)
Definition load_le (buf : bytes) (i : N) (k : nat) : zres N :=
  if i + N.of_nat k <=? lenN buf
  then ZOk (of_le (firstn k (skipn (N.to_nat i) buf))) else ZUb.

(** [u8to64_le], sip.rs:100-118, with its debug assertions *)
Definition u8to64_le (buf : bytes) (start len : N) : zres N :=
  if 8 <=? len then ZPanic else
  let+ (i, out) :=
    if 0 + 3 <? len
    then let+ x := load_le buf (start + 0) 4 in ZOk (4, x) else ZOk (0, 0) in
  let+ (i, out) :=
    if i + 1 <? len
    then let+ x := load_le buf (start + i) 2 in ZOk (i + 2, N.lor out (shl64 x (i * 8)))
    else ZOk (i, out) in
  let+ (i, out) :=
    if i <? len
    then let+ x := load_le buf (start + i) 1 in ZOk (i + 1, N.lor out (shl64 x (i * 8)))
    else ZOk (i, out) in
  if i =? len then ZOk out else ZPanic.

(** [short_write], sip.rs:189-213, with its debug assertion: [size] is the size of
    the integer, [x] its zero-extended little-endian value. *)
Definition short_write (h : hasher) (size x : N) : zres hasher :=
  let len := hlen h + size in
  if (size <? 8) && negb (N.shiftr x (8 * size) =? 0) then ZPanic else
  let needed := 8 - hntail h in
  let tail := N.lor (htail h) (shl64 x (8 * hntail h)) in
  if size <? needed
  then ZOk {| hlen := len; hst := hst h; htail := tail; hntail := hntail h + size |}
  else ZOk {| hlen := len; hst := process (hst h) tail;
              htail := if needed <? 8 then N.shiftr x (8 * needed) else 0; hntail := size - needed |}.

(** The [while] loop of [write], sip.rs:328-336: [i] runs up to [len - left]. The
    loop is given fuel. *)
Fixpoint write_loop (fuel : nat) (msg : bytes) (s : sst) (i stop : N) : zres (sst * N) :=
  if i <? stop then
    match fuel with
    | O => ZPanic
    | S fuel =>
        let+ mi := load_le msg i 8 in
        write_loop fuel msg (process s mi) (i + 8) stop
    end
  else ZOk (s, i).

(** [write], sip.rs:303-340: the part after the buffered tail was flushed *)
Definition write_rest (len0 : N) (s : sst) (msg : bytes) (needed : N) : zres hasher :=
  let len := lenN msg - needed in
  let left := N.land len 7 in
  let+ (s, i) := write_loop (length msg) msg s needed (len - left) in
  let+ tail := u8to64_le msg i left in
  ZOk {| hlen := len0; hst := s; htail := tail; hntail := left |}.

(** ... and as a whole *)
Definition h_write (h : hasher) (msg : bytes) : zres hasher :=
  let length := lenN msg in
  let len0 := hlen h + length in
  if hntail h =? 0 then write_rest len0 (hst h) msg 0
  else
    let needed := 8 - hntail h in
    let+ x := u8to64_le msg 0 (N.min length needed) in
    let tail := N.lor (htail h) (shl64 x (8 * hntail h)) in
    if length <? needed
    then ZOk {| hlen := len0; hst := hst h; htail := tail; hntail := hntail h + length |}
    else write_rest len0 (process (hst h) tail) msg needed.

(** The calls a [Hash] implementation makes: [write], and [write_u8],
    [write_u32], [write_u64], [write_usize] (sip.rs:283-300, [to_le] on the target
    whose byte order is [nb]). [write_u16] and all others are provided by the
    trait and call [write] with the bytes of the integer in native order. *)
Inductive hcall :=
| HBytes (msg : bytes)
| HInt (w : nat) (x : N)
| HOther (w : nat) (x : N).

Definition h_call (nb : ByteOrder) (h : hasher) (c : hcall) : zres hasher :=
  match c with
  | HBytes msg => h_write h msg
  | HInt w x => short_write h (N.of_nat w) (match nb with Little => x | Big => swap_bytes w x end)
  | HOther w x => h_write h (match nb with Little => to_le w x | Big => rev (to_le w x) end)
  end.

Fixpoint h_calls (nb : ByteOrder) (h : hasher) (cs : list hcall) : zres hasher :=
  match cs with
  | [] => ZOk h
  | c :: cs => let+ h := h_call nb h c in h_calls nb h cs
  end.

(** [finish128], sip.rs:220-238: (h1, h2); [finish], 343-345, is h2. *)
Definition h_finish (h : hasher) : N * N :=
  let s := hst h in
  let b := N.lor (shl64 (N.land (hlen h) 255) 56) (htail h) in
  let s := process s b in
  let s := {| v0 := v0 s; v1 := v1 s; v2 := N.lxor (v2 s) 0xee; v3 := v3 s |} in
  let s := d_rounds s in
  let h1 := N.lxor (N.lxor (N.lxor (v0 s) (v1 s)) (v2 s)) (v3 s) in
  let s := {| v0 := v0 s; v1 := N.lxor (v1 s) 0xdd; v2 := v2 s; v3 := v3 s |} in
  let s := d_rounds s in
  let h2 := N.lxor (N.lxor (N.lxor (v0 s) (v1 s)) (v2 s)) (v3 s) in
  (h1, h2).
