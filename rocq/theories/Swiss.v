(** Model of musli-zerocopy's swiss tables: crates/musli-zerocopy/src/swiss.

    Paths are relative to that directory. A table is modelled as its control
    bytes and its array of entries; their placement in the buffer (offsets,
    alignment) is that of [ZcBuf.v] and not repeated. An entry is an arbitrary
    value; an entry's hash is an arbitrary number below 2^64. Arithmetic on
    [usize] is checked: overflow is a panic. *)
From Verif Require Import Base Options Int Zc ZcBuf.
Local Open Scope N_scope.

(** ** Bit masks, raw/bitmask.rs *)

(** [trailing_zeros] *)
Fixpoint ptz (p : positive) : N := match p with xO p => 1 + ptz p | _ => 0 end.
Definition ctz (n : N) : N := match n with N0 => 0 | Npos p => ptz p end.

(** [lowest_set_bit], raw/bitmask.rs:49-68 (the variant for 32-bit ARM, 60-63,
    which counts the leading zeros of the swapped word, is not modelled) *)
Definition lowest_set_bit (stride m : N) : option N := if m =? 0 then None else Some (ctz m / stride).

(** [remove_lowest_bit], raw/bitmask.rs:37-39 *)
Definition remove_lowest_bit (m : N) : N := N.land m (m - 1).

(** [BitMaskIter], raw/bitmask.rs:75-96: the elements produced; one step per
    element of a group is enough ([fuel]). *)
Fixpoint bm_iter (fuel : nat) (stride m : N) : list N :=
  match fuel with
  | O => []
  | S fuel =>
      match lowest_set_bit stride m with
      | None => []
      | Some b => b :: bm_iter fuel stride (remove_lowest_bit m)
      end
  end.

(** ** Groups *)

(** An implementation of [Group]: WIDTH, BITMASK_STRIDE, BITMASK_ITER_MASK,
    [match_byte], [match_empty] and [match_empty_or_deleted]. *)
Record gimpl := {
  gw : nat; gstride : N; giter : N;
  gmatch : bytes -> N -> N; gempty : bytes -> N; gfree : bytes -> N
}.

(** [EMPTY], raw/mod.rs:115 *)
Definition EMPTY : N := 255.

(** [_mm_movemask_epi8]: the top bits of the bytes *)
Fixpoint movemask (bs : bytes) : N :=
  match bs with [] => 0 | b :: r => N.b2n (N.testbit b 7) + 2 * movemask r end.
(** [_mm_cmpeq_epi8] with a repeated byte *)
Definition cmpeq (bs : bytes) (b : N) : bytes := map (fun x => if x =? b then 255 else 0) bs.

(** raw/sse2.rs:11-15, 71-109 *)
Definition sse2 : gimpl := {|
  gw := 16; gstride := 1; giter := 0xffff;
  gmatch := fun bs b => movemask (cmpeq bs b);
  gempty := fun bs => movemask (cmpeq bs EMPTY);
  gfree := movemask |}.

(** raw/neon.rs:7-11, 73-96: [vceq_u8] and [vcltz_s8], the lanes read as a
    little-endian word *)
Definition neon : gimpl := {|
  gw := 8; gstride := 8; giter := 0x8080808080808080;
  gmatch := fun bs b => of_le (cmpeq bs b);
  gempty := fun bs => of_le (cmpeq bs EMPTY);
  gfree := fun bs => of_le (map (fun x => if 128 <=? x then 255 else 0) bs) |}.

(** raw/generic.rs, on words of [w] bytes (4 or 8). A group is the word of its
    bytes in native order; [to_le] makes a mask of it. *)
Definition from_ne (nb : ByteOrder) (bs : bytes) : N :=
  match nb with Little => of_le bs | Big => of_le (rev bs) end.
Definition word_to_le (nb : ByteOrder) (w : nat) (x : N) : N :=
  match nb with Little => x | Big => swap_bytes w x end.
(** [repeat], raw/generic.rs:36-38 *)
Definition grepeat (w : nat) (b : N) : N := of_le (List.repeat b w).
Definition wsub (w : nat) (a b : N) : N := (a + 2 ^ (8 * N.of_nat w) - b) mod 2 ^ (8 * N.of_nat w).
Definition wnot (w : nat) (a : N) : N := N.lxor a (N.ones (8 * N.of_nat w)).
Definition wshl1 (w : nat) (a : N) : N := N.shiftl a 1 mod 2 ^ (8 * N.of_nat w).

(** raw/generic.rs:102-125 *)
Definition generic (nb : ByteOrder) (w : nat) : gimpl := {|
  gw := w; gstride := 8; giter := N.ones (8 * N.of_nat w);
  gmatch := fun bs b =>
    let cmp := N.lxor (from_ne nb bs) (grepeat w b) in
    word_to_le nb w (N.land (N.land (wsub w cmp (grepeat w 1)) (wnot w cmp)) (grepeat w 128));
  gempty := fun bs =>
    let x := from_ne nb bs in
    word_to_le nb w (N.land (N.land x (wshl1 w x)) (grepeat w 128));
  gfree := fun bs => word_to_le nb w (N.land (from_ne nb bs) (grepeat w 128)) |}.

(** The target: its group implementation and the size of [usize] in bytes. *)
Record target := { tg : gimpl; tptr : N }.
Definition tub (T : target) : N := 8 * tptr T.
Definition tw (T : target) : N := N.of_nat (gw (tg T)).

(** ** Hashes and probing, raw/mod.rs *)

(** [h1], raw/mod.rs:97-100 *)
Definition h1 (T : target) (hash : N) : N := hash mod 2 ^ tub T.

(** [MIN_HASH_LEN], raw/mod.rs:74-78, and [h2], 105-112 *)
Definition h2 (T : target) (hash : N) : N :=
  let mhl := if tptr T <? 8 then tptr T else 8 in
  N.land (N.shiftr hash (mhl * 8 - 7)) 127.

(** [ProbeSeq]: (pos, stride); [probe_seq], raw/mod.rs:85-93; [move_next], 57-69 *)
Definition probe_seq (T : target) (mask hash : N) : N * N := (N.land (h1 T hash) mask, 0).
Definition move_next (T : target) (mask : N) (ps : N * N) : zres (N * N) :=
  let '(pos, stride) := ps in
  if mask <? stride then ZErr else
  let+ stride := uadd (tub T) stride (tw T) in
  let+ pos := uadd (tub T) pos stride in
  ZOk (N.land pos mask, stride).

(** [is_full], raw/mod.rs:120-122; [special_is_empty] with its debug assertion,
    134-137 *)
Definition is_full (c : N) : bool := N.land c 128 =? 0.
Definition special_is_empty (c : N) : zres bool :=
  if N.land c 128 =? 0 then ZPanic else ZOk (negb (N.land c 1 =? 0)).

(** [next_power_of_two] *)
Definition next_pow2 (n : N) : N := if n <=? 1 then 1 else 2 ^ N.size (n - 1).

(** [capacity_to_buckets], raw/mod.rs:147-167 *)
Definition capacity_to_buckets (T : target) (cap : N) : option N :=
  if cap <? 8 then Some (if cap <? 4 then 4 else 8) else
  if 2 ^ tub T <=? cap * 8 then None else Some (next_pow2 (cap * 8 / 7)).

(** [bucket_mask_to_capacity], constructor.rs:451-460 *)
Definition bucket_mask_to_capacity (mask : N) : N := if mask <? 8 then mask else (mask + 1) / 8 * 7.

Section Table.
Context {V : Type}.

(** ** Lookups *)

(** [RawTable], map.rs:409-414, and [RawTableRef], 497-503, once its control
    bytes are loaded *)
Record table := { ctrl : bytes; ents : list V; bmask : N; tlen : N }.

Definition nthN {A} (l : list A) (i : N) : option A := nth_error l (N.to_nat i).

(** The [for] loop over the matching positions, map.rs:471-479, 585-593 *)
Fixpoint try_bits (T : target) (mask pos : N) (eq : N -> zres bool) (bits : list N) : zres (option N) :=
  match bits with
  | [] => ZOk None
  | bit :: bits =>
      let+ i := uadd (tub T) pos bit in
      let i := N.land i mask in
      let+ e := eq i in
      if e : bool then ZOk (Some i) else try_bits T mask pos eq bits
  end.

(** [ctrl.get(pos..pos + WIDTH)] *)
Definition window (ctrl : bytes) (pos : N) (w : nat) : option bytes :=
  if pos + N.of_nat w <=? lenN ctrl then Some (firstn w (skipn (N.to_nat pos) ctrl)) else None.

(** [find_inner], map.rs:449-487, 567-606. The loop is given fuel; [None] is
    not reached. *)
Fixpoint find_loop (fuel : nat) (T : target) (ctl : bytes) (mask hh2 : N) (eq : N -> zres bool) (ps : N * N)
  : option (zres (option N)) :=
  match fuel with
  | O => None
  | S fuel =>
      let '(pos, _) := ps in
      match uadd (tub T) pos (tw T) with
      | ZOk _ =>
          match window ctl pos (gw (tg T)) with
          | None => Some ZErr
          | Some bs =>
              let bits := bm_iter (gw (tg T)) (gstride (tg T)) (N.land (gmatch (tg T) bs hh2) (giter (tg T))) in
              match try_bits T mask pos eq bits with
              | ZOk (Some i) => Some (ZOk (Some i))
              | ZOk None =>
                  if negb (gempty (tg T) bs =? 0) then Some (ZOk None) else
                  match move_next T mask ps with
                  | ZOk ps => find_loop fuel T ctl mask hh2 eq ps
                  | ZErr => Some ZErr | ZPanic => Some ZPanic | ZUb => Some ZUb
                  end
              | ZErr => Some ZErr | ZPanic => Some ZPanic | ZUb => Some ZUb
              end
          end
      | _ => Some ZPanic
      end
  end.
Definition find_fuel (mask w : N) : nat := N.to_nat (mask / w + 3).
Definition find_inner (T : target) (ctl : bytes) (mask hash : N) (eq : N -> zres bool)
  : option (zres (option N)) :=
  find_loop (find_fuel mask (tw T)) T ctl mask (h2 T hash) eq (probe_seq T mask hash).

(** [find], map.rs:419-433, 539-551; [entry] is [RawTable::entry], 435-444, or
    [RawTableRef::entry], 553-564. *)
Definition find (T : target) (ctl : bytes) (mask hash : N) (entry : N -> zres V) (eq : V -> zres bool)
  : option (zres (option V)) :=
  match find_inner T ctl mask hash (fun i => let+ v := entry i in eq v) with
  | None => None
  | Some r => Some (let+ r := r in
      match r with None => ZOk None | Some i => let+ v := entry i in ZOk (Some v) end)
  end.
Definition raw_entry (t : table) (i : N) : zres V :=
  match nthN (ents t) i with Some v => ZOk v | None => ZErr end.

(** [RawTable::find] *)
Definition table_find (T : target) (t : table) (hash : N) (eq : V -> zres bool) : option (zres (option V)) :=
  find T (ctrl t) (bmask t) hash (raw_entry t) eq.

(** ** Construction, constructor.rs *)

(** [Constructor], constructor.rs:17-37: [cctrl] are the bytes from [ctrl_ptr] up
    to the entries. *)
Record ctor := { cctrl : bytes; cents : list V; cmask : N; cgrowth : N }.

Definition upd {A} (l : list A) (i : N) (x : A) : list A :=
  firstn (N.to_nat i) l ++ x :: skipn (S (N.to_nat i)) l.

(** [ctrl], constructor.rs:370-380, and [ctrl_mut], 357-367, with their debug
    assertions *)
Definition get_ctrl (T : target) (c : ctor) (i : N) : zres N :=
  if i <? cmask c + 1 + tw T then
    match nthN (cctrl c) i with Some b => ZOk b | None => ZPanic end
  else ZPanic.
Definition put_ctrl (T : target) (c : ctor) (i b : N) : zres ctor :=
  if (i <? cmask c + 1 + tw T) && (i <? lenN (cctrl c))
  then ZOk {| cctrl := upd (cctrl c) i b; cents := cents c; cmask := cmask c; cgrowth := cgrowth c |}
  else ZPanic.

(** [ctrl_group], constructor.rs:383-394 *)
Definition ctrl_group (T : target) (c : ctor) (i : N) : zres bytes :=
  if i <? cmask c + 1 + tw T then
    match window (cctrl c) i (gw (tg T)) with Some bs => ZOk bs | None => ZPanic end
  else ZPanic.

(** [fix_insert_slot], constructor.rs:254-287, with its debug assertions;
    [is_bucket_full], 351-354. [unwrap_unchecked] of nothing is undefined. *)
Definition fix_insert_slot (T : target) (c : ctor) (i : N) : zres N :=
  if cmask c <? i then ZPanic else
  let+ b := get_ctrl T c i in
  if is_full b then
    if tw T <=? cmask c then ZPanic else
    let+ bs := ctrl_group T c 0 in
    match lowest_set_bit (gstride (tg T)) (gfree (tg T) bs) with Some i => ZOk i | None => ZUb end
  else ZOk i.

(** [find_insert_slot], constructor.rs:184-196, with
    [find_insert_slot_in_group], 167-173. The loop is given fuel; [None] is not
    reached. *)
Fixpoint slot_loop (fuel : nat) (T : target) (c : ctor) (ps : N * N) : option (zres N) :=
  match fuel with
  | O => None
  | S fuel =>
      let '(pos, _) := ps in
      match ctrl_group T c pos with
      | ZOk bs =>
          match lowest_set_bit (gstride (tg T)) (gfree (tg T) bs) with
          | Some bit =>
              Some (let+ i := uadd (tub T) pos bit in fix_insert_slot T c (N.land i (cmask c)))
          | None =>
              match move_next T (cmask c) ps with
              | ZOk ps => slot_loop fuel T c ps
              | ZErr => Some ZErr | ZPanic => Some ZPanic | ZUb => Some ZUb
              end
          end
      | ZErr => Some ZErr | ZPanic => Some ZPanic | ZUb => Some ZUb
      end
  end.
Definition find_insert_slot (T : target) (c : ctor) (hash : N) : option (zres N) :=
  slot_loop (find_fuel (cmask c) (tw T)) T c (probe_seq T (cmask c) hash).

(** [set_ctrl], constructor.rs:312-344 *)
Definition set_ctrl (T : target) (c : ctor) (i b : N) : zres ctor :=
  let wrapped := (i + 2 ^ tub T - tw T) mod 2 ^ tub T in
  let+ i2 := uadd (tub T) (N.land wrapped (cmask c)) (tw T) in
  let+ c := put_ctrl T c i b in
  put_ctrl T c i2 b.

(** [insert], constructor.rs:97-118, with [insert_in_slot], 123-132,
    [record_item_insert_at], 176-179, and [bucket], 136-158 *)
Definition insert (T : target) (c : ctor) (hash : N) (v : V) : option (zres ctor) :=
  match find_insert_slot T c hash with
  | None => None
  | Some slot => Some (
      let+ i := slot in
      let+ old := get_ctrl T c i in
      let+ full := if cgrowth c =? 0 then special_is_empty old else ZOk false in
      if full : bool then ZErr else
      let+ e := special_is_empty old in
      if (e : bool) && (cgrowth c =? 0) then ZPanic else
      let c := {| cctrl := cctrl c; cents := cents c; cmask := cmask c;
                  cgrowth := cgrowth c - (if e then 1 else 0) |} in
      let+ c := set_ctrl T c i (h2 T hash) in
      if (cmask c =? 0) || (cmask c <? i) then ZPanic else
      if i <? lenN (cents c)
      then ZOk {| cctrl := cctrl c; cents := upd (cents c) i v; cmask := cmask c; cgrowth := cgrowth c |}
      else ZPanic)
  end.

Fixpoint inserts (T : target) (c : ctor) (es : list (N * V)) : option (zres ctor) :=
  match es with
  | [] => Some (ZOk c)
  | (h, v) :: es =>
      match insert T c h v with
      | None => None
      | Some (ZOk c) => inserts T c es
      | Some r => Some r
      end
  end.

(** [store_raw], factory.rs:233-283: the entries with their hashes; [zero] is a
    zeroed bucket. [size_of::<T>()], 262, is the size of a tuple and that of its
    [repr(C)] pair: with two fields they are equal. *)
Definition new_ctor (T : target) (zero : V) (buckets : N) : ctor :=
  {| cctrl := List.repeat EMPTY (N.to_nat (buckets + tw T + tw T));
     cents := List.repeat zero (N.to_nat buckets);
     cmask := buckets - 1; cgrowth := bucket_mask_to_capacity (buckets - 1) |}.
Definition store_raw (T : target) (zero : V) (es : list (N * V)) : option (zres table) :=
  match capacity_to_buckets T (lenN es) with
  | None => Some ZPanic
  | Some buckets =>
      match inserts T (new_ctor T zero buckets) es with
      | None => None
      | Some r => Some (let+ c := r in
          (* [len], constructor.rs:86-88 *)
          if cmask c <? cgrowth c then ZPanic else
          ZOk {| ctrl := firstn (N.to_nat (buckets + tw T)) (cctrl c); ents := cents c;
                 bmask := cmask c; tlen := cmask c - cgrowth c |})
      end
  end.
End Table.
Arguments table : clear implicits.
Arguments ctor : clear implicits.

(** ** Maps, map.rs and set.rs *)

(** [store_map], factory.rs:107-146, and [Map::get], map.rs:79-99, [MapRef::get],
    284-304, with an arbitrary hash function of the keys ([Map::hash], 175-183, is
    SipHash, Sip.v). [keq] is the keys' [Eq]. *)
Definition store_map {K V} (T : target) (hf : K -> N) (zero : K * V) (es : list (K * V))
  : option (zres (table (K * V))) :=
  store_raw T zero (map (fun e => (hf (fst e), e)) es).
Definition map_get {K V} (T : target) (hf : K -> N) (keq : K -> K -> bool) (t : table (K * V)) (k : K)
  : option (zres (option V)) :=
  match table_find T t (hf k) (fun e => ZOk (keq (fst e) k)) with
  | None => None
  | Some r => Some (let+ r := r in ZOk (match r with Some e => Some (snd e) | None => None end))
  end.
(** [Map::len], map.rs:116-118 *)
Definition map_len {K V} (t : table (K * V)) : N := tlen t.
