(** Model of musli-zerocopy's perfect-hash maps: crates/musli-zerocopy/src/phf.

    Paths are relative to that directory. The slices of entries, displacements
    and the temporary map are modelled as lists: their placement in the buffer,
    and loading and swapping their elements, is that of [ZcBuf.v]. *)
From Verif Require Import Base Options Int Zc ZcBuf Sip Swiss.
Local Open Scope N_scope.

(** [Hashes], hashing.rs:8-13, of the two words of a 128 bit hash,
    hashing.rs:32-38; [ub] is the width of [usize]. *)
Record hashes := { hg : N; hf1 : N; hf2 : N }.
Definition mk_hashes (ub : N) (h : N * N) : hashes :=
  {| hg := N.shiftr (fst h) 32 mod 2 ^ ub; hf1 := fst h mod 2 ^ 32; hf2 := snd h mod 2 ^ 32 |}.

(** [displace], hashing.rs:18-20 *)
Definition displace (f1 f2 d1 d2 : N) : N :=
  ((d2 + (f1 * d1) mod 2 ^ 32) mod 2 ^ 32 + f2) mod 2 ^ 32.
(** ... [as usize % table_len], generator.rs:116-117, hashing.rs:54, 77 *)
Definition slot (ub : N) (h : hashes) (d : N * N) (n : N) : N :=
  displace (hf1 h) (hf2 h) (fst d) (snd d) mod 2 ^ ub mod n.

(** [displacements_len], generator.rs:25-27 *)
Definition displacements_len (n : N) : N := (n + 4) / 5.

(** The buckets, generator.rs:84-89: the indices of the entries, in order, by
    [g % buckets.len()] *)
Fixpoint indexed {A} (i : N) (l : list A) : list (N * A) :=
  match l with [] => [] | x :: l => (i, x) :: indexed (i + 1) l end.
Definition bucket_of (hs : list hashes) (L b : N) : list N :=
  map fst (filter (fun ih => hg (snd ih) mod L =? b) (indexed 0 hs)).
Definition range (n : N) : list N := map N.of_nat (seq 0 (N.to_nat n)).
Definition buckets (hs : list hashes) (L : N) : list (list N) := map (bucket_of hs L) (range L).

(** [sort_by_key(|a| a.len())], generator.rs:91: stable *)
Fixpoint insert_len (b : list N) (l : list (list N)) : list (list N) :=
  match l with
  | [] => [b]
  | c :: l => if (length b <=? length c)%nat then b :: c :: l else c :: insert_len b l
  end.
Definition sort_len (l : list (list N)) : list (list N) := fold_right insert_len [] l.

(** The [for key in bucket] loop, generator.rs:114-125. [mp] is the map of
    positions to entries, [umax] = [usize::MAX] where vacant; [try_map] with its
    generations says which positions [added] holds. None: [continue 'inner]. *)
Fixpoint try_bucket (ub : N) (hs : list hashes) (n : N) (mp : list N) (d : N * N) (bucket : list N)
  (added : list (N * N)) : option (list (N * N)) :=
  let umax := 2 ^ ub - 1 in
  match bucket with
  | [] => Some added
  | key :: bucket =>
      match nthN hs key with
      | None => None (* not reached: hashes[key] panics *)
      | Some h =>
          let index := slot ub h d n in
          match nthN mp index with
          | None => None (* not reached: map.at(index) panics *)
          | Some m =>
              if negb (m =? umax) || existsb (fun ik => fst ik =? index) added then None
              else try_bucket ub hs n mp d bucket (added ++ [(index, key)])
          end
      end
  end.

(** The loops over [d1] and [d2] ([table_len as u32]), generator.rs:109-137: the
    first pair that works *)
Fixpoint first_some {A B} (f : A -> option B) (l : list A) : option B :=
  match l with [] => None | x :: l => match f x with Some y => Some y | None => first_some f l end end.
Definition find_disp (ub : N) (hs : list hashes) (n : N) (mp : list N) (bucket : list N)
  : option ((N * N) * list (N * N)) :=
  let ds := range (n mod 2 ^ 32) in
  first_some (fun d1 => first_some (fun d2 =>
    match try_bucket ub hs n mp (d1, d2) bucket [] with Some a => Some ((d1, d2), a) | None => None end) ds) ds.

Definition add_all (mp : list N) (added : list (N * N)) : list N :=
  fold_left (fun mp ik => upd mp (fst ik) (snd ik)) added mp.

(** The outer loop, generator.rs:108-142: the displacements of the sorted buckets,
    in this order, and the map *)
Fixpoint place (ub : N) (hs : list hashes) (n : N) (mp : list N) (bs : list (list N))
  : option (list (N * N) * list N) :=
  match bs with
  | [] => Some ([], mp)
  | b :: bs =>
      match find_disp ub hs n mp b with
      | None => None
      | Some (d, added) =>
          match place ub hs n (add_all mp added) bs with
          | None => None
          | Some (ds, mp) => Some (d :: ds, mp)
          end
      end
  end.

(** [try_generate_hash], generator.rs:61-145 *)
Definition try_generate (ub : N) (hs : list hashes) : option (list (N * N) * list N) :=
  let n := lenN hs in
  place ub hs n (List.repeat (2 ^ ub - 1) (N.to_nat n)) (sort_len (buckets hs (displacements_len n))).

(** [generate_hash], generator.rs:29-59: the seeds are an endless sequence; None:
    not decided after [fuel] of them. *)
Fixpoint generate {K} (fuel : nat) (ub : N) (hf : N -> K -> hashes) (seeds : nat -> N) (i : nat) (ks : list K)
  : option (N * list (N * N) * list N) :=
  match fuel with
  | O => None
  | S fuel =>
      match try_generate ub (map (hf (seeds i)) ks) with
      | Some (ds, mp) => Some (seeds i, ds, mp)
      | None => generate fuel ub hf seeds (S i) ks
      end
  end.

(** [swap], buf/buf.rs:830-870, of two elements *)
Definition swapN {A} (l : list A) (i j : N) : option (list A) :=
  match nthN l i, nthN l j with Some x, Some y => Some (upd (upd l i y) j x) | _, _ => None end.

(** The [loop], factory.rs:183-193: [from != to] *)
Fixpoint settle {A} (fuel : nat) (from : N) (es : list A) (mp : list N) : option (zres (list A * list N)) :=
  match fuel with
  | O => None
  | S fuel =>
      match nthN mp from with
      | None => Some ZPanic
      | Some to =>
          if from =? to then Some (ZOk (es, mp)) else
          match swapN es from to, swapN mp from to with
          | Some es, Some mp => settle fuel from es mp
          | _, _ => Some ZPanic (* at: index out of bounds *)
          end
      end
  end.
(** ... over all positions, factory.rs:182 *)
Fixpoint settle_all {A} (fuel : nat) (froms : list N) (es : list A) (mp : list N) : option (zres (list A * list N)) :=
  match froms with
  | [] => Some (ZOk (es, mp))
  | from :: froms =>
      match settle fuel from es mp with
      | Some (ZOk (es, mp)) => settle_all fuel froms es mp
      | r => r
      end
  end.

(** [MapRef], map.rs:195-208; [SetRef] is the same with unit values. *)
Record phf K V := { pseed : N; pents : list (K * V); pdisp : list (N * N) }.
Arguments pseed {K V}. Arguments pents {K V}. Arguments pdisp {K V}.

(** [store_map], factory.rs:62-78, with [store_raw], 143-199. [hf] is the hash of a
    key under a seed. *)
Definition phf_store {K V} (fuel : nat) (ub : N) (hf : N -> K -> hashes) (seeds : nat -> N) (es : list (K * V))
  : option (zres (phf K V)) :=
  match generate fuel ub hf seeds 0 (map fst es) with
  | None => None
  | Some (seed, ds, mp) =>
      match settle_all (S (length es)) (range (lenN es)) es mp with
      | None => None
      | Some r => Some (let+ (es, _) := r in ZOk {| pseed := seed; pents := es; pdisp := ds |})
      end
  end.

(** [Map::get_entry], map.rs:134-161, [MapRef::get_entry], 333-372, with
    [get_index], hashing.rs:42-58, [get_custom_index], 61-82. A remainder by zero
    panics. *)
Definition get_index (ub : N) (h : hashes) (ds : list (N * N)) (n : N) : zres N :=
  match nthN ds (hg h mod lenN ds) with
  | None => ZErr
  | Some d => if n =? 0 then ZPanic else ZOk (slot ub h d n)
  end.
Definition phf_get {K V} (ub : N) (hf : N -> K -> hashes) (keq : K -> K -> bool) (m : phf K V) (k : K) : zres (option V) :=
  match pdisp m with
  | [] => ZOk None
  | _ =>
      let+ index := get_index ub (hf (pseed m) k) (pdisp m) (lenN (pents m)) in
      match nthN (pents m) index with
      | None => ZOk None
      | Some (k', v) => if keq k' k then ZOk (Some v) else ZOk None
      end
  end.

(** [hash], hashing.rs:23-39, of a [u32]: SipHash under the keys 0 and [seed] *)
Definition sip_u32 (ub seed k : N) : hashes :=
  match h_calls Little (h_new 0 seed) [HInt 4 k] with
  | ZOk h => mk_hashes ub (h_finish h)
  | _ => mk_hashes ub (0, 0)
  end.

(** [SmallRng::seed_from_u64(seed).sample_iter(StandardUniform)], generator.rs:44,
    on 64 bit targets: xoshiro256++ seeded with splitmix64. This is the rand
    crate (0.9), not in the repository; it serves only to exhibit concrete maps,
    the theorems hold for every sequence of seeds. *)
Definition u64m (x : N) : N := x mod 2 ^ 64.
Definition rotl64 (x n : N) : N := N.lor (u64m (N.shiftl x n)) (N.shiftr x (64 - n)).
Definition splitmix (s : N) : N * N :=
  let s := u64m (s + 11400714819323198485) in
  let z := u64m (N.lxor s (N.shiftr s 30) * 13787848793156543929) in
  let z := u64m (N.lxor z (N.shiftr z 27) * 10723151780598845931) in
  (s, N.lxor z (N.shiftr z 31)).
Definition xo_state : Type := N * N * N * N.
Definition xo_seed (seed : N) : xo_state :=
  let (s, a) := splitmix seed in let (s, b) := splitmix s in let (s, c) := splitmix s in let (_, d) := splitmix s in (a, b, c, d).
Definition xo_next (st : xo_state) : N * xo_state :=
  let '(a, b, c, d) := st in
  let r := u64m (rotl64 (u64m (a + d)) 23 + a) in
  let t := u64m (N.shiftl b 17) in
  let c := N.lxor c a in let d := N.lxor d b in let b := N.lxor b c in let a := N.lxor a d in
  let c := N.lxor c t in let d := rotl64 d 45 in
  (r, (a, b, c, d)).
Definition small_rng (seed : N) (i : nat) : N := fst (xo_next (Nat.iter i (fun st => snd (xo_next st)) (xo_seed seed))).
(** [FIXED_SEED], generator.rs:17 *)
Definition phf_seeds : nat -> N := small_rng 1234567890.
