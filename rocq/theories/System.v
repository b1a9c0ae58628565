(** Model of the vectors and boxes of crates/musli-core/src/alloc (vec.rs, boxed.rs) over the allocator [System]
    (system.rs), for 64-bit targets, and of the contract of Rust's global allocator that it relies on. With
    destructors. *)
From Verif Require Import Base.
Local Open Scope N_scope.

Definition usize_max : N := 2 ^ 64 - 1.
Definition isize_max : N := 2 ^ 63 - 1.

(** What happens: a result, a panic, or undefined behaviour. *)
Inductive sout (A : Type) : Type :=
| SDone (a : A)
| SPanic
| SUndef.
Arguments SDone {A} a.
Arguments SPanic {A}.
Arguments SUndef {A}.
Definition sbind {A B} (m : sout A) (f : A -> sout B) : sout B :=
  match m with SDone a => f a | SPanic => SPanic | SUndef => SUndef end.
Notation "'let?' x := m 'in' f" := (sbind m (fun x => f)) (at level 200, x pattern, m at level 100, f at level 200).

(** A type of elements: size_of, align_of and whether it is [Copy]. *)
Record ety := mke { e_size : N; e_align : N; e_copy : bool }.

Definition ety_eqb (a b : ety) : bool :=
  (e_size a =? e_size b) && (e_align a =? e_align b) && Bool.eqb (e_copy a) (e_copy b).

(** An element of such a type, told from others by a number. *)
Definition item : Type := N.

(** ** The global allocator *)

(** A block: its layout and the elements that it has room for, [None] where it is not initialised. *)
Record block := mkb { b_size : N; b_align : N; b_cells : list (option item) }.

(** The blocks that were allocated, in order; [None] for those that are freed. A block that moves is a new one. [h_count] is
    the number of requests so far. *)
Record heap := mkheap { h_blocks : list (option block); h_count : nat }.

Definition block_at (h : heap) (i : nat) : option block :=
  match nth_error (h_blocks h) i with Some (Some b) => Some b | _ => None end.
Fixpoint set_at {A} (l : list A) (i : nat) (x : A) : list A :=
  match l, i with
  | [], _ => []
  | _ :: t, O => x :: t
  | y :: t, S i' => y :: set_at t i' x
  end.
Definition set_block (h : heap) (i : nat) (b : option block) : heap := mkheap (set_at (h_blocks h) i b) (h_count h).

Definition uninit (n : N) : list (option item) := repeat None (N.to_nat n).

(** [alloc::alloc]: the size must not be zero and a multiple of the alignment, which is the case for arrays, must not
    exceed [isize::MAX]. [env] says which requests are granted. *)
Definition galloc (env : nat -> bool) (h : heap) (size al n : N) : sout (option nat * heap) :=
  if (size =? 0) || (isize_max <? size) then SUndef
  else if env (h_count h) then
    SDone (Some (length (h_blocks h)), mkheap (h_blocks h ++ [Some (mkb size al (uninit n))]) (S (h_count h)))
  else SDone (None, mkheap (h_blocks h) (S (h_count h))).

(** [alloc::realloc]: the block must be allocated and have the given layout. [n] is the number of elements there is
    room for afterwards. *)
Definition grealloc (env : nat -> bool) (h : heap) (i : nat) (size al new n : N) : sout (option nat * heap) :=
  match block_at h i with
  | None => SUndef
  | Some b =>
      if negb ((b_size b =? size) && (b_align b =? al)) || (new =? 0) || (isize_max <? new) then SUndef
      else if env (h_count h) then
        let cells := firstn (N.to_nat n) (b_cells b ++ uninit (n - lenN (b_cells b))) in
        SDone (Some (length (h_blocks h)),
               mkheap (set_at (h_blocks h) i None ++ [Some (mkb new al cells)]) (S (h_count h)))
      else SDone (None, mkheap (h_blocks h) (S (h_count h)))
  end.

(** [alloc::dealloc] *)
Definition gdealloc (h : heap) (i : nat) (size al : N) : sout heap :=
  match block_at h i with
  | None => SUndef
  | Some b => if (b_size b =? size) && (b_align b =? al) then SDone (set_block h i None) else SUndef
  end.

(** Writing elements through a pointer into a block *)
Fixpoint write_cells (cells : list (option item)) (at_ : nat) (xs : list item) : option (list (option item)) :=
  match xs with
  | [] => Some cells
  | x :: r => if Nat.ltb at_ (length cells) then write_cells (set_at cells at_ (Some x)) (S at_) r else None
  end.
Definition write_items (h : heap) (i : option nat) (at_ : N) (xs : list item) : sout heap :=
  match xs with
  | [] => SDone h
  | _ =>
      match i with
      | None => SUndef
      | Some i =>
          match block_at h i with
          | None => SUndef
          | Some b =>
              match write_cells (b_cells b) (N.to_nat at_) xs with
              | None => SUndef
              | Some cells => SDone (set_block h i (Some (mkb (b_size b) (b_align b) cells)))
              end
          end
      end
  end.

(** Reading [n] of them from the start: they must be initialised. *)
Fixpoint all_some {A} (l : list (option A)) : option (list A) :=
  match l with
  | [] => Some []
  | Some x :: r => match all_some r with Some xs => Some (x :: xs) | None => None end
  | None :: _ => None
  end.
Definition read_items (h : heap) (i : option nat) (n : N) : sout (list item) :=
  if n =? 0 then SDone []
  else match i with
       | None => SUndef
       | Some i =>
           match block_at h i with
           | None => SUndef
           | Some b =>
               if N.of_nat (length (b_cells b)) <? n then SUndef
               else match all_some (firstn (N.to_nat n) (b_cells b)) with Some xs => SDone xs | None => SUndef end
           end
       end.

(** ** SystemAlloc *)

(** vec.rs:30-36 with system.rs:96-100: the element type, [data] ([None] when it is dangling), [size] and the length *)
Record svec := mksv { s_ty : ety; s_data : option nat; s_cap : N; s_len : N }.
Definition with_slen (v : svec) n := mksv (s_ty v) (s_data v) (s_cap v) n.

(** Elements of a type of size zero are all the same. *)
Definition zst_item : item := 0.

(** system.rs:144-150 *)
Definition svec_capacity (v : svec) : N := if e_size (s_ty v) =? 0 then usize_max else s_cap v.

(** MIN_NON_ZERO_CAP, system.rs:179-185 *)
Definition min_non_zero_cap (t : ety) : N :=
  if e_size t =? 1 then 8 else if e_size t <=? 1024 then 4 else 1.

(** [Layout::array::<T>(n)]: the size, unless it is too large. *)
Definition layout_array (t : ety) (n : N) : option N :=
  if isize_max - (e_align t - 1) <? n * e_size t then None else Some (n * e_size t).

(** realloc, system.rs:197-221 *)
Definition srealloc (env : nat -> bool) (h : heap) (v : svec) (new n : N) : sout (option nat * heap) :=
  let t := s_ty v in
  if 0 <? s_cap v then
    match s_data v with
    | None => SUndef
    | Some i => grealloc env h i ((s_cap v * e_size t) mod 2 ^ 64) (e_align t) new n
    end
  else galloc env h new (e_align t) n.

(** [a * 2] on usize *)
Definition udouble (dbg : bool) (a : N) : sout N :=
  if a * 2 <=? usize_max then SDone (a * 2) else if dbg then SPanic else SDone ((a * 2) mod 2 ^ 64).

(** resize and reserve, system.rs:152-163, 223-247 *)
Definition sresize (env : nat -> bool) (dbg : bool) (h : heap) (v : svec) (len additional : N) : sout (bool * svec * heap) :=
  let t := s_ty v in
  if e_size t =? 0 then SDone (true, v, h)
  else
    let required := len + additional in
    if usize_max <? required then SDone (false, v, h)
    else if required <=? s_cap v then SDone (true, v, h)
    else
      let? twice := udouble dbg (s_cap v) in
      let cap := N.max (min_non_zero_cap t) (N.max twice required) in
      match layout_array t cap with
      | None => SDone (false, v, h)
      | Some new =>
          let? (r, h) := srealloc env h v new cap in
          match r with
          | None => SDone (false, v, h)
          | Some i => SDone (true, mksv t (Some i) cap (s_len v), h)
          end
      end.

(** free, system.rs:249-263 *)
Definition sfree (h : heap) (v : svec) : sout heap :=
  let t := s_ty v in
  if (e_size t =? 0) || (s_cap v =? 0) then SDone h
  else match s_data v with
       | None => SUndef
       | Some i => gdealloc h i (s_cap v * e_size t) (e_align t)
       end.

(** ** Vectors *)

(** The elements [0..n] as [as_slice] or a destructor sees them, vec.rs:336-340 *)
Definition svec_items (h : heap) (v : svec) : sout (list item) :=
  if e_size (s_ty v) =? 0 then SDone (repeat zst_item (N.to_nat (s_len v)))
  else read_items h (s_data v) (s_len v).

(** What running the destructors of elements adds to the log: nothing for types that are [Copy]. *)
Definition dropped (t : ety) (xs : list item) : list item := if e_copy t then [] else xs.

(** vec.rs:66-71 with system.rs:85-89, 188-191 *)
Definition svec_new (t : ety) : svec := mksv t None 0 0.

(** vec.rs:111-115. The buffer is dropped on failure. *)
Definition svec_with_capacity (env : nat -> bool) (dbg : bool) (h : heap) (t : ety) (n : N) : sout (option svec * heap) :=
  let? (r, h) := sresize env dbg h (svec_new t) 0 n in
  let '(ok, v) := r : bool * svec in
  if ok then SDone (Some v, h) else let? h := sfree h v in SDone (None, h).

(** vec.rs:191-197 *)
Definition svec_reserve (env : nat -> bool) (dbg : bool) (h : heap) (v : svec) (n : N) : sout (bool * svec * heap) :=
  if e_size (s_ty v) =? 0 then SDone (true, v, h) else sresize env dbg h v (s_len v) n.

(** [a + b] on usize *)
Definition uadd (dbg : bool) (a b : N) : sout N :=
  if a + b <=? usize_max then SDone (a + b) else if dbg then SPanic else SDone ((a + b) mod 2 ^ 64).

(** vec.rs:244-257, with what is added to the log of destructors: [item] is only moved from where it is
    written. *)
Definition svec_push (env : nat -> bool) (dbg : bool) (h : heap) (v : svec) (x : item) :
    sout (bool * svec * heap * list item) :=
  let t := s_ty v in
  if e_size t =? 0 then
    let? l := uadd dbg (s_len v) 1 in SDone (true, with_slen v l, h, dropped t [x])
  else
    let? (r, h) := sresize env dbg h v (s_len v) 1 in
    let '(ok, v) := r : bool * svec in
    if negb ok then SDone (false, v, h, dropped t [x])
    else
      let? h := write_items h (s_data v) (s_len v) [x] in
      let? l := uadd dbg (s_len v) 1 in
      SDone (true, with_slen v l, h, []).

(** vec.rs:281-289 *)
Definition svec_pop (h : heap) (v : svec) : sout (option item * svec) :=
  if s_len v =? 0 then SDone (None, v)
  else
    let? xs := svec_items h v in
    SDone (Some (last xs zst_item), with_slen v (s_len v - 1)).

(** vec.rs:313-317 *)
Definition svec_clear (h : heap) (v : svec) : sout (svec * list item) :=
  let? xs := svec_items h v in
  SDone (with_slen v 0, dropped (s_ty v) xs).

(** vec.rs:596-603, and system.rs:266-271 for the buffer *)
Definition svec_drop (h : heap) (v : svec) : sout (heap * list item) :=
  let? (v, log) := svec_clear h v in
  let? h := sfree h v in
  SDone (h, log).

(** vec.rs:478-493 *)
Definition svec_extend_from_slice (env : nat -> bool) (dbg : bool) (h : heap) (v : svec) (xs : list item) :
    sout (bool * svec * heap) :=
  let n := lenN xs in
  if e_size (s_ty v) =? 0 then
    let? l := uadd dbg (s_len v) n in SDone (true, with_slen v l, h)
  else
    let? (r, h) := sresize env dbg h v (s_len v) n in
    let '(ok, v) := r : bool * svec in
    if negb ok then SDone (false, v, h)
    else
      let? h := write_items h (s_data v) (s_len v) xs in
      let? l := uadd dbg (s_len v) n in
      SDone (true, with_slen v l, h).

(** vec.rs:519-531 with try_merge, system.rs:165-175: [o] is consumed. *)
Definition svec_extend (env : nat -> bool) (dbg : bool) (h : heap) (v o : svec) : sout (bool * svec * heap) :=
  if e_size (s_ty v) =? 0 then
    let? l := uadd dbg (s_len v) (s_len o) in SDone (true, with_slen v l, h)
  else
    let? xs := svec_items h o in
    let? (r, h) := svec_extend_from_slice env dbg h v xs in
    let '(ok, v) := r : bool * svec in
    let? (h, _) := svec_drop h o in
    SDone (ok, v, h).

(** boxed.rs:59-63 with system.rs:71-83, 102-125: a box is a vector of one element that never grows. [value] is only
    moved from where it is written. *)
Definition sbox_new (env : nat -> bool) (h : heap) (t : ety) (x : item) : sout (option svec * heap * list item) :=
  if e_size t =? 0 then SDone (Some (mksv t None 1 1), h, dropped t [x])
  else
    let? (r, h) := galloc env h (e_size t) (e_align t) 1 in
    match r with
    | None => SDone (None, h, dropped t [x])
    | Some i =>
        let? h := write_items h (Some i) 0 [x] in
        SDone (Some (mksv t (Some i) 1 1), h, [])
    end.

(** vec.rs:777-799: the vector of the standard library has allocated room for [cap] elements. *)
Definition svec_from_std (h : heap) (t : ety) (xs : list item) (cap : N) : svec * heap :=
  if (e_size t =? 0) then (mksv t None usize_max (lenN xs), h)
  else if cap =? 0 then (mksv t None 0 (lenN xs), h)
  else (mksv t (Some (length (h_blocks h))) cap (lenN xs),
        mkheap (h_blocks h ++ [Some (mkb (cap * e_size t) (e_align t) (map Some xs ++ uninit (cap - lenN xs)))]) (h_count h)).

(** vec.rs:75-90: the contract of [Vec::from_raw_parts] is that the block has the layout of [cap] elements, or that nothing is
    allocated for a capacity of zero and for types of size zero. The block then belongs to the standard library. *)
Definition svec_into_std (h : heap) (v : svec) : sout (list item * N * heap) :=
  let t := s_ty v in
  let cap := svec_capacity v in
  let? xs := svec_items h v in
  if cap <? s_len v then SUndef
  else if (e_size t =? 0) || (cap =? 0) then SDone (xs, cap, h)
  else match s_data v with
       | None => SUndef
       | Some i => let? h := gdealloc h i (cap * e_size t) (e_align t) in SDone (xs, cap, h)
       end.

(** ** Programs: histories of calls on any number of vectors *)

Inductive sop :=
| PNew (t : ety)
| PWithCapacity (t : ety) (n : N)
| PBox (t : ety) (x : item)
| PFromStd (t : ety) (xs : list item) (cap : N)
| PPush (v : nat) (x : item)
| PExtendFromSlice (v : nat) (xs : list item)
| PReserve (v : nat) (n : N)
| PPop (v : nat)
| PClear (v : nat)
| PExtend (v o : nat)
| PIntoStd (v : nat)
| PDrop (v : nat).

Inductive sreply := RDone | RFailed | RPopped (x : option item) | RStd (xs : list item) (cap : N).
Definition sreply_of (ok : bool) : sreply := if ok then RDone else RFailed.

(** The vectors in the order in which they were made, [None] when they are gone, and the elements whose
    destructors have run, with their types. *)
Record sworld := mksw { w_heap : heap; w_vecs : list (option svec); w_log : list (ety * item) }.
Definition vec_at (w : sworld) (i : nat) : option svec :=
  match nth_error (w_vecs w) i with Some (Some v) => Some v | _ => None end.
Definition tag (t : ety) (xs : list item) : list (ety * item) := map (fun x => (t, x)) xs.

(** One call. The type system and the borrow checker rule out the calls that panic here. *)
Definition sstep (env : nat -> bool) (dbg : bool) (w : sworld) (o : sop) : sout (sreply * sworld) :=
  let h := w_heap w in
  let vs := w_vecs w in
  let log := w_log w in
  match o with
  | PNew t => SDone (RDone, mksw h (vs ++ [Some (svec_new t)]) log)
  | PWithCapacity t n =>
      let? (r, h) := svec_with_capacity env dbg h t n in
      SDone (sreply_of (match r with Some _ => true | None => false end), mksw h (vs ++ [r]) log)
  | PBox t x =>
      let? (r, l) := sbox_new env h t x in
      let '(r, h) := r : option svec * heap in
      SDone (sreply_of (match r with Some _ => true | None => false end), mksw h (vs ++ [r]) (log ++ tag t l))
  | PFromStd t xs cap =>
      if (cap <? lenN xs) || (isize_max - (e_align t - 1) <? cap * e_size t) then SPanic
      else let (v, h) := svec_from_std h t xs cap in SDone (RDone, mksw h (vs ++ [Some v]) log)
  | PPush i x =>
      match vec_at w i with
      | None => SPanic
      | Some v =>
          let? (r, l) := svec_push env dbg h v x in
          let '(ok, v', h) := r : bool * svec * heap in
          SDone (sreply_of ok, mksw h (set_at vs i (Some v')) (log ++ tag (s_ty v) l))
      end
  | PExtendFromSlice i xs =>
      match vec_at w i with
      | None => SPanic
      | Some v =>
          if negb (e_copy (s_ty v)) then SPanic
          else
            let? (r, h) := svec_extend_from_slice env dbg h v xs in
            let '(ok, v') := r : bool * svec in
            SDone (sreply_of ok, mksw h (set_at vs i (Some v')) log)
      end
  | PReserve i n =>
      match vec_at w i with
      | None => SPanic
      | Some v =>
          let? (r, h) := svec_reserve env dbg h v n in
          let '(ok, v') := r : bool * svec in
          SDone (sreply_of ok, mksw h (set_at vs i (Some v')) log)
      end
  | PPop i =>
      match vec_at w i with
      | None => SPanic
      | Some v =>
          let? (x, v') := svec_pop h v in
          SDone (RPopped x, mksw h (set_at vs i (Some v')) log)
      end
  | PClear i =>
      match vec_at w i with
      | None => SPanic
      | Some v =>
          let? (v', l) := svec_clear h v in
          SDone (RDone, mksw h (set_at vs i (Some v')) (log ++ tag (s_ty v) l))
      end
  | PExtend i j =>
      if Nat.eqb i j then SPanic
      else match vec_at w i, vec_at w j with
           | Some v, Some o =>
               if negb (e_copy (s_ty v)) || negb (ety_eqb (s_ty v) (s_ty o)) then SPanic
               else
                 let? (r, h) := svec_extend env dbg h v o in
                 let '(ok, v') := r : bool * svec in
                 SDone (sreply_of ok, mksw h (set_at (set_at vs i (Some v')) j None) log)
           | _, _ => SPanic
           end
  | PIntoStd i =>
      match vec_at w i with
      | None => SPanic
      | Some v =>
          let? (r, h) := svec_into_std h v in
          let '(xs, cap) := r : list item * N in
          SDone (RStd xs cap, mksw h (set_at vs i None) log)
      end
  | PDrop i =>
      match vec_at w i with
      | None => SPanic
      | Some v =>
          let? (h, l) := svec_drop h v in
          SDone (RDone, mksw h (set_at vs i None) (log ++ tag (s_ty v) l))
      end
  end.

Fixpoint srun (env : nat -> bool) (dbg : bool) (w : sworld) (ops : list sop) : sout (list sreply * sworld) :=
  match ops with
  | [] => SDone ([], w)
  | o :: r =>
      let? (a, w) := sstep env dbg w o in
      let? (l, w) := srun env dbg w r in
      SDone (a :: l, w)
  end.

Definition sworld_empty : sworld := mksw (mkheap [] 0) [] [].
