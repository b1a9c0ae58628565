(** What the slice allocator and its vectors are supposed to do, in terms of
    the calls a program makes and of what it can see. *)
From Coq Require Import List NArith Bool.
From Verif Require Import Base Alloc.
Import ListNotations.
Open Scope N_scope.

(** ** Ordinary lists

    Each handle stands for a list of elements, together with the size and
    alignment of its element type; dropped, moved and never made handles are
    [None]. *)
Record seqn := mkq { q_sz : N; q_al : N; q_items : list bytes }.
Definition lists := list (option seqn).

Definition lget (l : lists) (h : nat) : option seqn :=
  match nth_error l h with Some (Some q) => Some q | _ => None end.
Definition lput (l : lists) (h : nat) (q : option seqn) : lists := put l h q.
Definition with_items (q : seqn) (xs : list bytes) : seqn := mkq (q_sz q) (q_al q) xs.

(** A Rust type layout: the alignment is a power of two and divides the
    size, which is at most isize::MAX. *)
Definition layout_ok (sz al : N) : Prop := (exists k, al = 2 ^ k) /\ sz mod al = 0 /\ sz < 2 ^ 63.

(** The calls a well-typed program can make, given the lists its handles stand
    for.  Lengths are of type usize. *)
Definition call_ok (l : lists) (o : op) : Prop :=
  match o with
  | ONew sz al => layout_ok sz al
  | OWithCapacity sz al n => layout_ok sz al /\ n < usz
  | OBox sz al value => layout_ok sz al /\ lenN value = sz
  | OPush h value =>
      exists q, lget l h = Some q /\ lenN value = q_sz q /\ lenN (q_items q) + 1 < usz
  | OExtendFromSlice h items =>
      exists q, lget l h = Some q /\ Forall (fun x => lenN x = q_sz q) items
                /\ lenN (q_items q) + lenN items < usz
  | OReserve h n =>
      exists q, lget l h = Some q /\ lenN (q_items q) + n < usz
  | OPop h | OClear h | ODrop h => exists q, lget l h = Some q
  | OExtend h g =>
      h <> g /\
      exists q p, lget l h = Some q /\ lget l g = Some p
                  /\ q_sz q = q_sz p /\ q_al q = q_al p
                  /\ lenN (q_items q) + lenN (q_items p) < usz
  end.

(** What the same call does to ordinary lists when it answers [r]: [None] when
    it must not answer that. A call that reports failure leaves the lists
    alone, except that [extend] always consumes its argument. *)
Definition list_step (l : lists) (o : op) (r : reply) : option lists :=
  match o, r with
  | ONew sz al, RDone => Some (l ++ [Some (mkq sz al [])])
  | OWithCapacity sz al n, RDone => Some (l ++ [Some (mkq sz al [])])
  | OWithCapacity sz al n, RFailed => Some (l ++ [None])
  | OBox sz al value, RDone => Some (l ++ [Some (mkq sz al [value])])
  | OBox sz al value, RFailed => Some (l ++ [None])
  | OPush h value, RDone =>
      match lget l h with
      | Some q => Some (lput l h (Some (with_items q (q_items q ++ [value]))))
      | None => None
      end
  | OExtendFromSlice h items, RDone =>
      match lget l h with
      | Some q => Some (lput l h (Some (with_items q (q_items q ++ items))))
      | None => None
      end
  | OPush _ _, RFailed | OExtendFromSlice _ _, RFailed
  | OReserve _ _, RFailed | OReserve _ _, RDone => Some l
  | OPop h, RPopped x =>
      match lget l h with
      | Some q =>
          match rev (q_items q), x with
          | [], None => Some l
          | y :: t, Some x' =>
              if list_eq_dec N.eq_dec x' y then Some (lput l h (Some (with_items q (rev t)))) else None
          | _, _ => None
          end
      | None => None
      end
  | OClear h, RDone =>
      match lget l h with
      | Some q => Some (lput l h (Some (with_items q [])))
      | None => None
      end
  | OExtend h g, RDone =>
      match lget l h, lget l g with
      | Some q, Some p =>
          Some (lput (lput l h (Some (with_items q (q_items q ++ q_items p)))) g None)
      | _, _ => None
      end
  | OExtend h g, RFailed => Some (lput l g None)
  | ODrop h, RDone => Some (lput l h None)
  | _, _ => None
  end.

Fixpoint list_run (l : lists) (ops : list op) (rs : list reply) : option lists :=
  match ops, rs with
  | [], [] => Some l
  | o :: ops', r :: rs' =>
      match list_step l o r with
      | Some l' => list_run l' ops' rs'
      | None => None
      end
  | _, _ => None
  end.

(** The history makes only calls a well-typed program can make. *)
Fixpoint calls_ok (l : lists) (ops : list op) (rs : list reply) : Prop :=
  match ops, rs with
  | o :: ops', r :: rs' =>
      call_ok l o /\
      match list_step l o r with
      | Some l' => calls_ok l' ops' rs'
      | None => True
      end
  | _, _ => True
  end.

(** ** What a program can see *)

(** The vectors hold exactly these lists. *)
Definition holds (w : world) (l : lists) : Prop :=
  length (w_vecs w) = length l /\
  forall h q, lget l h = Some q ->
  exists v, get w h = Some v /\ v_sz v = q_sz q /\ v_al v = q_al q
            /\ v_len v = lenN (q_items q)
            /\ vec_items (w_alloc w) v = Done (q_items q).

(** The memory a vector may write: from its pointer, as many bytes as its
    elements and its spare capacity take. *)
Definition extent (s : ast) (v : vec) : N * N :=
  (as_ptr s v, as_ptr s v + vec_capacity s v).

(** Live vectors of sized elements: aligned, inside the buffer
    [base, base + size), big enough for their elements, and no two of them
    share a byte. *)
Definition separate (base size : N) (w : world) : Prop :=
  (forall h v, get w h = Some v -> v_sz v <> 0 ->
     as_ptr (w_alloc w) v mod v_al v = 0
     /\ v_len v * v_sz v <= vec_capacity (w_alloc w) v
     /\ (vec_capacity (w_alloc w) v <> 0 ->
         base <= fst (extent (w_alloc w) v) /\ snd (extent (w_alloc w) v) <= base + size)) /\
  (forall h g v o, h <> g -> get w h = Some v -> get w g = Some o ->
     v_sz v <> 0 -> v_sz o <> 0 ->
     vec_capacity (w_alloc w) v = 0 \/ vec_capacity (w_alloc w) o = 0 \/
     snd (extent (w_alloc w) v) <= fst (extent (w_alloc w) o) \/
     snd (extent (w_alloc w) o) <= fst (extent (w_alloc w) v)).

(** A buffer a program can own: its addresses are not zero, and fit. *)
Definition buffer_ok (base size : N) : Prop := 0 < base /\ base + size < 2 ^ 63.

(** ** A way of using the allocator

    The program works on its newest vector only, releases (drops, or merges
    into the one below) only the newest, and makes a new one between any two
    releases.  [stack]: the live vectors, newest first; [spare]: a release has
    happened since the last vector was made; [next]: the next handle.  No
    boxes, no zero-sized elements, and alignments divide the buffer's
    address. *)
Definition tidy_step (base : N) (stack : list nat) (spare : bool) (next : nat) (o : op) (r : reply)
  : option (list nat * bool * nat) :=
  match o, stack with
  | ONew sz al, _ =>
      if negb (sz =? 0) && (base mod al =? 0) then Some (next :: stack, false, S next) else None
  | OWithCapacity sz al _, _ =>
      if negb (sz =? 0) && (base mod al =? 0) then
        match r with
        | RDone => Some (next :: stack, false, S next)
        | _ => Some (stack, true, S next)
        end
      else None
  | OBox _ _ _, _ => None
  | OPush h _, top :: _ | OExtendFromSlice h _, top :: _ | OReserve h _, top :: _ =>
      if Nat.eqb h top then Some (stack, spare, next) else None
  | OPop _, _ | OClear _, _ => Some (stack, spare, next)
  | OExtend h g, top :: below :: t =>
      if negb spare && Nat.eqb g top && Nat.eqb h below then Some (below :: t, true, next) else None
  | ODrop h, top :: t =>
      if negb spare && Nat.eqb h top then Some (t, true, next) else None
  | _, _ => None
  end.

(** The stack after the history, if it was tidy. *)
Fixpoint tidy (base : N) (stack : list nat) (spare : bool) (next : nat) (ops : list op) (rs : list reply)
  : option (list nat * bool * nat) :=
  match ops, rs with
  | o :: ops', r :: rs' =>
      match tidy_step base stack spare next o r with
      | Some (stack', spare', next') => tidy base stack' spare' next' ops' rs'
      | None => None
      end
  | _, _ => Some (stack, spare, next)
  end.

(** The handles a call acts on. *)
Definition acts_on (h : nat) (o : op) : Prop :=
  match o with
  | ONew _ _ | OWithCapacity _ _ _ | OBox _ _ _ => False
  | OPush g _ | OExtendFromSlice g _ | OReserve g _ | OPop g | OClear g | ODrop g => g = h
  | OExtend g k => g = h \/ k = h
  end.
