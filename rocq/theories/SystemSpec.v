(** What vectors and boxes over [System] are for a program: lists of elements, and elements whose destructors have run. *)
From Verif Require Import Base System.
Local Open Scope N_scope.

(** What Rust guarantees of a type of elements that is not of size zero. *)
Definition sized (t : ety) : Prop := 0 < e_size t /\ 1 <= e_align t <= isize_max /\ e_size t <= isize_max - (e_align t - 1).

(** The vectors in the order in which they were made, and what has been destroyed. *)
Record lists := mkl { l_vecs : list (option (ety * list item)); l_gone : list (ety * item) }.
Definition list_at (w : lists) (i : nat) (t : ety) (xs : list item) : Prop := nth_error (l_vecs w) i = Some (Some (t, xs)).
Definition add (w : lists) (x : option (ety * list item)) : lists := mkl (l_vecs w ++ [x]) (l_gone w).
Definition put (w : lists) (i : nat) (x : option (ety * list item)) : lists := mkl (set_at (l_vecs w) i x) (l_gone w).
(** Elements of [Copy] types have no destructors. *)
Definition gone (w : lists) (t : ety) (xs : list item) : lists :=
  mkl (l_vecs w) (l_gone w ++ if e_copy t then [] else map (fun x => (t, x)) xs).
Definition last_of (xs : list item) (x : option item) (rest : list item) : Prop :=
  (xs = [] /\ x = None /\ rest = []) \/ (exists y, xs = rest ++ [y] /\ x = Some y).

(** The replies that a call may have, and what it does. What needs memory may fail: then vectors keep their elements, and
    elements that were handed in are destroyed. *)
Inductive call : lists -> sop -> sreply -> lists -> Prop :=
| call_new w t : call w (PNew t) RDone (add w (Some (t, [])))
| call_with w t n : call w (PWithCapacity t n) RDone (add w (Some (t, [])))
| call_with_fails w t n : call w (PWithCapacity t n) RFailed (add w None)
| call_box w t x : call w (PBox t x) RDone (add w (Some (t, [x])))
| call_box_fails w t x : call w (PBox t x) RFailed (gone (add w None) t [x])
| call_from_std w t xs cap : lenN xs <= cap -> call w (PFromStd t xs cap) RDone (add w (Some (t, xs)))
| call_push w i t xs x : list_at w i t xs -> call w (PPush i x) RDone (put w i (Some (t, xs ++ [x])))
| call_push_fails w i t xs x : list_at w i t xs -> call w (PPush i x) RFailed (gone w t [x])
| call_slice w i t xs ys : list_at w i t xs -> e_copy t = true ->
    call w (PExtendFromSlice i ys) RDone (put w i (Some (t, xs ++ ys)))
| call_slice_fails w i t xs ys : list_at w i t xs -> e_copy t = true -> call w (PExtendFromSlice i ys) RFailed w
| call_reserve w i t xs n : list_at w i t xs -> call w (PReserve i n) RDone w
| call_reserve_fails w i t xs n : list_at w i t xs -> call w (PReserve i n) RFailed w
| call_pop w i t xs x rest : list_at w i t xs -> last_of xs x rest -> call w (PPop i) (RPopped x) (put w i (Some (t, rest)))
| call_clear w i t xs : list_at w i t xs -> call w (PClear i) RDone (gone (put w i (Some (t, []))) t xs)
| call_extend w i j t xs ys : i <> j -> list_at w i t xs -> list_at w j t ys -> e_copy t = true ->
    call w (PExtend i j) RDone (put (put w i (Some (t, xs ++ ys))) j None)
| call_extend_fails w i j t xs ys : i <> j -> list_at w i t xs -> list_at w j t ys -> e_copy t = true ->
    call w (PExtend i j) RFailed (put w j None)
| call_into_std w i t xs cap : list_at w i t xs -> lenN xs <= cap -> call w (PIntoStd i) (RStd xs cap) (put w i None)
| call_drop w i t xs : list_at w i t xs -> call w (PDrop i) RDone (gone (put w i None) t xs).

Inductive calls : lists -> list sop -> list sreply -> lists -> Prop :=
| calls_nil w : calls w [] [] w
| calls_cons w o r w1 os rs w2 : call w o r w1 -> calls w1 os rs w2 -> calls w (o :: os) (r :: rs) w2.

Definition no_lists : lists := mkl [] [].

(** The calls that a program can make: of vectors that it has, elements only copied when they are [Copy], and vectors of the
    standard library that can exist. *)
Definition allowed (w : lists) (o : sop) : Prop :=
  match o with
  | PNew _ | PWithCapacity _ _ | PBox _ _ => True
  | PFromStd t xs cap => lenN xs <= cap /\ cap * e_size t <= isize_max - (e_align t - 1)
  | PPush i _ | PReserve i _ | PPop i | PClear i | PIntoStd i | PDrop i => exists t xs, list_at w i t xs
  | PExtendFromSlice i _ => exists t xs, list_at w i t xs /\ e_copy t = true
  | PExtend i j => i <> j /\ exists t xs ys, list_at w i t xs /\ list_at w j t ys /\ e_copy t = true
  end.

(** The types in a call *)
Definition types_of (o : sop) : list ety :=
  match o with
  | PNew t | PWithCapacity t _ | PBox t _ | PFromStd t _ _ => [t]
  | _ => []
  end.

(** The elements handed to a call, and back *)
Definition given (o : sop) : list item :=
  match o with PBox _ x | PPush _ x => [x] | PFromStd _ xs _ => xs | _ => [] end.
Definition returned (r : sreply) : list item :=
  match r with RPopped (Some x) => [x] | RStd xs _ => xs | _ => [] end.
(** The elements that live vectors hold *)
Definition held (w : lists) : list item :=
  flat_map (fun v => match v with Some (_, xs) => xs | None => [] end) (l_vecs w).

(** The memory that a call asks for where there is too little: for elements of which type and for how many, at
    most *)
Inductive asks (w : sworld) : sop -> ety -> N -> Prop :=
| asks_with t n : asks w (PWithCapacity t n) t (N.max 8 n)
| asks_push i v x : vec_at w i = Some v -> asks w (PPush i x) (s_ty v) (N.max 8 (N.max (2 * svec_capacity v) (s_len v + 1)))
| asks_slice i v xs : vec_at w i = Some v -> asks w (PExtendFromSlice i xs) (s_ty v) (N.max 8 (N.max (2 * svec_capacity v) (s_len v + lenN xs)))
| asks_reserve i v n : vec_at w i = Some v -> asks w (PReserve i n) (s_ty v) (N.max 8 (N.max (2 * svec_capacity v) (s_len v + n)))
| asks_extend i j v o : vec_at w i = Some v -> vec_at w j = Some o ->
    asks w (PExtend i j) (s_ty v) (N.max 8 (N.max (2 * svec_capacity v) (s_len v + s_len o))).
