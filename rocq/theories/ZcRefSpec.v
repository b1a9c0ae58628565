(** What the properties of slice references and of searching are stated with. *)
From Verif Require Import Base Options Zc ZcBuf.
Local Open Scope N_scope.

(** The offsets of the [n] elements of size [sz] of a slice at [off]. *)
Definition elems (off sz : N) (n : nat) : list N := map (fun i => off + sz * N.of_nat i) (seq 0 n).

(** Taking from the front (true) or the back (false) of a list of offsets, as a
    script says. *)
Fixpoint deque (script : list bool) (l : list N) : list (option N) :=
  match script with
  | [] => []
  | true :: s =>
      match l with [] => None :: deque s [] | x :: l => Some x :: deque s l end
  | false :: s =>
      match rev l with [] => None :: deque s [] | x :: l => Some x :: deque s (rev l) end
  end.

(** The same with an [Iter]. *)
Fixpoint iter_run (ub : N) (nb e : ByteOrder) (o : osize) (sz : N) (script : list bool) (it : N * N)
  : zres (list (option N)) :=
  match script with
  | [] => ZOk []
  | front :: s =>
      let+ x := if front : bool then iter_next ub nb e o sz it else iter_next_back ub nb e o sz it in
      match x with
      | None => let+ r := iter_run ub nb e o sz s it in ZOk (None :: r)
      | Some (rf, it) => let+ r := iter_run ub nb e o sz s it in ZOk (Some (r_offset nb e o rf) :: r)
      end
  end.

(** [c] compares the elements of a sorted slice with what is searched for: first
    the smaller ones, then the equal ones, then the greater ones. *)
Definition sorted_cmp (c : N -> comparison) (len : N) : Prop :=
  forall i j, i <= j -> j < len ->
    (c i = Gt -> c j = Gt) /\ (c j = Lt -> c i = Lt).

(** The answer of a search. *)
Definition answer (c : N -> comparison) (len : N) (r : bsres) : Prop :=
  match r with
  | Found i => i < len /\ c i = Eq
  | Missing i => i <= len /\ (forall j, j < i -> c j = Lt) /\ (forall j, i <= j -> j < len -> c j = Gt)
  end.
