(** Shared vocabulary of the model: results, byte strings, bounded loops.
    Nothing in this file models a particular function of the repository except
    where a citation says so. *)
From Coq Require Export List NArith ZArith Bool Lia.
Export ListNotations.

(** A Rust [Result], with panics (overflow checks, out-of-bounds indexing) as a
    separate outcome. *)
Inductive res (A : Type) : Type :=
| Ok (a : A)
| Err
| Panic.
Arguments Ok {A} a.
Arguments Err {A}.
Arguments Panic {A}.

(** The [?] operator. *)
Definition bind {A B} (r : res A) (f : A -> res B) : res B :=
  match r with
  | Ok a => f a
  | Err => Err
  | Panic => Panic
  end.

Notation "'let*' x ':=' r 'in' k" := (bind r (fun x => k))
  (at level 200, x pattern, r at level 100, k at level 200, right associativity).

Definition is_ok {A} (r : res A) : bool := match r with Ok _ => true | _ => false end.

(** Byte strings. A Rust [u8] is an [N] below 256. *)
Definition byte := N.
Definition bytes := list N.
Definition byte_ok (b : N) : bool := (b <? 256)%N.
Definition bytes_ok (bs : bytes) : bool := forallb byte_ok bs.

(** A decoder reads from a slice reader: the state is the remaining input.
    Models [Reader for &[u8]], crates/musli/src/reader.rs:240-330; see [IO.v]
    for the reader operations themselves. *)
Definition dec (A : Type) := bytes -> res (A * bytes).

Definition ret {A} (a : A) : dec A := fun bs => Ok (a, bs).

(** [n] rounds of [f], stopping at the first failure. The recursion is on the
    binary number so that a count read from untrusted input is a legal loop
    bound; it is the loop [for _ in 0..n { s = f(s)?; }]. *)
Fixpoint iter_pos {S : Type} (p : positive) (f : S -> res S) (s : S) : res S :=
  match p with
  | xH => f s
  | xO q => let* s1 := iter_pos q f s in iter_pos q f s1
  | xI q => let* s0 := f s in let* s1 := iter_pos q f s0 in iter_pos q f s1
  end.

Definition iterN {S : Type} (n : N) (f : S -> res S) (s : S) : res S :=
  match n with
  | N0 => Ok s
  | Npos p => iter_pos p f s
  end.

(** [n] rounds of [f], on [nat]. *)
Fixpoint iter_nat {S : Type} (n : nat) (f : S -> res S) (s : S) : res S :=
  match n with
  | O => Ok s
  | S m => let* s1 := f s in iter_nat m f s1
  end.

(** Encode a list of items one after the other into one output. *)
Fixpoint concat_res {A : Type} (f : A -> res bytes) (l : list A) : res bytes :=
  match l with
  | [] => Ok []
  | x :: r => let* a := f x in let* b := concat_res f r in Ok (a ++ b)
  end.

(** Length as [N]. *)
Definition lenN {A} (l : list A) : N := N.of_nat (length l).

(** The first [n] bytes and the remainder, if there are that many. The
    recursion is on the list so that [n] may be an untrusted huge number. *)
Fixpoint take_opt (n : N) (bs : bytes) {struct bs} : option (bytes * bytes) :=
  match n with
  | N0 => Some ([], bs)
  | Npos _ =>
      match bs with
      | [] => None
      | b :: r =>
          match take_opt (N.pred n) r with
          | Some (h, t) => Some (b :: h, t)
          | None => None
          end
      end
  end.
