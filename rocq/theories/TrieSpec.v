(** Specification vocabulary for prefix tries. *)
From Coq Require Import Permutation Sorted.
From Verif Require Import Base Options Int Zc ZcBuf Swiss Trie.
Local Open Scope N_scope.

(** The lexicographic order of byte strings *)
Definition lex_lt (a b : bytes) : Prop :=
  (exists c x, b = a ++ x :: c) \/ (exists p x y a' b', a = p ++ x :: a' /\ b = p ++ y :: b' /\ x < y).
Definition lex_le (a b : bytes) : Prop := a = b \/ lex_lt a b.

(** The key a reference names, and references within the buffer *)
Definition key_at (bs : bytes) (s : sref) : bytes := firstn (N.to_nat (snd s)) (skipn (N.to_nat (fst s)) bs).
Definition ref_in (bs : bytes) (s : sref) : Prop := fst s + snd s <= lenN bs.
Definition keyed {V} (bs : bytes) (es : list (sref * V)) : list (bytes * V) := map (fun e => (key_at bs (fst e), snd e)) es.

(** The values under a key, in order *)
Definition bytes_eqb (a b : bytes) : bool := if list_eq_dec N.eq_dec a b then true else false.
Definition values_at {V} (k : bytes) (l : list (bytes * V)) : list V := map snd (filter (fun e => bytes_eqb (fst e) k) l).
(** The entries whose key starts with a prefix *)
Definition starts (q k : bytes) : bool := bytes_eqb (firstn (length q) k) q.
Definition under {V} (q : bytes) (l : list (bytes * V)) : list (bytes * V) := filter (fun e => starts q (fst e)) l.

(** Keys that share their first byte are inserted in ascending order. *)
Definition ascending (ks : list bytes) : Prop :=
  forall l1 a l2 b l3, ks = l1 ++ a :: l2 ++ b :: l3 -> hd_error a = hd_error b -> lex_le a b.

(** The offsets of the environment fit a [usize], and there is room for the
    nodes of [n] insertions, at most two each, after [len] bytes. *)
Definition room (E : tenv) (len n : N) : Prop :=
  0 < ensz E /\ emx E < 2 ^ eub E /\ len + ensz E * (2 * n) <= emx E /\ 2 * n <= emx E.

(** With enough rounds the iteration yields [l] and ends. *)
Definition yields {V} (cap : option N) (E : tenv) (B : tbuf V) (t : links V) (q : bytes) (l : list (zres (bytes * V))) : Prop :=
  exists n, forall fuel, (n <= fuel)%nat -> iter_in fuel cap E B t q = (l, true).

(** ** Damaged tries *)

(** A value or an error, not a panic or worse *)
Definition calm {A} (r : zres A) : Prop := match r with ZOk _ | ZErr => True | _ => False end.
(** All of the slice of children has offsets that a reference can hold. *)
Definition in_range {V} (E : tenv) (l : links V) : Prop := fst (lch l) + ensz E * snd (lch l) <= emx E.
(** A buffer whose loads validate what they read *)
Definition validates {V} (B : tbuf V) : Prop := (forall s, calm (tstr B s)) /\ forall off, calm (tnode B off).
