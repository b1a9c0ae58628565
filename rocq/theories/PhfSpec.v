(** Specification vocabulary for perfect-hash maps. *)
From Coq Require Import Permutation.
From Verif Require Import Base Options Int Zc ZcBuf Swiss SwissSpec Phf.
Local Open Scope N_scope.

(** [fits ub es]: the entries' number is below [usize::MAX]. *)
Definition fits {A} (ub : N) (es : list A) : Prop := lenN es < 2 ^ ub - 1.

(** [stored m es]: the map holds exactly the entries, in some order, and one
    displacement for each five of them, rounded up. *)
Definition stored {K V} (m : phf K V) (es : list (K * V)) : Prop :=
  Permutation (pents m) es /\ 5 * lenN (pdisp m) >= lenN es /\ 5 * lenN (pdisp m) < lenN es + 5.

(** Two entries of the list have the same key. *)
Definition repeated_key {K V} (es : list (K * V)) : Prop :=
  exists a b c k v w, es = a ++ (k, v) :: b ++ (k, w) :: c.
