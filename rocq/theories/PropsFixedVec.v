(** The elements of arrays that are decoded (C85). *)
From Coq Require Import Permutation Lia.
From Verif Require Import Base System FixedVec FixedVecSpec SystemFacts FixedVecFacts.

(** Decoding an array of [n] elements, whatever elements and errors the decoder gives. It succeeds exactly if there are [n] elements and
    no error; the array has the elements, none is destroyed. Otherwise those that were decoded, up to the first error or the
    first for which there is no room, are each destroyed once. Cells that are not initialised are never read, and
    there is no panic. *)
Theorem C85_array :
  forall needs_drop n outs,
  (no_error outs /\ length (given_first outs) = n /\ decode_array needs_drop n outs = SDone (Some (given_first outs), [])) \/
  ((~ no_error outs \/ length (given_first outs) <> n) /\ exists log, decode_array needs_drop n outs = SDone (None, log) /\
     if needs_drop then Permutation log (firstn (n + 1) (given_first outs)) else log = []).
Proof.
  intros nd n outs. destruct (array_loop_ok nd n outs _ [] (holds_new n)) as [H|(H & log & E & gone & -> & P)]; [left; exact H|right].
  split; [exact H|]. eexists. split; [exact E|]. rewrite Nat.add_1_r. destruct nd; [exact P|reflexivity].
Qed.
Print Assumptions C85_array.

(** A packed array takes the first [n] elements and leaves the rest. If an error or the end comes before, those that were
    decoded are destroyed, in order. *)
Theorem C85_packed_array :
  forall needs_drop n outs,
  (exists xs rest, outs = map Some xs ++ rest /\ length xs = n /\ decode_packed_array needs_drop n outs = SDone (Some (xs, rest), [])) \/
  (length (given_first outs) < n /\ decode_packed_array needs_drop n outs = SDone (None, if needs_drop then given_first outs else [])).
Proof. intros nd n outs. exact (packed_loop_ok nd n outs _ [] (holds_new n)). Qed.
Print Assumptions C85_packed_array.

Example C85_nonvacuous :
  decode_array true 2 [Some 7%N; Some 8%N] = SDone (Some [7%N; 8%N], []) /\
  decode_array true 2 [Some 7%N; Some 8%N; Some 9%N; Some 10%N] = SDone (None, [9%N; 7%N; 8%N]) /\
  decode_array true 3 [Some 7%N; Some 8%N; None; Some 10%N] = SDone (None, [7%N; 8%N]) /\
  decode_packed_array true 2 [Some 7%N; Some 8%N; None] = SDone (Some ([7%N; 8%N], [None]), []) /\
  decode_packed_array true 3 [Some 7%N; Some 8%N; None] = SDone (None, [7%N; 8%N]).
Proof. repeat split. Qed.
