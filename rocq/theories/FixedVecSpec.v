(** What arrays are decoded from. *)
From Verif Require Import Base System.

(** The elements that a decoder gives before its first error *)
Fixpoint given_first (outs : list (option item)) : list item :=
  match outs with Some x :: r => x :: given_first r | _ => [] end.

(** The decoder has no errors. *)
Definition no_error (outs : list (option item)) : Prop := ~ In None outs.
