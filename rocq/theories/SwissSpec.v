(** Specification vocabulary for swiss tables. *)
From Verif Require Import Base Options Int Zc ZcBuf Swiss.
Local Open Scope N_scope.

(** The targets: one of the group implementations, and 16, 32 or 64 bit
    [usize]. *)
Definition group_impl (G : gimpl) : Prop :=
  G = sse2 \/ G = neon \/ exists nb w, (w = 4%nat \/ w = 8%nat) /\ G = generic nb w.
Definition swiss_target (T : target) : Prop :=
  group_impl (tg T) /\ (tptr T = 2 \/ tptr T = 4 \/ tptr T = 8).

(** A lookup's answer: the value of a stored key, nothing for another key. *)
Definition answers {K V} (es : list (K * V)) (k : K) (r : option V) : Prop :=
  match r with
  | Some v => In (k, v) es
  | None => ~ In k (map fst es)
  end.
