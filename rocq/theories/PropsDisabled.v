(** Vectors and boxes over the allocator [Disabled] (C83). *)
From Coq Require Import Lia.
From Verif Require Import Base System SystemSpec Disabled DisabledSpec BaseFacts SystemFacts DisabledFacts.
Local Open Scope N_scope.

(** Elements take room. *)
Definition takes_room (o : sop) : Prop := Forall (fun t => e_size t <> 0) (types_of o).

Lemma start P : empties P dworld_empty.
Proof. constructor. Qed.

(** A program of vectors and boxes whose elements take room: each call has the one answer that there is, all vectors stay
    empty and have no capacity. Those are answers and effects of lists when there is no memory, elements that are handed
    in are destroyed. *)
Theorem C83_lists :
  forall dbg ops rs w, Forall takes_room ops -> drun dbg dworld_empty ops = SDone (rs, w) ->
  rs = map answer ops /\
  exists lw, calls no_lists ops rs lw /\ dw_log w = l_gone lw /\
    forall i, match dvec_at w i with
              | Some v => list_at lw i (d_ty v) [] /\ dvec_items v = SDone [] /\ d_len v = 0 /\ dvec_capacity v = 0
              | None => forall t xs, ~ list_at lw i t xs
              end.
Proof.
  intros dbg ops rs w Hs E.
  destruct (drun_ok (fun t => e_size t <> 0) dbg ops (fun t H => H) Hs _ (start _)) as [(pre & o & post & w1 & _ & _ & E' & _)|(w' & E' & HE & C & _)]; [congruence|].
  rewrite E' in E. injection E as <- <-. split; [reflexivity|]. exists (lists_of w'). split; [exact C|]. split; [reflexivity|]. intros i.
  destruct (dvec_at w' i) as [v|] eqn:Ev; [|intros t xs; exact (at_none _ _ _ _ Ev)].
  destruct (at_empty _ _ _ _ HE Ev) as (El & Es & _). split; [exact (at_list _ _ _ Ev)|]. split; [exact (items_none _ El Es)|]. split; [exact El|].
  unfold dvec_capacity. rewrite (proj2 (N.eqb_neq _ _) Es). reflexivity.
Qed.
Print Assumptions C83_lists.

(** Nothing is undefined behaviour: the dangling pointer is not read or written. A run only ends early at a call that Rust
    rejects: of a vector that is gone, a copy of elements that are not [Copy], or a vector of the standard library, which only [System]
    takes. *)
Theorem C83_safe :
  forall dbg ops, Forall takes_room ops ->
  (exists rs w, drun dbg dworld_empty ops = SDone (rs, w)) \/
  (exists pre o post lw, ops = pre ++ o :: post /\ calls no_lists pre (map answer pre) lw /\ (takes_std o \/ ~ allowed lw o) /\
     drun dbg dworld_empty ops = SPanic).
Proof.
  intros dbg ops Hs.
  destruct (drun_ok (fun t => e_size t <> 0) dbg ops (fun t H => H) Hs _ (start _)) as [(pre & o & post & w1 & E & C & E' & H)|(w' & E' & _)].
  - right. exists pre, o, post, (lists_of w1). auto.
  - left. eauto.
Qed.
Print Assumptions C83_safe.

(** Elements with destructors are destroyed once, in the order in which they were handed in. *)
Theorem C83_destructors :
  forall dbg ops rs w, Forall takes_room ops -> Forall (fun o => Forall (fun t => e_copy t = false) (types_of o)) ops ->
  drun dbg dworld_empty ops = SDone (rs, w) -> map snd (dw_log w) = flat_map given ops.
Proof.
  intros dbg ops rs w Hs Hc E. set (P := fun t => e_size t <> 0 /\ e_copy t = false).
  assert (HP : Forall (fun o => Forall P (types_of o)) ops).
  { apply Forall_forall. intros o Ho. apply Forall_forall. intros t Ht. split.
    - exact (proj1 (Forall_forall _ _) (proj1 (Forall_forall _ _) Hs o Ho) t Ht).
    - exact (proj1 (Forall_forall _ _) (proj1 (Forall_forall _ _) Hc o Ho) t Ht). }
  destruct (drun_ok P dbg ops (fun t H => proj1 H) HP _ (start _)) as [(pre & o & post & w1 & _ & _ & E' & _)|(w' & E' & _ & _ & HL)]; [congruence|].
  rewrite E' in E. injection E as _ <-. exact (HL (fun t H => proj2 H)).
Qed.
Print Assumptions C83_destructors.

(** In programs that never ask for room for nothing, [Disabled] cannot be told from a [System] whose requests for memory are all
    refused: the answers are the same, and so are the destructors that ran. *)
Theorem C83_refusing :
  forall dbg ops, Forall (fun o => Forall sized (types_of o)) ops -> Forall demanding ops ->
  replies (drun dbg dworld_empty ops) = replies (srun (fun _ => false) dbg sworld_empty ops) /\
  forall rs dw sw, drun dbg dworld_empty ops = SDone (rs, dw) -> srun (fun _ => false) dbg sworld_empty ops = SDone (rs, sw) -> dw_log dw = w_log sw.
Proof.
  intros dbg ops HT HD. destruct (refused_run dbg ops HT HD dworld_empty sworld_empty (start _) eq_refl) as (Hr & Hl). split; [symmetry; exact Hr|].
  intros rs dw sw E1 E2. symmetry. exact (Hl eq_refl _ _ _ E2 E1).
Qed.
Print Assumptions C83_refusing.

(** Asking for room for nothing fails over [Disabled], but not over [System]. *)
Theorem C83_refusing_refuted :
  forall dbg, exists ops, Forall (fun o => Forall sized (types_of o)) ops /\
  replies (drun dbg dworld_empty ops) = SDone [RDone; RFailed; RFailed] /\
  replies (srun (fun _ => false) dbg sworld_empty ops) = SDone [RDone; RDone; RDone].
Proof.
  intros dbg. exists [PNew (mke 1 1 true); PReserve 0 0; PExtendFromSlice 0 []].
  split; [|destruct dbg; split; reflexivity].
  constructor; [|repeat constructor]. constructor; [|constructor]. repeat split; discriminate.
Qed.
Print Assumptions C83_refusing_refuted.

(** Elements of size zero need no memory: a vector of them takes as many as there are lengths. The standard library gets it
    with its length. *)
Theorem C83_zero_sized :
  forall dbg t xs, e_size t = 0 -> lenN xs <= usize_max ->
  exists w, drun dbg dworld_empty (PNew t :: map (PPush 0) xs ++ [PIntoStd 0])
            = SDone (RDone :: map (fun _ => RDone) xs ++ [RStd (repeat zst_item (length xs)) usize_max], w).
Proof.
  intros dbg t xs Hz Hn. cbn [drun dstep sbind dworld_empty dw_vecs dw_log app]. change (dvec_new t) with (mkdv t 0).
  destruct (push_zero dbg t xs Hz 0 Hn []) as (log & E). rewrite N.add_0_l in E.
  assert (app_run : forall xs ys rs w1 w, drun dbg w xs = SDone (rs, w1) ->
            drun dbg w (xs ++ ys) = let? (l, w2) := drun dbg w1 ys in SDone (rs ++ l, w2)).
  { clear. induction xs as [|o xs IH]; intros ys rs w1 w E; cbn [drun app] in *.
    - injection E as <- <-. destruct (drun dbg w ys) as [[l w2]| |]; reflexivity.
    - destruct (dstep dbg w o) as [[r w']| |]; try discriminate. cbn [sbind] in *.
      destruct (drun dbg w' xs) as [[l w2]| |] eqn:E2; try discriminate. cbn [sbind] in E. injection E as <- <-.
      rewrite (IH ys _ _ _ E2). destruct (drun dbg w2 ys) as [[l' w3]| |]; reflexivity. }
  rewrite (app_run _ [PIntoStd 0] _ _ _ E). cbn [drun dstep dvec_at dw_vecs nth_error]. unfold dvec_into_std, dvec_capacity, dvec_items, dread. cbn [d_ty d_len].
  rewrite Hz. cbn [N.eqb sbind]. rewrite (proj2 (N.ltb_ge _ _) Hn). cbn [sbind]. unfold lenN. rewrite Nat2N.id. eexists. reflexivity.
Qed.
Print Assumptions C83_zero_sized.

(** But a capacity of zero cannot be had for them, and those with destructors are destroyed when they are handed in and
    again with the vector. *)
Theorem C83_zero_sized_refuted :
  forall dbg, exists t ops w, e_size t = 0 /\ e_copy t = false /\
  drun dbg dworld_empty (PWithCapacity t 0 :: ops) = SDone ([RFailed; RDone; RDone; RDone], w) /\
  flat_map given ops = [zst_item] /\ dw_log w = [(t, zst_item); (t, zst_item)].
Proof.
  intros dbg. exists (mke 0 1 false), [PNew (mke 0 1 false); PPush 1 zst_item; PDrop 1]. eexists. destruct dbg; repeat split.
Qed.
Print Assumptions C83_zero_sized_refuted.

Definition ex_dt : ety := mke 16 8 false.
Definition ex_dops : list sop :=
  [PNew ex_dt; PPush 0 7; PWithCapacity ex_dt 3; PReserve 0 2; PPop 0; PBox ex_dt 8; PClear 0; PPush 0 9; PIntoStd 0; PNew ex_dt; PDrop 3].
Example C83_nonvacuous :
  Forall takes_room ex_dops /\ Forall (fun o => Forall sized (types_of o)) ex_dops /\ Forall demanding ex_dops /\
  Forall (fun o => Forall (fun t => e_copy t = false) (types_of o)) ex_dops /\
  exists w, drun true dworld_empty ex_dops
    = SDone ([RDone; RFailed; RFailed; RFailed; RPopped None; RFailed; RDone; RFailed; RStd [] 0; RDone; RDone], w) /\
    map snd (dw_log w) = [7; 8; 9].
Proof.
  split; [repeat (constructor; [try (repeat constructor; discriminate); repeat constructor|]); constructor|].
  split; [repeat (constructor; [try (constructor; [repeat split; discriminate|constructor]); constructor|]); constructor|].
  split; [repeat (constructor; [cbn; try exact I; discriminate|]); constructor|].
  split; [repeat (constructor; [try (constructor; [reflexivity|constructor]); constructor|]); constructor|].
  eexists. split; reflexivity.
Qed.
