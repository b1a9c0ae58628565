(** Vectors and boxes over the allocator [System] (C80). *)
From Verif Require Import Base System SystemSpec BaseFacts SystemFacts.
From Coq Require Import Permutation.
Local Open Scope N_scope.

(** Whatever requests for memory are refused: a program that uses vectors and boxes of types that are not of size zero sees
    lists. The replies are those of lists, the elements are those of the lists and the destructors that ran are those
    of the elements that went. *)
Theorem C80_lists_partial :
  forall env dbg ops rs w, Forall (fun o => Forall sized (types_of o)) ops -> srun env dbg sworld_empty ops = SDone (rs, w) ->
  exists lw, calls no_lists ops rs lw /\ w_log w = l_gone lw /\
    forall i, match vec_at w i with
              | Some v => exists xs, list_at lw i (s_ty v) xs /\ svec_items (w_heap w) v = SDone xs /\ s_len v = lenN xs /\ lenN xs <= svec_capacity v
              | None => forall t xs, ~ list_at lw i t xs
              end.
Proof.
  intros env dbg ops rs w Hs E. destruct (reach _ _ _ _ _ Hs E) as (lw & C & R). exists lw. split; [exact C|]. split; [exact (proj2 R)|]. intros i.
  destruct (vec_at w i) as [v|] eqn:Ev.
  - destruct (vec_at_list _ _ _ _ R Ev) as (t & xs & H & V). pose proof V as (Et & (Hs1 & _) & L & Hc & _). exists xs. rewrite Et. split; [exact H|]. split; [exact (svec_items_ok _ _ _ _ V)|].
    split; [exact L|]. unfold svec_capacity. rewrite Et. apply N.neq_0_lt_0, N.eqb_neq in Hs1. rewrite Hs1. exact Hc.
  - intros t xs H. destruct (winv_at _ _ _ _ _ _ (proj1 R) H) as (v & H' & _). unfold vec_at in Ev. rewrite H' in Ev. discriminate.
Qed.
Print Assumptions C80_lists_partial.

(** No call is undefined behaviour or panics, apart from those that Rust does not let a program make: no block is read or
    written outside of its initialised elements or of its size, freed twice, used after it was freed or given back with
    another layout. *)
Theorem C80_safe_partial :
  forall env dbg ops, Forall (fun o => Forall sized (types_of o)) ops ->
  (exists rs w, srun env dbg sworld_empty ops = SDone (rs, w)) \/
  (exists pre o post rs lw, ops = pre ++ o :: post /\ calls no_lists pre rs lw /\ ~ allowed lw o /\ srun env dbg sworld_empty ops = SPanic).
Proof.
  intros env dbg ops Hs. destruct (run_ok env dbg ops _ _ related_empty Hs) as [(rs & w & lw & E & _)|(pre & o & post & rs & w & lw & A & B & _ & _ & C & D)].
  - left. eauto.
  - right. exists pre, o, post, rs, lw. auto.
Qed.
Print Assumptions C80_safe_partial.

(** Once all vectors and boxes are gone, so is all memory. *)
Theorem C80_no_leak_partial :
  forall env dbg ops rs w, Forall (fun o => Forall sized (types_of o)) ops -> srun env dbg sworld_empty ops = SDone (rs, w) ->
  (forall i, vec_at w i = None) -> forall b, block_at (w_heap w) b = None.
Proof.
  intros env dbg ops rs w Hs E H b. destruct (reach _ _ _ _ _ Hs E) as (lw & _ & (W & _)).
  destruct (block_at (w_heap w) b) as [x|] eqn:Eb; [|reflexivity]. destruct (wi_live _ _ _ W b x Eb) as (i & v & Hv & _).
  specialize (H i). unfold vec_at in H. rewrite Hv in H. discriminate.
Qed.
Print Assumptions C80_no_leak_partial.

(** Every element of a type with destructors that is handed to a vector or box is destroyed once or handed back, but not
    both. *)
Theorem C80_destructors_partial :
  forall env dbg ops rs w, Forall (fun o => Forall sized (types_of o)) ops -> Forall (fun o => Forall (fun t => e_copy t = false) (types_of o)) ops ->
  srun env dbg sworld_empty ops = SDone (rs, w) -> (forall i, vec_at w i = None) ->
  Permutation (flat_map given ops) (map snd (w_log w) ++ flat_map returned rs).
Proof.
  intros env dbg ops rs w Hs Ht E H. destruct (reach _ _ _ _ _ Hs E) as (lw & C & (W & L)).
  pose proof (calls_conserve _ _ _ _ C) as P. cbn [no_lists l_gone l_vecs held flat_map map app] in P. rewrite !app_nil_r in P. rewrite L.
  assert (K : held lw = []).
  { rewrite held_items. assert (A : Forall (fun o => o = None) (l_vecs lw)).
    { apply Forall_forall. intros o Ho. apply In_nth_error in Ho. destruct Ho as (i & Ho). destruct o as [[t xs]|]; [|reflexivity].
      destruct (winv_at _ _ _ _ _ _ W Ho) as (v & Hv & _). specialize (H i). unfold vec_at in H. rewrite Hv in H. discriminate. }
    clear - A. induction A as [|o ls -> _ IH]; [reflexivity|exact IH]. }
  rewrite K in P. apply P; [|exact Ht]. intros [|i] t xs D; discriminate.
Qed.
Print Assumptions C80_destructors_partial.

(** Also while vectors are live: what was given is held, destroyed or handed back. *)
Theorem C80_elements_partial :
  forall env dbg ops rs w, Forall (fun o => Forall sized (types_of o)) ops -> Forall (fun o => Forall (fun t => e_copy t = false) (types_of o)) ops ->
  srun env dbg sworld_empty ops = SDone (rs, w) ->
  exists lw, calls no_lists ops rs lw /\ Permutation (flat_map given ops) (held lw ++ map snd (w_log w) ++ flat_map returned rs).
Proof.
  intros env dbg ops rs w Hs Ht E. destruct (reach _ _ _ _ _ Hs E) as (lw & C & (W & L)). exists lw. split; [exact C|].
  pose proof (calls_conserve _ _ _ _ C) as P. cbn [no_lists l_gone l_vecs held flat_map map app] in P. rewrite !app_nil_r in P. rewrite L.
  apply P; [|exact Ht]. intros [|i] t xs D; discriminate.
Qed.
Print Assumptions C80_elements_partial.

(** After room for [n] more elements was reserved, adding them cannot fail and asks for no memory. *)
Theorem C80_reserved_partial :
  forall env dbg ops rs w i n w1, Forall (fun o => Forall sized (types_of o)) ops -> srun env dbg sworld_empty ops = SDone (rs, w) ->
  sstep env dbg w (PReserve i n) = SDone (RDone, w1) -> forall xs, lenN xs <= n ->
  (exists w2, srun env dbg w1 (map (PPush i) xs) = SDone (map (fun _ => RDone) xs, w2) /\ h_count (w_heap w2) = h_count (w_heap w1)) /\
  (forall v, vec_at w1 i = Some v -> e_copy (s_ty v) = true ->
    exists w2, sstep env dbg w1 (PExtendFromSlice i xs) = SDone (RDone, w2) /\ h_count (w_heap w2) = h_count (w_heap w1)).
Proof.
  intros env dbg ops rs w i n w1 Hs E E1 xs Hn. destruct (reach _ _ _ _ _ Hs E) as (lw & _ & R). cbn [sstep] in E1.
  destruct (vec_at w i) as [v|] eqn:Ev; [|discriminate]. destruct (vec_at_list _ _ _ _ R Ev) as (t & ys & H & V).
  destruct (reserve_ok env dbg _ v t ys n V) as (ok & v' & h' & Er & V' & _ & Hc). rewrite Er in E1. cbn [sbind] in E1. destruct ok; [|discriminate]. injection E1 as <-.
  specialize (Hc eq_refl). set (w1 := mksw _ _ _).
  assert (Hv1 : vec_at w1 i = Some v').
  { unfold vec_at, w1. cbn [w_vecs]. rewrite set_at_nth, Nat.eqb_refl. unfold vec_at in Ev. destruct (nth_error (w_vecs w) i); [reflexivity|discriminate]. }
  split.
  - apply (roomy_pushes env dbg xs w1 i v' t ys Hv1 V'). apply (N.le_trans _ (lenN ys + n)); [|exact Hc]. apply N.add_le_mono_l, Hn.
  - intros u Hu Hcopy. rewrite Hv1 in Hu. injection Hu as <-. cbn [sstep]. rewrite Hv1, Hcopy. cbn [negb].
    destruct (roomy_slice env dbg (w_heap w1) v' t ys xs V') as (v2 & h2 & -> & Hk); [apply (N.le_trans _ (lenN ys + n)); [|exact Hc]; apply N.add_le_mono_l, Hn|].
    cbn [sbind sreply_of]. eexists. split; [reflexivity|exact Hk].
Qed.
Print Assumptions C80_reserved_partial.

(** A call only fails if the global allocator refused its one request, or without a request, if the memory it would have asked
    for is more than a block can have. *)
Theorem C80_fails_partial :
  forall env dbg ops rs w o w', Forall (fun o => Forall sized (types_of o)) ops -> srun env dbg sworld_empty ops = SDone (rs, w) ->
  Forall sized (types_of o) -> sstep env dbg w o = SDone (RFailed, w') ->
  (env (h_count (w_heap w)) = false /\ h_count (w_heap w') = S (h_count (w_heap w))) \/
  (h_count (w_heap w') = h_count (w_heap w) /\ exists t n, asks w o t n /\ isize_max - (e_align t - 1) < n * e_size t).
Proof.
  intros env dbg ops rs w o w' Hs E Ho E1. destruct (reach _ _ _ _ _ Hs E) as (lw & _ & R). exact (fails_why env dbg w lw o w' R Ho E1).
Qed.
Print Assumptions C80_fails_partial.

(** Pushing [n] elements asks for memory at most [2 + log2 n] times. *)
Theorem C80_amortised_partial :
  forall env dbg t xs rs w, sized t -> (forall n, env n = true) -> srun env dbg sworld_empty (PNew t :: map (PPush 0) xs) = SDone (rs, w) ->
  N.of_nat (h_count (w_heap w)) <= 2 + N.log2 (lenN xs).
Proof.
  intros env dbg t xs rs w Ht He E. cbn [srun sstep sbind sworld_empty w_heap w_vecs w_log app] in E.
  match type of E with context [srun env dbg ?u _] => set (w1 := u) in E end.
  destruct (srun env dbg w1 (map (PPush 0) xs)) as [(rs1 & w2)| |] eqn:E1; try discriminate. cbn [sbind] in E. injection E as <- <-.
  destruct (thrifty_pushes env dbg xs He w1 0%nat (svec_new t) t [] 0 rs1 w2 eq_refl (svec_new_ok _ t Ht)) as (k & v & zs & Hk & Hz & T); [left; split; reflexivity|exact E1|].
  change (N.of_nat (h_count (w_heap w1))) with 0 in Hk. rewrite N.add_0_l in *. rewrite Hk. change (lenN zs <= lenN xs) in Hz.
  destruct T as [(-> & _)|(_ & _ & [-> |(T1 & T2)])]; [apply N.le_0_l|apply (N.le_trans _ (2 + 0)); [discriminate|apply N.add_le_mono_l, N.le_0_l]|].
  apply (N.le_trans _ (2 + N.log2 (2 ^ (k - 2)))).
  - rewrite N.log2_pow2 by apply N.le_0_l. rewrite N.add_sub_assoc by exact T1. rewrite N.add_comm, N.add_sub. apply N.le_refl.
  - apply N.add_le_mono_l, N.log2_le_mono. exact (N.le_trans _ _ _ T2 Hz).
Qed.
Print Assumptions C80_amortised_partial.

(** Missing: elements of size zero that have destructors. An element that is pushed or boxed is destroyed at once, and again
    with the vector or box; and it is destroyed although it is handed back later. *)
Theorem C80_zst_refuted :
  let t := mke 0 1 false in
  exists env dbg,
    (exists rs w, srun env dbg sworld_empty [PNew t; PPush 0 0; PDrop 0] = SDone (rs, w) /\ w_log w = [(t, 0); (t, 0)]) /\
    (exists rs w, srun env dbg sworld_empty [PBox t 0; PDrop 0] = SDone (rs, w) /\ w_log w = [(t, 0); (t, 0)]) /\
    (exists rs w, srun env dbg sworld_empty [PNew t; PPush 0 0; PPop 0; PDrop 0] = SDone (rs, w) /\ w_log w = [(t, 0)] /\ In (RPopped (Some 0)) rs).
Proof.
  exists (fun _ => true), true. split; [|split]; eexists _, _; (split; [reflexivity|]); [reflexivity|reflexivity|split; [reflexivity|cbn; auto]].
Qed.
Print Assumptions C80_zst_refuted.

(** Nor is the length of a vector of elements of size zero checked: two slices that are as long as a slice can be do not fit, but are
    added without an error, and the vector then has one element less than one of them (or, with overflow checks, it is a panic). *)
Theorem C80_length_refuted :
  let t := mke 0 1 true in
  exists env xs, let ops := [PNew t; PExtendFromSlice 0 xs; PExtendFromSlice 0 xs] in
    lenN xs = usize_max /\
    (exists w v, srun env false sworld_empty ops = SDone ([RDone; RDone; RDone], w) /\ vec_at w 0 = Some v /\ s_len v = usize_max - 1) /\
    srun env true sworld_empty ops = SPanic.
Proof.
  exists (fun _ => true), (repeat 0 (N.to_nat usize_max)). cbv zeta.
  assert (L : lenN (repeat 0 (N.to_nat usize_max)) = usize_max) by (unfold lenN; rewrite repeat_length; apply N2Nat.id).
  revert L. generalize (repeat 0 (N.to_nat usize_max)). intros xs L. split; [exact L|].
  assert (E : forall dbg h v, s_ty v = mke 0 1 true -> svec_extend_from_slice (fun _ => true) dbg h v xs =
    (let? l := uadd dbg (s_len v) usize_max in SDone (true, with_slen v l, h))).
  { intros dbg h v Ht. unfold svec_extend_from_slice. rewrite Ht. change (@lenN item xs) with (@lenN N xs). rewrite L. reflexivity. }
  assert (St : forall dbg h l v, s_ty v = mke 0 1 true -> sstep (fun _ => true) dbg (mksw h [Some v] l) (PExtendFromSlice 0 xs) =
    (let? n := uadd dbg (s_len v) usize_max in SDone (RDone, mksw h [Some (with_slen v n)] l))).
  { intros dbg h l v Ht. cbn [sstep w_vecs w_heap w_log]. unfold vec_at. cbn [w_vecs nth_error]. rewrite Ht. cbn [e_copy negb]. rewrite E by exact Ht.
    destruct (uadd dbg (s_len v) usize_max); reflexivity. }
  assert (New : forall dbg, sstep (fun _ => true) dbg sworld_empty (PNew (mke 0 1 true)) = SDone (RDone, mksw (mkheap [] 0) [Some (svec_new (mke 0 1 true))] [])) by reflexivity.
  split.
  - eexists _, _. split; [|split].
    + unfold srun. rewrite New. cbn [sbind]. rewrite St by reflexivity. change (uadd false (s_len (svec_new (mke 0 1 true))) usize_max) with (SDone usize_max).
      cbn [sbind]. rewrite St by reflexivity. change (uadd false _ usize_max) with (SDone (usize_max - 1)). cbn [sbind]. reflexivity.
    + reflexivity.
    + reflexivity.
  - unfold srun. rewrite New. cbn [sbind]. rewrite St by reflexivity. change (uadd true (s_len (svec_new (mke 0 1 true))) usize_max) with (SDone usize_max).
    cbn [sbind]. rewrite St by reflexivity. change (uadd true _ usize_max) with (@SPanic N). reflexivity.
Qed.
Print Assumptions C80_length_refuted.

(** A vector that grows twice and is emptied, a vector of the standard library, a box, copies, a refused request, and
    everything dropped. *)
Example C80_nonvacuous :
  let t := mke 24 8 false in
  let u := mke 1 1 true in
  let ops := [PNew t; PPush 0 1; PPush 0 2; PPush 0 3; PPush 0 4; PPush 0 5; PBox t 6; PFromStd t [7; 8] 2; PPush 2 9; PPop 0; PClear 2; PIntoStd 1; PDrop 0; PDrop 2] in
  let cops := [PWithCapacity u 2; PNew u; PExtendFromSlice 1 [1; 2; 3]; PExtendFromSlice 0 [4; 5]; PExtend 1 0; PReserve 1 3; PPush 1 6; PPop 1; PDrop 1] in
  sized t /\ sized u /\
  Forall (fun o => Forall sized (types_of o)) ops /\ Forall (fun o => Forall (fun t => e_copy t = false) (types_of o)) ops /\
  (exists w, srun (fun n => Nat.ltb n 3) true sworld_empty ops =
     SDone ([RDone; RDone; RDone; RDone; RDone; RDone; RDone; RDone; RFailed; RPopped (Some 5); RDone; RStd [6] 1; RDone; RDone], w) /\
     map snd (w_log w) = [9; 7; 8; 1; 2; 3; 4] /\ forall i, vec_at w i = None) /\
  (exists rs w, srun (fun n => Nat.ltb n 9) false sworld_empty cops = SDone (rs, w) /\ w_log w = [] /\ In (RPopped (Some 6)) rs /\ h_count (w_heap w) = 2%nat /\
     forall i, vec_at w i = None).
Proof.
  assert (St : sized (mke 24 8 false)) by (repeat split; cbn; discriminate). assert (Su : sized (mke 1 1 true)) by (repeat split; cbn; discriminate).
  cbv zeta. split; [exact St|]. split; [exact Su|]. split; [repeat (constructor; cbn [types_of]; try exact St)|]. split; [repeat (constructor; cbn [types_of]; try reflexivity)|]. split.
  - eexists. split; [vm_compute; reflexivity|]. split; [reflexivity|]. intros [|[|[|i]]]; try reflexivity. unfold vec_at. cbn. now destruct i.
  - eexists _, _. split; [vm_compute; reflexivity|]. split; [reflexivity|]. split; [cbn; tauto|]. split; [reflexivity|]. intros [|[|i]]; try reflexivity. unfold vec_at. cbn. now destruct i.
Qed.
