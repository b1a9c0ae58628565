(** How much memory decoding a vector takes (C84). *)
From Coq Require Import Lia.
From Verif Require Import Base System SystemSpec Prealloc BaseFacts SystemFacts PreallocFacts.
Local Open Scope N_scope.

(** The elements, if the decoder gives all of them. *)
Fixpoint all_given (outs : list (option item)) : option (list item) :=
  match outs with
  | [] => Some []
  | Some x :: r => option_map (cons x) (all_given r)
  | None :: _ => None
  end.

(** Decoding a vector one element after the other, whatever length was announced, whatever elements or errors come, whatever
    requests for memory are refused: after [k] elements, no more is allocated than 1 MiB, or twice what [k] elements take
    if that is more. The vector has the elements that were decoded; if there is none, all memory is given back, and there
    is a reason: an error, a refused request or more than a block can have. *)
Theorem C84_elements :
  forall env dbg t hint outs, sized t ->
  exists ov h log, default_decode_slice env dbg (mkheap [] 0) t hint outs = SDone (ov, h, log) /\
    Forall (fun e => snd e <= N.max (2 ^ 20) (2 * fst e * e_size t)) log /\
    match ov with
    | Some v => exists xs, all_given outs = Some xs /\ svec_items h v = SDone xs /\ s_len v = lenN xs
    | None => allocated h = 0 /\
        ((forall i, env i = true) -> forall xs, all_given outs = Some xs ->
          isize_max - (e_align t - 1) < N.max (2 ^ 20) (2 * lenN xs * e_size t))
    end.
Proof.
  intros env dbg t hint outs Hs. destruct (default_ok env dbg t hint outs Hs) as (ov & h & log & E & H & H2). exists ov, h, log. split; [exact E|]. split; [exact H|].
  exact H2.
Qed.
Print Assumptions C84_elements.

(** Reading the elements of a vector as they are in memory, whatever length was announced, whatever bytes there are, whatever requests
    are refused: when [k] bytes are read, no more is allocated than twice as much and 256 KiB (or two elements). The
    vector has the elements in the bytes, the others are left; if there is none, all memory is given back and there are too
    few bytes, a request was refused or more than a block can have was needed. *)
Theorem C84_storage :
  forall env dbg t len bs, sized t ->
  exists ov h log, storage_decode_slice env dbg (mkheap [] 0) t len bs = SDone (ov, h, log) /\
    Forall (fun e => fst e <= lenN bs /\ snd e <= 2 * fst e + N.max (2 ^ 18) (2 * e_size t)) log /\
    match ov with
    | Some (v, rest) =>
        s_len v = len /\ lenN bs = len * e_size t + lenN rest /\ rest = skipn (N.to_nat (len * e_size t)) bs /\
        svec_items h v = SDone (elems (N.to_nat (e_size t)) (N.to_nat len) bs)
    | None => allocated h = 0 /\
        ((forall i, env i = true) -> len * e_size t <= lenN bs ->
          isize_max - (e_align t - 1) < 2 * lenN bs + N.max (2 ^ 18) (2 * e_size t))
    end.
Proof.
  intros env dbg t len bs Hs. unfold storage_decode_slice. pose proof Hs as (Hs1 & _). replace (e_size t =? 0) with false by lia.
  assert (O : own (mkheap [] 0) (svec_new t) t []). { split; [exact (svec_new_ok _ t Hs)|apply frame_refl]. }
  destruct (read_chunks_ok env dbg t len (S (length bs)) (mkheap [] 0) (svec_new t) [] bs [] O) as (ov & h & log & E & H & H2).
  - lia.
  - change (lenN []) with 0. lia.
  - cbn. lia.
  - constructor.
  - change (lenN []) with 0 in *. rewrite N.mul_0_l in E, H. rewrite N.mul_0_l, N.sub_0_r in H2. exists ov, h, log. split; [exact E|]. split.
    { eapply Forall_impl; [|exact H]. intros e (A & B). split; [exact B|exact A]. }
    destruct ov as [[v rest]|]; [|exact H2]. cbn [app] in H2. tauto.
Qed.
Print Assumptions C84_storage.

(** Decoding a sequence as a dynamic value trusts the announced length: before the first element is decoded, as much is allocated
    as it says, if the allocator has it. *)
Theorem C84_value_refuted :
  forall dbg t n, sized t -> 8 <= n -> n * e_size t <= isize_max - (e_align t - 1) ->
  exists v h, value_visit_sequence (fun _ => true) dbg (mkheap [] 0) t (Some n) [] = SDone (Some v, h, [(0, n * e_size t)]).
Proof.
  intros dbg t n Hs Hn Hm. unfold value_visit_sequence, collect_slice, or_default.
  destruct (with_capacity_ok (fun _ => true) dbg (mkheap [] 0) t n Hs) as [(v & h & E & R & F)|(h & E & F)]; rewrite E; cbn [sbind push_all].
  - exists v, h. do 2 f_equal. f_equal. rewrite (own_allocated h v t []) by (split; assumption). f_equal.
    assert (Hmin : min_non_zero_cap t <= 8) by (unfold min_non_zero_cap; destruct (e_size t =? 1), (e_size t <=? 1024); lia).
    destruct (with_capacity_cap _ _ _ _ _ _ _ Hs E) as [H|(_ & H)]; [|rewrite H; f_equal; lia].
    exfalso. revert E. unfold svec_with_capacity, sresize. cbn [svec_new s_ty s_cap]. pose proof Hs as (Hs1 & _). pose proof pow64 as (P1 & P2 & P3).
    replace (e_size t =? 0) with false by lia. rewrite N.add_0_l. replace (usize_max <? n) with false by nia. replace (n <=? 0) with false by lia.
    change (udouble dbg 0) with (SDone 0). cbn [sbind]. replace (N.max (min_non_zero_cap t) (N.max 0 n)) with n by lia.
    unfold layout_array. replace (isize_max - (e_align t - 1) <? n * e_size t) with false by lia. unfold srealloc. cbn [s_cap svec_new s_ty]. change (0 <? 0) with false.
    unfold galloc. match goal with |- context [if ?c then SUndef else _] => destruct c end; [discriminate|]. cbn [sbind]. intros [= <- _]. cbn [s_cap] in H. lia.
  - exfalso. destruct (with_capacity_fails _ _ _ _ _ _ Hs (fun _ => eq_refl) E) as (_ & H).
    assert (Hmin : min_non_zero_cap t <= 8) by (unfold min_non_zero_cap; destruct (e_size t =? 1), (e_size t <=? 1024); lia).
    replace (N.max (min_non_zero_cap t) n) with n in H by lia. lia.
Qed.
Print Assumptions C84_value_refuted.

(** Elements of size zero take no memory. *)
Theorem C84_zero_sized :
  forall env dbg t len bs, e_size t = 0 ->
  exists v, storage_decode_slice env dbg (mkheap [] 0) t len bs = SDone (Some (v, bs), mkheap [] 0, []) /\ s_len v = len.
Proof.
  intros env dbg t len bs Hz. unfold storage_decode_slice. rewrite Hz. eexists. split; reflexivity.
Qed.
Print Assumptions C84_zero_sized.

(** A million elements of 2 MiB are announced, three come and then an error. Three elements of two bytes are there and a byte
    more, and four are announced. *)
Example C84_nonvacuous :
  sized (mke 2097152 8 true) /\ sized (mke 2 2 true) /\
  (exists h log, default_decode_slice (fun _ => true) true (mkheap [] 0) (mke 2097152 8 true) (Some 1000000) [Some 1; Some 2; Some 3; None]
    = SDone (None, h, log) /\ log = [(0, 0); (1, 2097152); (2, 4194304); (3, 8388608)]) /\
  (exists v h, storage_decode_slice (fun _ => true) true (mkheap [] 0) (mke 2 2 true) 3 [1; 0; 2; 1; 3; 0; 9]
    = SDone (Some (v, [9]), h, [(0, 8)]) /\ svec_items h v = SDone [1; 258; 3]) /\
  (exists h, storage_decode_slice (fun _ => true) true (mkheap [] 0) (mke 2 2 true) 4 [1; 0; 2; 1; 3; 0; 9] = SDone (None, h, [(0, 8)])).
Proof.
  split; [repeat split; discriminate|]. split; [repeat split; discriminate|].
  split; [do 2 eexists; split; [vm_compute; reflexivity|reflexivity]|].
  split; [do 2 eexists; split; [vm_compute; reflexivity|vm_compute; reflexivity]|]. eexists. vm_compute. reflexivity.
Qed.
