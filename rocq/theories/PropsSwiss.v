(** Theorems about swiss maps: C34, C52. *)
From Verif Require Import Base Options Int Zc ZcBuf Swiss SwissSpec SwissGroup SwissFacts.
Local Open Scope N_scope.

(** Building a table from any entries, with any hashes, succeeds ([Some]: the
    probe loop ends) unless eight times their number does not fit in a [usize]. *)
Theorem C34_store V T (zero : V) es : swiss_target T -> lenN es * 8 < 2 ^ tub T ->
  exists t, store_raw T zero es = Some (ZOk t).
Proof. intros Tg L. destruct (store_ok T zero es Tg L) as (t & E & _). eauto. Qed.
Print Assumptions C34_store.

(** A lookup by hash and predicate ends without an error, finds only stored
    entries that satisfy the predicate, and misses none with that hash. *)
Theorem C34_find V T (zero : V) es t h p : swiss_target T -> lenN es * 8 < 2 ^ tub T ->
  store_raw T zero es = Some (ZOk t) ->
  exists r, table_find T t h (fun v => ZOk (p v)) = Some (ZOk r) /\
  match r with
  | Some v => p v = true /\ exists h', In (h', v) es
  | None => forall v, In (h, v) es -> p v = false
  end.
Proof.
  intros Tg L E. destruct (store_ok T zero es Tg L) as (t' & E' & k & ub2 & occ & _ & K2 & Hu & Bt & _).
  assert (t' = t) as -> by congruence.
  eapply (find_built T (target_group T Tg) (2 ^ k) k ub2 eq_refl K2 Hu (target_ub T Tg)); eauto.
Qed.
Print Assumptions C34_find.

(** With distinct keys, for any hash function of the keys: a lookup answers with
    the value stored for the key, or with nothing if the key was not stored. *)
Theorem C34_map K V T (hf : K -> N) (keq : K -> K -> bool) (zero : K * V) es k :
  swiss_target T -> lenN es * 8 < 2 ^ tub T -> (forall a b, keq a b = true <-> a = b) ->
  exists t r, store_map T hf zero es = Some (ZOk t) /\ map_get T hf keq t k = Some (ZOk r) /\ answers es k r.
Proof.
  intros Tg L Eq. set (hs := map (fun e => (hf (fst e), e)) es).
  assert (Lh : lenN hs = lenN es) by (unfold lenN, hs; rewrite map_length; auto).
  destruct (C34_store (K * V) T zero hs Tg ltac:(rewrite Lh; auto)) as [t Et].
  destruct (C34_find (K * V) T zero hs t (hf k) (fun e => keq (fst e) k) Tg ltac:(rewrite Lh; auto) Et) as (r & Er & Hr).
  exists t. unfold store_map, map_get. fold hs. rewrite Et, Er. cbn [zbind]. eexists. split; [reflexivity|]. split; [reflexivity|].
  destruct r as [[k' v]|]; cbn [snd answers].
  - destruct Hr as [P (h' & I)]. cbn [fst] in P. apply Eq in P. subst k'. apply in_map_iff in I as ([a b] & X & I). inversion X; subst. auto.
  - intros I. apply in_map_iff in I as ([a b] & <- & I). cbn [fst] in *.
    assert (keq a a = false) as F.
    { apply (Hr (a, b)). apply in_map_iff. exists (a, b). auto. }
    rewrite (proj2 (Eq a a)) in F; congruence.
Qed.
Print Assumptions C34_map.

(** The recorded length is the number of entries for up to seven of them, ... *)
Theorem C34_len_partial V T (zero : V) es t : swiss_target T -> lenN es * 8 < 2 ^ tub T -> lenN es < 8 ->
  store_raw T zero es = Some (ZOk t) -> tlen t = lenN es.
Proof.
  intros Tg L S8 E. destruct (store_ok T zero es Tg L) as (t' & E' & k & ub2 & occ & C & K2 & Hu & Bt & Cap & _).
  assert (t' = t) as -> by congruence. rewrite (b_len _ _ _ _ _ Bt).
  unfold capacity_to_buckets in C. replace (lenN es <? 8) with true in C by (symmetry; apply N.ltb_lt; auto).
  assert (2 ^ k - 1 < 8) as S9. { injection C as C. rewrite <- C. destruct (lenN es <? 4); lia. }
  unfold bucket_mask_to_capacity in *. replace (2 ^ k - 1 <? 8) with true in * by (symmetry; apply N.ltb_lt; auto). lia.
Qed.
Print Assumptions C34_len_partial.

(** ... and too large for any eight or more, by the eighth of the buckets that is
    kept free, less one. *)
Theorem C34_len_refuted V T (zero : V) es t : swiss_target T -> lenN es * 8 < 2 ^ tub T -> 8 <= lenN es ->
  store_raw T zero es = Some (ZOk t) -> tlen t = lenN es + ((bmask t + 1) / 8 - 1) /\ lenN es < tlen t.
Proof.
  intros Tg L S8 E. destruct (store_ok T zero es Tg L) as (t' & E' & k & ub2 & occ & C & K2 & Hu & Bt & Cap & B16).
  assert (t' = t) as -> by congruence. rewrite (b_len _ _ _ _ _ Bt), (b_mask _ _ _ _ _ Bt). specialize (B16 S8).
  unfold bucket_mask_to_capacity in *. replace (2 ^ k - 1 <? 8) with false in * by (symmetry; apply N.ltb_ge; lia).
  replace (2 ^ k - 1 + 1) with (2 ^ k) in * by lia.
  assert (K4 : 4 <= k). { destruct (N.le_gt_cases 4 k); auto. assert (2 ^ k <= 2 ^ 3) by (apply N.pow_le_mono_r; lia). change (2 ^ 3) with 8 in *. lia. }
  assert (P8 : 2 ^ k = 2 ^ (k - 3) * 8). { replace k with (k - 3 + 3) at 1 by lia. rewrite N.pow_add_r. auto. }
  rewrite P8 in *. rewrite N.div_mul in * by lia. lia.
Qed.
Print Assumptions C34_len_refuted.

(** Damaged tables: whatever the control bytes and the mask, a lookup ends
    ([None] is running out of the fuel, one more than the windows a mask allows);
    if twice the mask and two groups fit in [usize] it neither panics nor reads
    outside of the control bytes. *)
Theorem C52_lookup_ends V T ctl mask hash (entry : N -> zres V) eq : swiss_target T ->
  exists r, find T ctl mask hash entry eq = Some r /\
  (bytes_ok ctl = true -> 2 * mask + 2 * tw T < 2 ^ tub T ->
   (forall i, entry i <> ZPanic /\ entry i <> ZUb) -> (forall v, eq v <> ZPanic /\ eq v <> ZUb) ->
   r <> ZPanic /\ r <> ZUb).
Proof.
  intros Tg. destruct (find T ctl mask hash entry eq) as [r|] eqn:E.
  - exists r. split; auto. intros Ok L Q1 Q2. eapply find_quiet in E; eauto.
  - exfalso. revert E. apply find_total. destruct (g_w _ (target_group T Tg)) as (w & R & Ew). unfold tw. rewrite Ew.
    apply N.neq_0_lt_0, N.pow_nonzero. lia.
Qed.
Print Assumptions C52_lookup_ends.

(** Without the bound on the mask the position of a window can overflow. *)
Definition t64 : target := {| tg := sse2; tptr := 8 |}.
Theorem C52_mask_refuted : exists (t : table N) hash, bytes_ok (ctrl t) = true /\ bmask t < 2 ^ 64 /\
  table_find t64 t hash (fun _ => ZOk false) = Some ZPanic.
Proof.
  exists {| ctrl := List.repeat 255 20; ents := [0; 0; 0; 0]; bmask := 2 ^ 64 - 1; tlen := 0 |}, (2 ^ 64 - 1).
  split; [reflexivity|]. split; [reflexivity|]. unfold table_find, find, find_inner, find_fuel.
  cbn [bmask]. replace (N.to_nat ((2 ^ 64 - 1) / tw t64 + 3)) with (S (N.to_nat ((2 ^ 64 - 1) / tw t64 + 2))) by lia.
  reflexivity.
Qed.
Print Assumptions C52_mask_refuted.

(** Two keys with equal hashes, and a key with another one *)
Example C34_nonvacuous : forall T, In T [t64; {| tg := neon; tptr := 8 |}; {| tg := generic Big 4; tptr := 4 |}] ->
  swiss_target T /\
  match store_map T (fun k => k mod 2) (0, 0) [(1, 10); (3, 30); (2, 20); (5, 50)] with
  | Some (ZOk t) => map (fun k => map_get T (fun k => k mod 2) N.eqb t k) [1; 3; 2; 5; 7; 4]
                    = map (fun r => Some (ZOk r)) [Some 10; Some 30; Some 20; Some 50; None; None]
  | _ => False
  end.
Proof.
  intros T I. cbn in I. split.
  - destruct I as [<-|[<-|[<-|[]]]]; unfold swiss_target, group_impl; cbn; repeat split; auto.
    right. right. exists Big, 4%nat. auto.
  - destruct I as [<-|[<-|[<-|[]]]]; vm_compute; reflexivity.
Qed.
Example C34_len_nonvacuous :
  match store_raw t64 0 (map (fun i => (N.of_nat i * 2 ^ 57, N.of_nat i)) (seq 0 8)) with
  | Some (ZOk t) => tlen t = 9 /\ bmask t = 15
  | _ => False
  end.
Proof. vm_compute. auto. Qed.
Example C52_nonvacuous :
  find t64 (List.repeat 7 48) 31 (7 * 2 ^ 57 + 3) (fun i => if i <? 30 then ZOk i else ZErr) (fun v => ZOk (v =? 100)) = Some ZErr
  /\ find t64 (List.repeat 7 48) 31 (9 * 2 ^ 57 + 3) (fun i => ZOk i) (fun v => ZOk (v =? 100)) = Some ZErr
  /\ find t64 (List.repeat 7 48) 31 (7 * 2 ^ 57 + 3) (fun i => ZOk i) (fun v => ZOk (v =? 10)) = Some (ZOk (Some 10)).
Proof. vm_compute. auto. Qed.

(** [bind] loads all buckets ([RawTableRef::bind], map.rs:528-535), also the
    empty ones, which are zeroed: for a key type without a zero, binding what was
    stored fails, although [MapRef::get], which loads single entries, finds it.
    Here an entry is a [NonZeroU32] key and a [u32] value, stored as memory. *)
Definition nz_entry : zty := ZStruct None None [ZNonZero 4 4; ZInt 4 4].
Theorem C34_bind_refuted :
  exists t, store_raw t64 (List.repeat 0 8) [(0, [1; 0; 0; 0; 10; 0; 0; 0])] = Some (ZOk t) /\
  let buf := {| baddr := 0; bdata := concat (ents t) |} in
  load_slice 64 Little buf nz_entry 0 (lenN (ents t)) = ZErr /\
  find t64 (ctrl t) (bmask t) 0 (fun i => load_sized 64 Little buf nz_entry (8 * i)) (fun e => ZOk (hd 0 e =? 1))
    = Some (ZOk (Some [1; 0; 0; 0; 10; 0; 0; 0])).
Proof.
  destruct (store_raw t64 (List.repeat 0 8) [(0, [1; 0; 0; 0; 10; 0; 0; 0])]) as [[t| | |]|] eqn:E; vm_compute in E; try discriminate.
  injection E as <-. eexists. split; [reflexivity|]. split; vm_compute; reflexivity.
Qed.
Print Assumptions C34_bind_refuted.
