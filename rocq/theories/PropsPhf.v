(** Theorems about perfect-hash maps: C35, C53. In all of them [hf seed key] is
    the hash of a key, [seeds] the sequence of seeds that are tried, and storing
    is [None] as long as none of the first [fuel] seeds gives a perfect hash. *)
From Coq Require Import Permutation.
From Verif Require Import Base Options Int Zc ZcBuf Sip Swiss SwissSpec SwissFacts Phf PhfSpec PhfFacts.
Local Open Scope N_scope.

(** Once a seed works storing succeeds: rearranging ends, does not panic, and
    keeps every entry, once. *)
Theorem C35_store K V fuel ub (hf : N -> K -> hashes) seeds (es : list (K * V)) : fits ub es ->
  phf_store fuel ub hf seeds es = None \/ exists m, phf_store fuel ub hf seeds es = Some (ZOk m) /\ stored m es.
Proof.
  intros L. pose proof (store_spec fuel ub hf seeds es L) as S'.
  destruct (generate _ _ _ _ _ _) as [[[s ds] mp]|] eqn:G; [|auto]. right.
  destruct S' as (m & E & _ & Ed & P). exists m. split; auto. split; auto.
  destruct (generate_spec _ _ _ _ _ _ _ _ _ G) as (j & _ & _ & T). unfold fits in L.
  assert (Lh : lenN (map (hf s) (map fst es)) = lenN es) by (unfold lenN; rewrite !map_length; auto).
  apply try_generate_spec in T as (_ & Ld & _); [|lia]. rewrite Ed, Ld, Lh. unfold displacements_len.
  pose proof (N.div_mod (lenN es + 4) 5 ltac:(lia)). pose proof (N.mod_lt (lenN es + 4) 5 ltac:(lia)). lia.
Qed.
Print Assumptions C35_store.

(** A lookup in a stored map ends without an error, and answers only with a value
    stored for the key. *)
Theorem C35_get_sound K V fuel ub (hf : N -> K -> hashes) (keq : K -> K -> bool) seeds (es : list (K * V)) m k :
  fits ub es -> (forall a b, keq a b = true <-> a = b) -> phf_store fuel ub hf seeds es = Some (ZOk m) ->
  exists r, phf_get ub hf keq m k = ZOk r /\ forall v, r = Some v -> In (k, v) es.
Proof.
  intros L Eq E. destruct (C35_store K V fuel ub hf seeds es L) as [X|(m' & X & P & D1 & D2)]; [congruence|].
  assert (m' = m) as -> by congruence.
  destruct (get_total ub hf keq m k) as (r & G & S' & _).
  - intros Z. rewrite Z in P. apply Permutation_nil in P. subst es. destruct (pdisp m); auto. unfold lenN in *. cbn [length] in *. lia.
  - exists r. split; auto. intros v Hv. destruct (S' v Hv) as (k' & I & Q). apply Eq in Q. subst k'. eapply Permutation_in; eauto.
Qed.
Print Assumptions C35_get_sound.

(** With at most two entries nothing is missed either. Missing: three and more
    entries, where the claim is false (below). *)
Theorem C35_map_partial K V fuel ub (hf : N -> K -> hashes) (keq : K -> K -> bool) seeds (es : list (K * V)) m k :
  fits ub es -> (forall a b, keq a b = true <-> a = b) -> lenN es <= 2 -> phf_store fuel ub hf seeds es = Some (ZOk m) ->
  exists r, phf_get ub hf keq m k = ZOk r /\ answers es k r.
Proof.
  intros L Eq L2 E. destruct (C35_get_sound K V fuel ub hf keq seeds es m k L Eq E) as (r & G & S').
  exists r. split; auto. destruct r as [v|]; [apply S'; auto|]. cbn [answers]. intros I.
  unfold phf_store in E. destruct (generate _ _ _ _ _ _) as [[[s ds] mp]|] eqn:Ge; [|discriminate].
  destruct (generate_spec _ _ _ _ _ _ _ _ _ Ge) as (j & _ & _ & T).
  set (hs := map (hf s) (map fst es)) in T.
  assert (Lh : lenN hs = lenN es) by (unfold lenN, hs; rewrite !map_length; auto).
  assert (Lu : lenN hs < 2 ^ ub - 1) by (rewrite Lh; auto).
  assert (L0 : 0 < lenN es) by (destruct es; [destruct I|unfold lenN; cbn [length]; lia]).
  destruct (try_generate_spec _ _ _ _ Lu T) as ((Lm & D & Rg) & Ld & _).
  assert (L1 : displacements_len (lenN hs) = 1).
  { rewrite Lh. assert (lenN es = 1 \/ lenN es = 2) as [->| ->] by lia; reflexivity. }
  destruct (generated_bucket _ _ _ _ Lu T 0) as (d & Id & B); [lia|]. rewrite L1 in *.
  assert (ds = [d]) as ->.
  { destruct ds as [|d' [|]]; unfold lenN in Ld; cbn [length] in Ld; try lia. destruct Id as [->|[]]. auto. }
  assert (Ens : exists es', m = {| pseed := s; pents := es'; pdisp := [d] |} /\ lenN es' = lenN es /\
     forall i e, nthN es i = Some e -> exists p, nthN mp p = Some i /\ nthN es' p = Some e).
  { clear -E D Rg Lm L0 L2 Lh. rewrite Lh in *. destruct es as [|e1 [|e2 [|]]]; unfold lenN in *; cbn [length] in *; try lia.
    - destruct mp as [|x [|]]; cbn [length] in Lm; try lia. assert (x = 0) as -> by (specialize (Rg x ltac:(left; auto)); lia).
      cbn in E. inversion E; subst m. exists [e1]. repeat split. intros i e H. exists 0. 
      unfold nthN in *. destruct (N.to_nat i) as [|q] eqn:Q; [|destruct q; discriminate]. inversion H; subst. cbn. split; auto. f_equal; lia.
    - destruct mp as [|x [|y [|]]]; cbn [length] in Lm; try lia.
      pose proof (Rg x ltac:(cbn; auto)). pose proof (Rg y ltac:(cbn; auto)). assert (x <> y) by (intros ->; inversion D as [|? ? NI]; apply NI; left; auto).
      assert ((x = 0 /\ y = 1) \/ (x = 1 /\ y = 0)) as [[-> ->]|[-> ->]] by lia.
      + cbn in E. inversion E; subst m. exists [e1; e2]. repeat split. intros i e He. exists i.
        unfold nthN in *. destruct (N.to_nat i) as [|[|q]] eqn:Q; [| |destruct q; discriminate]; cbn in *; inversion He; subst; split; auto; f_equal; lia.
      + cbn in E. inversion E; subst m. exists [e2; e1]. repeat split. intros i e He. exists (1 - i).
        unfold nthN in *. destruct (N.to_nat i) as [|[|q]] eqn:Q; [| |destruct q; discriminate]; cbn in *.
        * assert (i = 0) as -> by lia. inversion He; subst; cbn. auto.
        * assert (i = 1) as -> by lia. inversion He; subst; cbn. auto. }
  destruct Ens as (es' & -> & Le & Pos). apply in_map_iff in I as ([k0 v] & <- & I). cbn [fst] in *.
  apply In_nthN in I as [i Ei]. destruct (Pos i _ Ei) as (p & Ep & Eq').
  assert (Eh : nthN hs i = Some (hf s k0)).
  { unfold nthN in *. unfold hs. rewrite map_map. apply (map_nth_error (fun x => hf s (fst x)) _ _ Ei). }
  pose proof (B i _ Eh ltac:(rewrite N.mod_1_r; auto)) as M.
  assert (p = slot ub (hf s k0) d (lenN hs)) as -> by (eapply nodup_nthN; eauto).
  destruct (get_total ub hf keq {| pseed := s; pents := es'; pdisp := [d] |} k0) as (r & G' & _ & C).
  { intros Z. cbn in Z. subst es'. unfold lenN in *. cbn in *. lia. }
  cbn [pseed pents pdisp] in C. rewrite G in G'. inversion G'; subst r.
  specialize (C d). rewrite Le, <- Lh in C. assert (None = Some v) as X; [|discriminate].
  eapply C; [|exact Eq'|apply Eq; auto]. change (lenN [d]) with 1. rewrite N.mod_1_r. reflexivity.
Qed.
Print Assumptions C35_map_partial.

(** The map of the three keys 1, 2 and 3, stored with SipHash and the seeds the
    code uses, finds none of them: the entries are moved by the inverse of the
    permutation. *)
Theorem C35_map_refuted : exists fuel m,
  phf_store fuel 64 (sip_u32 64) phf_seeds [(1, 101); (2, 102); (3, 103)] = Some (ZOk m) /\
  forall k, In k [1; 2; 3] -> phf_get 64 (sip_u32 64) N.eqb m k = ZOk None.
Proof.
  exists 6%nat. eexists. split; [vm_compute; reflexivity|].
  intros k [<-|[<-|[<-|[]]]]; vm_compute; reflexivity.
Qed.
Print Assumptions C35_map_refuted.

(** With more than one bucket the displacement a lookup uses can be another
    bucket's: they are stored in the order of the buckets' sizes. The claim a
    correct generator meets is that the position computed by [get_index] for every
    key is the one it gave the key. *)
Theorem C35_bucket_refuted : exists hs ds mp i h index,
  try_generate 64 hs = Some (ds, mp) /\ nthN hs i = Some h /\
  get_index 64 h ds (lenN hs) = ZOk index /\ nthN mp index <> Some i.
Proof.
  exists (map (sip_u32 64 (phf_seeds 3)) [1; 2; 3; 4; 5; 6]). do 2 eexists.
  exists 0. do 2 eexists. split; [vm_compute; reflexivity|]. split; [vm_compute; reflexivity|]. split; [vm_compute; reflexivity|].
  vm_compute. discriminate.
Qed.
Print Assumptions C35_bucket_refuted.

(** ... which for up to five entries, a single bucket, is met. *)
Theorem C35_bucket_partial ub hs ds mp i h : fits ub hs -> lenN hs <= 5 -> try_generate ub hs = Some (ds, mp) -> nthN hs i = Some h ->
  exists index, get_index ub h ds (lenN hs) = ZOk index /\ nthN mp index = Some i.
Proof.
  intros L L5 T Ei. pose proof (nthN_lt _ _ _ Ei) as L0.
  assert (L1 : displacements_len (lenN hs) = 1).
  { assert (lenN hs = 1 \/ lenN hs = 2 \/ lenN hs = 3 \/ lenN hs = 4 \/ lenN hs = 5) as D by lia.
    repeat destruct D as [->|D]; try reflexivity. rewrite D. reflexivity. }
  destruct (generated_bucket _ _ _ _ L T 0) as (d & Id & B); [lia|].
  destruct (try_generate_spec _ _ _ _ L T) as (_ & Ld & _). rewrite L1 in *.
  assert (ds = [d]) as ->.
  { destruct ds as [|d' [|]]; unfold lenN in Ld; cbn [length] in Ld; try lia. destruct Id as [->|[]]. auto. }
  exists (slot ub h d (lenN hs)). split.
  - unfold get_index. change (lenN [d]) with 1. rewrite N.mod_1_r. cbn [nthN N.to_nat nth_error].
    replace (lenN hs =? 0) with false by (symmetry; apply N.eqb_neq; lia). reflexivity.
  - apply B; auto. apply N.mod_1_r.
Qed.
Print Assumptions C35_bucket_partial.

(** Storing two entries with the same key never ends: no seed works. *)
Theorem C35_duplicates_refuted K V ub (hf : N -> K -> hashes) seeds (es : list (K * V)) : fits ub es -> repeated_key es ->
  forall fuel, phf_store fuel ub hf seeds es = None.
Proof.
  intros L (a & b & c & k & v & w & E) fuel. unfold phf_store.
  rewrite (generate_dup ub hf seeds (map fst es) (lenN a) (lenN a + 1 + lenN b) k); auto.
  - unfold fits, lenN in *. rewrite map_length. auto.
  - subst es. unfold nthN, lenN. rewrite Nat2N.id, map_app, nth_error_app2; rewrite map_length; auto. rewrite Nat.sub_diag. auto.
  - subst es. unfold nthN, lenN. replace (N.to_nat _) with (length a + (1 + length b))%nat by lia.
    rewrite map_app, nth_error_app2; rewrite map_length; [|lia].
    replace (length a + (1 + length b) - length a)%nat with (1 + length b)%nat by lia.
    cbn. rewrite map_app, nth_error_app2; rewrite map_length; auto. rewrite Nat.sub_diag. auto.
  - unfold lenN. lia.
Qed.
Print Assumptions C35_duplicates_refuted.

Example C35_nonvacuous :
  exists m, phf_store 20 64 (sip_u32 64) phf_seeds [(10, 1); (20, 2)] = Some (ZOk m) /\
  phf_get 64 (sip_u32 64) N.eqb m 10 = ZOk (Some 1) /\ phf_get 64 (sip_u32 64) N.eqb m 20 = ZOk (Some 2) /\
  phf_get 64 (sip_u32 64) N.eqb m 30 = ZOk None.
Proof. eexists. split; [vm_compute; reflexivity|]. repeat split; vm_compute; reflexivity. Qed.
Example C35_repeated_nonvacuous : repeated_key [(1, 2); (1, 3)] /\ fits 64 [(1, 2); (1, 3)].
Proof. split; [|vm_compute; reflexivity]. exists [], [], [], 1, 2, 3. reflexivity. Qed.

(** C53: a lookup in any map, however its seed, entries and displacements came to
    be, ends without a panic or an error if there is an entry or no displacement,
    and answers only with values of entries the map has under that key. *)
Theorem C53_get_partial K V ub (hf : N -> K -> hashes) (keq : K -> K -> bool) (m : phf K V) k :
  pents m <> [] \/ pdisp m = [] ->
  exists r, phf_get ub hf keq m k = ZOk r /\ forall v, r = Some v -> exists k', In (k', v) (pents m) /\ keq k' k = true.
Proof.
  intros H. destruct (get_total ub hf keq m k) as (r & G & S' & _); [tauto|]. eauto.
Qed.
Print Assumptions C53_get_partial.

(** Without entries but with a displacement it panics: a remainder by zero. *)
Theorem C53_get_refuted K V ub (hf : N -> K -> hashes) (keq : K -> K -> bool) seed d (ds : list (N * N)) k :
  phf_get ub hf keq {| pseed := seed; pents := @nil (K * V); pdisp := d :: ds |} k = ZPanic.
Proof.
  unfold phf_get. cbn [pdisp pseed pents]. unfold get_index.
  destruct (nthN_some (d :: ds) (hg (hf seed k) mod lenN (d :: ds))) as [x E]; [apply N.mod_lt; unfold lenN; cbn [length]; lia|].
  rewrite E. reflexivity.
Qed.
Print Assumptions C53_get_refuted.
Example C53_nonvacuous : exists r, phf_get 64 (sip_u32 64) N.eqb {| pseed := 7; pents := [(1, 2)]; pdisp := [(5, 6); (7, 8)] |} 1 = ZOk r.
Proof. eexists. vm_compute. reflexivity. Qed.
