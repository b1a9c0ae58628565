(** Popping, clearing, reserving and merging vectors. *)
From Coq Require Import List NArith Bool Lia.
From Verif Require Import Base BaseFacts Alloc AllocSpec AllocFacts AllocGrow AllocVec.
Import ListNotations.
Open Scope N_scope.

(** ** Joining two neighbours *)

Lemma join_spec : forall s l1 i j l2, inv s (l1 ++ i :: j :: l2) -> a_occ s <> Some j ->
  exists s', free_region s j = (a_hdrs s j, s')
    /\ inv (set_end s' i (h_end (a_hdrs s j))) (l1 ++ i :: l2)
    /\ (forall r, r <> j -> r <> i -> h_start (a_hdrs (set_end s' i (h_end (a_hdrs s j))) r) = h_start (a_hdrs s r)
                         /\ h_end (a_hdrs (set_end s' i (h_end (a_hdrs s j))) r) = h_end (a_hdrs s r))
    /\ h_start (a_hdrs (set_end s' i (h_end (a_hdrs s j))) i) = h_start (a_hdrs s i)
    /\ h_end (a_hdrs (set_end s' i (h_end (a_hdrs s j))) i) = h_end (a_hdrs s j)
    /\ a_mem s' = a_mem s /\ a_occ s' = a_occ s /\ a_haz s' = a_haz s /\ same_env s s'
    /\ h_end (a_hdrs s i) = h_start (a_hdrs s j) /\ i <> j.
Proof.
  intros s l1 i j l2 I Ho.
  assert (I' : inv s ((l1 ++ [i]) ++ j :: l2)) by (rewrite <- app_assoc; exact I).
  pose proof (inv_split _ _ _ _ I') as (Ep & En & T1 & Le & T2 & N1 & N2 & ND).
  destruct (free_region_spec s (l1 ++ [i]) j l2 (i_nodup _ _ I') (i_seg _ _ I') (i_tail _ _ I')) as (s' & Fr & F).
  destruct (i_ids _ _ I') as (n & Eh & Li & Lf).
  assert (Np : i <> j) by (intros ->; apply N1; rewrite in_app_iff; simpl; auto).
  pose proof (NoDup_remove_2 l1 l2 i) as NP.
  rewrite <- app_assoc in ND. simpl in ND. specialize (NP ND). rewrite in_app_iff in NP.
  apply tile_app in T1. destruct T1 as (a & T1 & Es & Le' & Ee). simpl in Ee.
  exists s'. split; [auto|].
  destruct (f_same _ _ _ _ _ F i Np) as (Fi1 & Fi2).
  split; [|split; [|split; [|split; [|split; [|split; [|split; [|split; [|split]]]]]]]].
  - constructor; red_s; auto.
    + apply (seg_ext (a_hdrs s')).
      { intros r J. destruct (N.eqb_spec r i) as [->|]; split; reflexivity. }
      pose proof (f_seg _ _ _ _ _ F) as G. rewrite <- app_assoc in G. exact G.
    + rewrite (f_tail _ _ _ _ _ F), <- app_assoc. reflexivity.
    + rewrite (f_lo _ _ _ _ _ F), (f_fs _ _ _ _ _ F).
      apply tile_app. exists a. split.
      { apply (tile_ext (a_hdrs s)); [|exact T1]. intros r J.
        rewrite same_hdr by (intros ->; tauto). apply F. intros ->. apply N1. rewrite in_app_iff. auto. }
      simpl. rewrite N.eqb_refl. red_s. rewrite Fi1. split; [auto|]. split; [lia|].
      apply (tile_ext (a_hdrs s)); [|exact T2]. intros r J.
      rewrite same_hdr by (intros ->; tauto). apply F. intros ->. auto.
    + intros f Hf. rewrite (f_head _ _ _ _ _ F) in Hf. injection Hf as <-.
      rewrite same_hdr by congruence. split; [|apply F]. rewrite in_app_iff in *. simpl in *. intuition.
    + intros o Hoc. rewrite (f_occ _ _ _ _ _ F) in Hoc. destruct (i_occ _ _ I _ Hoc) as (t & E).
      destruct l1 as [|q t1]; simpl in *; injection E as -> E; eauto.
    + rewrite (f_lo _ _ _ _ _ F). apply I.
    + rewrite (f_fe _ _ _ _ _ F), (f_fs _ _ _ _ _ F). apply I.
    + rewrite (f_hi _ _ _ _ _ F). apply I.
    + exists n. rewrite (f_hi _ _ _ _ _ F), (f_fe _ _ _ _ _ F). split; [exact Eh|]. split.
      { intros r J. apply Li. rewrite !in_app_iff in *. simpl in *. tauto. }
      intros f Hf. rewrite (f_head _ _ _ _ _ F) in Hf. injection Hf as <-. apply Li. rewrite in_app_iff. simpl. auto.
    + rewrite (f_dbg _ _ _ _ _ F), (f_fe _ _ _ _ _ F). apply I.
  - intros r D1 D2. red_s. rewrite same_hdr by auto. apply F. auto.
  - red_s. rewrite N.eqb_refl. red_s. exact Fi1.
  - red_s. rewrite N.eqb_refl. reflexivity.
  - apply F.
  - apply F.
  - apply F.
  - repeat split; apply F.
  - exact Ee.
  - exact Np.
Qed.

Definition both (a b : option N) : N -> Prop := fun r => a = Some r \/ b = Some r.

(** The region after [i] in the list is its [next]. *)
Lemma next_split : forall s l i j, inv s l -> In i l -> h_next (a_hdrs s i) = Some j ->
  exists l1 l2, l = l1 ++ i :: j :: l2.
Proof.
  intros s l i j I Hi Hn. apply in_split in Hi. destruct Hi as (l1 & l2 & ->).
  destruct (inv_split _ _ _ _ I) as (_ & En & _). rewrite Hn in En.
  destruct l2 as [|k t]; simpl in En; [discriminate|]. injection En as <-. eauto.
Qed.

Lemma as_ptr_some : forall s v i, v_sz v <> 0 -> v_region v = Some i -> as_ptr s v = h_start (a_hdrs s i).
Proof. intros s v i Z R. unfold as_ptr. apply N.eqb_neq in Z. now rewrite Z, R. Qed.

Lemma bytes_spec : forall s rl q v, inv s rl -> vok s rl q v -> vec_bytes s v = Done (concat (q_items q)).
Proof.
  intros s rl q v I [V1 V2 V3 V4 V5 V6 V7 V8]. unfold vec_bytes, read_data. rewrite V1, V4.
  pose proof (lenN_concat _ _ V5) as Lc.
  destruct (N.eq_dec (lenN (q_items q) * q_sz q) 0) as [Z|Z].
  - rewrite Z in *. unfold in_data. cbn [N.eqb orb]. rewrite peek_zero.
    destruct (concat (q_items q)) as [|x t]; auto. exfalso. revert Lc. clear. unfold lenN. cbn [length]. lia.
  - assert (Zs : q_sz q <> 0) by (intros E; rewrite E, N.mul_0_r in Z; auto).
    destruct (v_region v) as [i|] eqn:R.
    + destruct (V8 i eq_refl) as (A1 & A2 & A3 & A4 & A5 & A6).
      rewrite (as_ptr_some s v i) by (auto; congruence).
      rewrite (in_data_region s rl i) by (auto; lia). rewrite A6. reflexivity.
    + exfalso. destruct (V7 Zs eq_refl) as (_ & E). rewrite E in Z. apply Z. reflexivity.
Qed.

Lemma extend_spec : forall s rl q v p o,
  inv s rl -> vok s rl q v -> vok s rl p o -> q_sz q = q_sz p -> q_al q = q_al p ->
  lenN (q_items q) + lenN (q_items p) < usz ->
  (forall r, v_region v = Some r -> v_region o <> Some r) ->
  wp (vec_extend s v o) (fun x =>
    let '(ok, v', s') := x in
    a_haz s' <> [] \/
    exists rl', changed s s' rl rl' (both (v_region v) (v_region o))
                  (if ok then with_items q (q_items q ++ q_items p) else q) v').
Proof.
  intros s rl q v p o I V O Esz Eal Lu Ds. unfold vec_extend.
  pose proof V as [V1 V2 V3 V4 V5 V6 V7 V8]. pose proof O as [O1 O2 O3 O4 O5 O6 O7 O8].
  assert (Up : forall s2, uplus s2 (v_len v) (v_len o) = Done (lenN (q_items q) + lenN (q_items p))).
  { intros s2. unfold uplus. rewrite V4, O4. pose proof Lu as Lu'. apply N.ltb_lt in Lu'. now rewrite Lu'. }
  assert (Slow : wp (let! bs := vec_bytes s o in
      let src := as_ptr s o in
      let! (ok, v', s) := vec_extend_from_slice s v (v_len o) bs in
      if (ok : bool) && negb (v_sz v =? 0) && negb (lenN bs =? 0)
         && negb ((src + lenN bs <=? as_ptr s v' + v_len v * v_sz v)
                  || (as_ptr s v' + v_len v * v_sz v + lenN bs <=? src))
      then Undefined (a_haz s)
      else let! s := drop_vec s o in Done (ok, v', s))
    (fun x => let '(ok, v', s') := x in
      a_haz s' <> [] \/
      exists rl', changed s s' rl rl' (both (v_region v) (v_region o))
                    (if ok then with_items q (q_items q ++ q_items p) else q) v')).
  { rewrite (bytes_spec s rl p o I O). cbn [obind]. cbv zeta.
    pose proof (lenN_concat _ _ O5) as Lc. rewrite O4.
    apply wp_bind with (1 := extend_slice_spec s rl q v (q_items p) I V ltac:(rewrite Esz; exact O5) Lu).
    intros ((ok, v'), s1) [H|(rl1 & C)].
    { destruct (_ && _ && _ && _); [exact H|].
      apply wp_bind with (1 := drop_dirty s1 o H). intros s2 H2. left. exact H2. }
    pose proof (ch_inv _ _ _ _ _ _ _ C) as I1. pose proof (ch_vok _ _ _ _ _ _ _ C) as V'.
    assert (O' : vok s1 rl1 p o).
    { apply (vok_keeps s s1 rl rl1 (of (v_region v))); [exact O|apply C|].
      intros r Hr X. apply (Ds r X Hr). }
    assert (Dv : forall r, v_region v' = Some r -> v_region o <> Some r).
    { intros r Hr Hr'. destruct (O8 r Hr') as (J & Oc & _).
      apply (ch_fresh _ _ _ _ _ _ _ C r Hr J Oc). intros X. apply (Ds r X Hr'). }
    assert (Nov : (ok : bool) && negb (v_sz v =? 0) && negb (lenN (concat (q_items p)) =? 0)
         && negb ((as_ptr s o + lenN (concat (q_items p)) <=? as_ptr s1 v' + v_len v * v_sz v)
                  || (as_ptr s1 v' + v_len v * v_sz v + lenN (concat (q_items p)) <=? as_ptr s o)) = false).
    { destruct ok; auto. destruct (N.eqb_spec (v_sz v) 0) as [Z|Z]; auto.
      destruct (N.eqb_spec (lenN (concat (q_items p))) 0) as [Z2|Z2]; auto. cbn [negb andb].
      apply negb_false_iff, orb_true_iff. rewrite !N.leb_le. rewrite Lc in *.
      assert (Zq : q_sz q <> 0) by congruence.
      assert (Zp : q_sz p <> 0) by congruence.
      destruct V' as [W1 W2 W3 W4 W5 W6 W7 W8]. cbn [with_items q_sz q_al q_items] in *.
      destruct (v_region o) as [j|] eqn:Rj.
      2:{ destruct (O7 Zp eq_refl) as (_ & E). rewrite E in Z2. exfalso. apply Z2. reflexivity. }
      destruct (v_region v') as [k|] eqn:Rk.
      2:{ destruct (W7 Zq eq_refl) as (_ & E). apply app_eq_nil in E. destruct E as (_ & E). rewrite E in Z2. exfalso. apply Z2. reflexivity. }
      rewrite (as_ptr_some s o j) by (auto; congruence).
      rewrite (as_ptr_some s1 v' k) by (auto; congruence).
      destruct (O8 j eq_refl) as (A1 & A2 & A3 & A4 & A5 & A6).
      destruct (W8 k eq_refl) as (B1 & B2 & B3 & B4 & B5 & B6).
      rewrite lenN_app, N.mul_add_distr_r in B4.
      destruct (ch_keeps _ _ _ _ _ _ _ C j A1) as (C1 & C2 & C3 & C4 & C5); [|exact A2|].
      { intros X. apply (Ds j X). reflexivity. }
      assert (Njk : j <> k) by (intros ->; apply (Dv k eq_refl); reflexivity).
      rewrite V1, V4, <- Esz in *.
      destruct (tile_disjoint _ _ _ _ j k (i_tile _ _ I1) C1 B1 Njk) as [T|T]; lia. }
    rewrite Nov.
    destruct (drop_spec s1 rl1 p o I1 O') as (s2 & rl2 & Dr & I2 & Hz & He & _ & Kp).
    rewrite Dr. cbn [obind wp]. right. exists rl2. constructor.
    - exact I2.
    - rewrite Hz. apply C.
    - apply same_env_trans with (s2 := s1); [apply C|auto].
    - apply (vok_keeps s1 s2 rl1 rl2 (of (v_region o))); [exact V'|exact Kp|exact Dv].
    - apply keepsP_trans with (s2 := s1) (l2 := rl1) (Y := of (v_region o)).
      + apply (keepsP_mono _ _ _ _ (of (v_region v))); [|apply C]. intros r X. left. exact X.
      + exact Kp.
      + intros r X. apply fresh_self. right. exact X.
    - intros r Hr J Oc X. apply (ch_fresh _ _ _ _ _ _ _ C r Hr J Oc). intros Y. apply X. left. exact Y. }
  unfold try_merge. rewrite V1. rewrite V1 in Slow.
  destruct (N.eqb_spec (q_sz q) 0) as [Z|Z].
  { cbn [obind]. rewrite Up. cbn [obind wp]. right. exists rl.
    destruct (V6 Z) as (Rn & Cn). rewrite Esz in Z. destruct (O6 Z) as (Ro & Co).
    constructor; auto.
    - apply same_env_refl.
    - unfold with_len, with_items. constructor; cbn [v_sz v_al v_len v_region v_cap q_sz q_al q_items]; auto.
      + rewrite lenN_app. reflexivity.
      + apply sized_app; auto. rewrite Esz. exact O5.
      + rewrite Esz. tauto.
      + rewrite Rn. discriminate.
    - apply keepsP_refl.
    - unfold with_len. cbn [v_region]. rewrite Rn. discriminate. }
  destruct (v_region v) as [i|] eqn:Ri; [|exact Slow].
  destruct (V8 i eq_refl) as (A1 & A2 & A3 & A4 & A5 & A6).
  pose proof (inv_cap _ _ _ I A1) as Cap. rewrite V4.
  replace (a_dbg s && negb (lenN (q_items q) * q_sz q <=? capacity (a_hdrs s i))) with false.
  2:{ symmetry. apply andb_false_iff. right. apply negb_false_iff. apply N.leb_le. lia. }
  cbv iota zeta.
  destruct (N.eqb_spec (h_end (a_hdrs s i)) (as_ptr s o)) as [Ead|]; cbn [negb]; [|rewrite V4 in Slow; exact Slow].
  destruct (h_next (a_hdrs s i)) as [j|] eqn:En; [|rewrite V4 in Slow; exact Slow].
  destruct (oeqb (v_region o) (Some j)) eqn:Eo; cbn [negb].
  2:{ (* the wrong header *)
    assert (Hd : a_haz (add_haz s true WrongMerge) <> []) by (unfold add_haz; red_s; discriminate).
    apply wp_bind with (P := fun x => a_haz (snd x) <> []).
    { apply wp_bind with (P := fun s' => a_haz s' <> []).
      { destruct (_ =? _); [exact Hd|]. apply copy_dirty. exact Hd. }
      intros s2 H2. pose proof (free_region_haz s2 j) as Fh. destruct (free_region s2 j) as (old, s3). cbn [snd] in Fh.
      cbn [wp snd]. red_s. congruence. }
    intros (m, s2) H2. cbn [snd] in H2. destruct m.
    - apply wp_bind with (1 := uplus_dirty s2 _ _ H2). intros l _. left. exact H2.
    - unfold vec_bytes, read_data. destruct (in_data s2 _ _); cbn [obind]; [|exact H2].
      apply wp_bind with (1 := extend_slice_dirty s2 v _ _ H2). intros ((ok, v'), s3) H3. cbn [snd] in H3.
      destruct (_ && _ && _ && _); [exact H3|].
      apply wp_bind with (1 := drop_dirty s3 o H3). intros s4 H4. left. exact H4. }
  apply oeqb_some in Eo. unfold add_haz. fold (set_mem s (a_mem s)).
  change (mka (a_free_head s) (a_tail s) (a_occ s) (a_lo s) (a_hi s) (a_fs s) (a_fe s) (a_hdrs s) (a_mem s) (a_dbg s) (a_haz s)) with (set_mem s (a_mem s)).
  destruct (next_split s rl i j I A1 En) as (l1 & l2 & ->).
  destruct (O8 j Eo) as (B1 & B2 & B3 & B4 & B5 & B6).
  rewrite <- Esz in *.
  assert (Zo : v_sz o <> 0) by congruence.
  rewrite (as_ptr_some s o j Zo Eo) in Ead.
  destruct (inv_in _ _ _ I A1) as (Lo1 & Le1 & Fs1). destruct (inv_in _ _ _ I B1) as (Lo2 & Le2 & Fs2).
  rewrite O4.
  assert (Wd : wadd (h_start (a_hdrs s i)) (lenN (q_items q) * q_sz q) = h_start (a_hdrs s i) + lenN (q_items q) * q_sz q).
  { apply wadd_small. pose proof (inv_fe _ _ I). pose proof (i_fs _ _ I).
    replace (2 ^ 64) with (2 ^ 63 + 2 ^ 63) by reflexivity. lia. }
  rewrite Wd.
  (* the memory after the copy *)
  assert (Cp : exists m,
    (if h_end (a_hdrs (set_mem s (a_mem s)) i) =? h_start (a_hdrs s i) + lenN (q_items q) * q_sz q
     then Done (set_mem s (a_mem s))
     else copy_data (set_mem s (a_mem s)) (h_end (a_hdrs (set_mem s (a_mem s)) i)) (h_start (a_hdrs s i) + lenN (q_items q) * q_sz q) (lenN (q_items p) * q_sz q))
    = Done (set_mem s m)
    /\ (forall k, k < lenN (q_items p) * q_sz q -> m (h_start (a_hdrs s i) + lenN (q_items q) * q_sz q + k) = a_mem s (h_start (a_hdrs s j) + k))
    /\ (forall a, a < h_start (a_hdrs s i) + lenN (q_items q) * q_sz q \/ h_end (a_hdrs s j) <= a -> m a = a_mem s a)).
  { red_s. destruct (N.eqb_spec (h_end (a_hdrs s i)) (h_start (a_hdrs s i) + lenN (q_items q) * q_sz q)) as [E|E].
    - exists (a_mem s). split; [auto|]. split; [|auto]. intros k Lk. rewrite <- E, Ead. reflexivity.
    - unfold copy_data.
      assert (D1 : in_data (set_mem s (a_mem s)) (h_end (a_hdrs s i)) (lenN (q_items p) * q_sz q) = true).
      { apply (in_data_region (set_mem s (a_mem s)) (l1 ++ i :: j :: l2) j); [apply inv_set_mem; exact I|auto|red_s; lia|red_s; lia]. }
      assert (D2 : in_data (set_mem s (a_mem s)) (h_start (a_hdrs s i) + lenN (q_items q) * q_sz q) (lenN (q_items p) * q_sz q) = true).
      { unfold in_data. red_s. apply orb_true_iff. right. apply andb_true_iff. rewrite !N.leb_le. pose proof (i_fs _ _ I). lia. }
      rewrite D1, D2. cbn [andb].
      eexists. split; [reflexivity|]. cbv beta. split.
      + intros k Lk. red_s. rewrite Ead. apply copied_at. exact Lk.
      + intros a La. red_s. apply copied_out. lia. }
  destruct Cp as (m & Cp & M1 & M2).
  change (a_hdrs s i) with (a_hdrs (set_mem s (a_mem s)) i) in Cp.
  match goal with |- context [obind (if ?c then ?a else ?b) _] =>
    replace (if c then a else b) with (Done (set_mem s m)) by (symmetry; exact Cp) end.
  cbn [obind].
  pose proof (inv_set_mem s _ m I) as Im.
  destruct (join_spec (set_mem s m) l1 i j l2 Im) as (s' & Fr & Ij & Oth & Hs & Hend & Hm & Hoc & Hz & He & Adj & Nij).
  { red_s. exact B2. }
  rewrite Fr. cbn [obind]. rewrite <- V4, <- O4. rewrite Up. cbn [obind wp].
  set (s2 := set_end s' i (h_end (a_hdrs (set_mem s m) j))) in *. red_s.
  assert (Hm2 : a_mem s2 = m) by exact Hm.
  assert (Hoc2 : a_occ s2 = a_occ s) by exact Hoc.
  right. exists (l1 ++ i :: l2). constructor.
  - exact Ij.
  - exact Hz.
  - exact He.
  - unfold with_len, with_items. constructor; cbn [v_sz v_al v_len v_region v_cap q_sz q_al q_items]; auto.
    + rewrite lenN_app. reflexivity.
    + apply sized_app; auto.
    + tauto.
    + rewrite Ri. discriminate.
    + rewrite Ri. intros r Hr. injection Hr as <-.
      rewrite Hs, Hend, Hoc2, Hm2. rewrite lenN_app, N.mul_add_distr_r, concat_app.
      split; [rewrite in_app_iff; simpl; auto|]. split; [exact A2|]. split; [exact A3|]. split; [lia|]. split; [lia|].
      rewrite peek_app. f_equal.
      * rewrite <- A6. apply peek_ext. intros k Lk. apply M2. lia.
      * rewrite <- B6. apply peek_ext. intros k Lk. apply M1. exact Lk.
  - intros r J D Oc. assert (r <> i) by (intros ->; apply D; left; auto).
    assert (r <> j) by (intros ->; apply D; right; auto).
    destruct (Oth r) as (E1 & E2); auto. rewrite E1, E2, Hoc2, Hm2. red_s.
    split; [rewrite in_app_iff in *; simpl in *; intuition congruence|]. split; [auto|]. split; [auto|]. split; [lia|].
    intros a La. apply M2.
    assert (Jm : In r (l1 ++ i :: j :: l2)) by exact J.
    destruct (tile_disjoint _ _ _ _ r i (i_tile _ _ I) Jm A1) as [T|T]; auto; [lia|].
    destruct (tile_disjoint _ _ _ _ r j (i_tile _ _ I) Jm B1) as [T'|T']; auto; [|lia].
    (* between the two there is nothing *)
    left. lia.
  - unfold with_len. cbn [v_region]. intros r Hr. apply fresh_self. left. rewrite <- Ri. exact Hr.
Qed.

(** ** Popping, clearing, reserving *)

Lemma last_item : forall sz xs y, sized sz (xs ++ [y]) -> lenN (concat xs) = lenN xs * sz /\ lenN y = sz /\ sized sz xs.
Proof.
  intros sz xs y H. apply Forall_app in H. destruct H as (H1 & H2). split; [apply lenN_concat; exact H1|].
  split; [exact (Forall_inv H2)|exact H1].
Qed.

Lemma pop_spec : forall s rl q v, inv s rl -> vok s rl q v ->
  match rev (q_items q) with
  | [] => vec_pop s v = Done (None, v)
  | y :: t => exists v', vec_pop s v = Done (Some y, v') /\ vok s rl (with_items q (rev t)) v' /\ v_region v' = v_region v
  end.
Proof.
  intros s rl q v I V. pose proof V as [V1 V2 V3 V4 V5 V6 V7 V8].
  destruct (rev (q_items q)) as [|y t] eqn:E.
  - assert (E' : q_items q = []) by (rewrite <- (rev_involutive (q_items q)), E; reflexivity).
    unfold vec_pop. rewrite V4, E'. reflexivity.
  - assert (E' : q_items q = rev t ++ [y]) by (rewrite <- (rev_involutive (q_items q)), E; reflexivity).
    rewrite E' in *. destruct (last_item _ _ _ V5) as (L1 & L2 & S1).
    assert (Ll : lenN (rev t ++ [y]) = lenN (rev t) + 1) by (rewrite lenN_app; reflexivity).
    unfold vec_pop. rewrite V4, Ll.
    replace (lenN (rev t) + 1 =? 0) with false by (symmetry; apply N.eqb_neq; lia).
    rewrite V1. replace (lenN (rev t) + 1 - 1) with (lenN (rev t)) by lia.
    assert (Rd : read_data s (as_ptr s v + lenN (rev t) * q_sz q) (q_sz q) = Done y).
    { unfold read_data. destruct (N.eq_dec (q_sz q) 0) as [Z|Z].
      - rewrite Z in *. unfold in_data. cbn [N.eqb orb]. rewrite peek_zero.
        destruct y as [|b y]; auto. exfalso. revert L2. clear. unfold lenN. cbn [length]. lia.
      - destruct (v_region v) as [i|] eqn:R.
        2:{ destruct (V7 Z eq_refl) as (_ & X). apply app_eq_nil in X. destruct X. discriminate. }
        destruct (V8 i eq_refl) as (A1 & A2 & A3 & A4 & A5 & A6).
        rewrite (as_ptr_some s v i) by (auto; congruence).
        rewrite Ll, N.mul_add_distr_r, N.mul_1_l in *.
        rewrite (in_data_region s rl i) by (auto; lia).
        f_equal. rewrite peek_app, concat_app in A6. cbn [concat] in A6. rewrite app_nil_r in A6.
        assert (Le : length (peek (a_mem s) (h_start (a_hdrs s i)) (lenN (rev t) * q_sz q)) = length (concat (rev t))).
        { pose proof (lenN_peek (a_mem s) (h_start (a_hdrs s i)) (lenN (rev t) * q_sz q)) as X. apply Nat2N.inj. etransitivity; [exact X|symmetry; exact L1]. }
        clear -A6 Le. revert A6 Le. generalize (peek (a_mem s) (h_start (a_hdrs s i)) (lenN (rev t) * q_sz q)) as u.
        generalize (concat (rev t)) as w. generalize (peek (a_mem s) (h_start (a_hdrs s i) + lenN (rev t) * q_sz q) (q_sz q)) as z.
        intros z w u. revert w. induction u as [|a u IH]; intros [|b w] A6 Le; simpl in *; try discriminate; auto.
        injection A6 as _ A6. injection Le as Le. eauto. }
    rewrite Rd. cbn [obind]. eexists. split; [reflexivity|]. split; [|reflexivity].
    unfold with_len, with_items. constructor; cbn [v_sz v_al v_len v_region v_cap q_sz q_al q_items]; auto.
    + intros Z R. destruct (V7 Z R) as (_ & X). apply app_eq_nil in X. destruct X. discriminate.
    + intros i Hi. destruct (V8 i Hi) as (A1 & A2 & A3 & A4 & A5 & A6).
      rewrite Ll, N.mul_add_distr_r, N.mul_1_l in *.
      split; [auto|]. split; [auto|]. split; [auto|]. split; [lia|]. split; [auto|].
      rewrite peek_app, concat_app in A6.
      assert (Le : length (peek (a_mem s) (h_start (a_hdrs s i)) (lenN (rev t) * q_sz q)) = length (concat (rev t))).
      { pose proof (lenN_peek (a_mem s) (h_start (a_hdrs s i)) (lenN (rev t) * q_sz q)) as X. apply Nat2N.inj. etransitivity; [exact X|symmetry; exact L1]. }
      clear -A6 Le. revert A6 Le. generalize (peek (a_mem s) (h_start (a_hdrs s i)) (lenN (rev t) * q_sz q)) as u.
      generalize (concat (rev t)) as w. generalize (concat [y]) as y'.
      generalize (peek (a_mem s) (h_start (a_hdrs s i) + lenN (rev t) * q_sz q) (q_sz q)) as z.
      intros z y' w u. revert w. induction u as [|a u IH]; intros [|b w] A6 Le; simpl in *; try discriminate; auto.
      injection A6 as -> A6. injection Le as Le. f_equal. eauto.
Qed.

Lemma clear_spec : forall s rl q v, vok s rl q v -> vok s rl (with_items q []) (vec_clear v).
Proof.
  intros s rl q v [V1 V2 V3 V4 V5 V6 V7 V8].
  unfold vec_clear, with_len, with_items. constructor; cbn [v_sz v_al v_len v_region v_cap q_sz q_al q_items]; auto.
  - constructor.
  - intros Z R. destruct (V7 Z R) as (X & _). auto.
  - intros i Hi. destruct (V8 i Hi) as (A1 & A2 & A3 & A4 & A5 & A6).
    change (lenN []) with 0. rewrite N.mul_0_l. repeat split; auto. lia.
Qed.

Lemma vec_reserve_spec : forall s rl q v n, inv s rl -> vok s rl q v -> lenN (q_items q) + n < usz ->
  wp (vec_reserve s v n) (fun x =>
    let '(ok, v', s') := x in
    a_haz s' <> [] \/
    exists rl', changed s s' rl rl' (of (v_region v)) q v'
      /\ (ok = true -> q_sz q <> 0 -> (lenN (q_items q) + n) * q_sz q <= room s' v')).
Proof.
  intros s rl q v n I V L. unfold vec_reserve. rewrite (vk_sz _ _ _ _ V).
  destruct (N.eqb_spec (q_sz q) 0) as [Z|Z].
  - cbn [wp]. right. exists rl. split; [apply changed_refl; auto|]. tauto.
  - apply resize_spec; auto. rewrite (vk_len _ _ _ _ V). exact L.
Qed.

Lemma items_spec : forall s rl q v, inv s rl -> vok s rl q v -> vec_items s v = Done (q_items q).
Proof.
  intros s rl q v I V. unfold vec_items. rewrite (bytes_spec s rl q v I V). cbn [obind].
  rewrite (vk_len _ _ _ _ V), (vk_sz _ _ _ _ V), chunks_concat; [reflexivity|apply V].
Qed.
