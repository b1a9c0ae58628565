(** Properties C31, C32 and C51: zero-copy buffers. *)
From Coq Require Import Lia.
From Verif Require Import Base BaseFacts Options Int IntFacts Utf8 IOFacts Zc ZcSpec ZcFacts ZcValid ZcSwap
  ZcBuf ZcBufSpec ZcBufFacts PropsZc.
Local Open Scope N_scope.

(** A 64-bit target with a bump allocator, 32-bit native references. *)
Definition ex_env : zenv :=
  {| ubits := 64; ealloc := fun n s a => Some ((n + 1) * a); egrow := fun c => c + c / 2 |}.
Definition o32 : osize := {| ow := 4; ousz := false |}.
Definition o64 : osize := {| ow := 8; ousz := true |}.

Lemma ex_alloc : alloc_good ex_env.
Proof. intros n s a x E. inversion E; subst. now exists (n + 1). Qed.

(** [u8], the struct of [PropsZc], a slice of two [u16], a string, then
    alignment. *)
Definition ex_ops : list oop :=
  [OpExtend [1]; OpStore Big o32 ex_zty (zeroed (mem_of Little ex_zty ex_zval));
   OpStoreSlice Big o32 (ZInt 2 2) 2 [1; 0; 2; 0]; OpStoreStr Big o32 [104; 105]; OpAlign].

Lemma ex_pattern : valid_pattern Little ex_zty (zeroed (mem_of Little ex_zty ex_zval)).
Proof. exists ex_zval. split; [apply ex_zok|apply holds_zeroed]. Qed.

Lemma ex_ops_ok : Forall (op_ok Little) ex_ops.
Proof.
  unfold ex_ops. constructor; [reflexivity|]. constructor.
  { split; [apply ex_zwf|]. split; [apply ex_pk|apply ex_pattern]. }
  constructor.
  { split; [zwf_tac|]. split; [constructor|]. exists (VArr [VI 1; VI 2]). split.
    - constructor; [reflexivity|]. repeat constructor.
    - repeat constructor. }
  constructor; [split; reflexivity|]. constructor; [exact I|constructor].
Qed.

(** ** C31: alignment and padding of stores *)

(** A sized value goes to the least multiple of its alignment at or after the
    end; the bytes skipped are zero, nothing else changes, and the reference
    returned points to the value. *)
Theorem C31_store E nb e o st t m st' r :
  0 < ubits E -> alloc_good E -> reach E nb st -> zwf t -> size_sane nb e o ->
  o_store E nb e o st t m = ZOk (st', r) ->
  exists pad m', store_mem nb t m = ZOk m' /\
    odata st' = odata st ++ zeros pad ++ m' /\
    least_padding (lenN (odata st)) (align_of t) pad /\
    r_offset nb e o r = lenN (odata st) + pad.
Proof.
  intros U G R W S H. apply reach_ok in R; auto. rewrite store_is in H.
  apply gstore_layout in H as (m' & M & D & MK); auto using align_pow2; [|apply R].
  exists (padding_to (lenN (odata st)) (align_of t)), m'. split; auto. split; auto. split.
  - split; [now apply padding_divide, align_pow2|]. intros k. now apply padding_least, align_pow2.
  - eapply ref_new_offset; eauto.
Qed.

(** The same for slices, whose reference also records the number of elements. *)
Theorem C31_store_slice E nb e o st t n m st' r :
  0 < ubits E -> alloc_good E -> reach E nb st -> zwf t -> size_sane nb e o ->
  o_store_slice E nb e o st t n m = ZOk (st', r) ->
  exists pad m', store_mem nb (ZArray t n) m = ZOk m' /\
    odata st' = odata st ++ zeros pad ++ m' /\
    least_padding (lenN (odata st)) (align_of t) pad /\
    r_offset nb e o r = lenN (odata st) + pad /\ r_len nb e o r = N.of_nat n.
Proof.
  intros U G R W S H. apply reach_ok in R; auto. rewrite store_slice_is in H.
  apply gstore_layout in H as (m' & M & D & MK); auto using align_pow2; [|apply R].
  exists (padding_to (lenN (odata st)) (align_of t)), m'. split; auto. split; auto. split.
  - split; [now apply padding_divide, align_pow2|]. intros k. now apply padding_least, align_pow2.
  - eapply ref_meta_spec; eauto.
Qed.

(** Strings are stored right at the end. *)
Theorem C31_store_str E nb e o st s st' r :
  0 < ubits E -> alloc_good E -> reach E nb st -> size_sane nb e o ->
  o_store_str E nb e o st s = ZOk (st', r) ->
  odata st' = odata st ++ s /\ r_offset nb e o r = lenN (odata st) /\ r_len nb e o r = lenN s.
Proof.
  intros U G R S H. apply reach_ok in R; auto. rewrite store_str_is in H.
  apply gstore_layout in H as (m' & M & D & MK); auto using align_1; [|apply R].
  inversion M; subst m'. apply ref_meta_spec in MK; auto.
  assert (Z : padding_to (lenN (odata st)) 1 = 0).
  { pose proof (padding_to_lt (lenN (odata st)) 1 align_1). lia. }
  cbv zeta in D. rewrite Z in D, MK. rewrite D. cbn [zeros N.to_nat repeat app]. rewrite N.add_0_r in MK. auto.
Qed.

(** A store fails only for lack of room or because its offset does not fit in
    the reference: [room] is the capacity of a slice, or what the allocator can
    be asked for. *)
Theorem C31_store_total E nb e o st t v m :
  0 < ubits E -> alloc_good E -> (forall n s a, ealloc E n s a <> None) -> reach E nb st ->
  zwf t -> pk_ok t -> zok t v -> holds (mem_of nb t v) m ->
  room E st (align_of t) (size_of t) -> lenN (odata st) + align_of t <= omax o ->
  exists st' r, o_store E nb e o st t m = ZOk (st', r).
Proof.
  intros U G AL R W P O H RM F. apply reach_ok in R; auto. rewrite store_is.
  rewrite (store_mem_spec nb t v m) by auto.
  pose proof (padding_to_lt (lenN (odata st)) (align_of t) (align_pow2 _ W)) as PL.
  destruct (ref_new_fits nb e o (lenN (odata st) + padding_to (lenN (odata st)) (align_of t))) as (r & MK); [lia|].
  destruct (gstore_total E st (align_of t) (size_of t) (zeroed (mem_of nb t v)) (ref_new nb e o) r)
    as (st' & X); auto using align_pow2; [apply R|now rewrite zeroed_len, mem_of_len|]. eauto.
Qed.

(** [usize] references in the other byte order do not record the offset. *)
Theorem C31_usize_order_refuted :
  exists E nb e o st t m st' r,
    0 < ubits E /\ alloc_good E /\ reach E nb st /\ zwf t /\
    o_store E nb e o st t m = ZOk (st', r) /\ m <> [] /\
    odata st' = odata st ++ m /\ r_offset nb e o r <> lenN (odata st).
Proof.
  pose (st := {| odata := [1]; ocap := 8; oreq := 8; oal := 8; obase := 8; ofixed := false;
                 olive := Some (8, 8); ocnt := 1 |}).
  exists ex_env, Little, Big, o64, st, (ZInt 1 1), [7],
    {| odata := [1; 7]; ocap := 8; oreq := 8; oal := 8; obase := 8; ofixed := false;
       olive := Some (8, 8); ocnt := 1 |}, {| roff := 2 ^ 56; rmeta := 0 |}.
  split; [reflexivity|]. split; [apply ex_alloc|]. split.
  { exists {| odata := []; ocap := 0; oreq := 8; oal := 8; obase := 8; ofixed := false; olive := None; ocnt := 0 |}, [OpExtend [1]].
    split; [apply (fresh_owned _ 0 8); [apply p2_8|reflexivity]|]. split; [repeat constructor|reflexivity]. }
  split; [zwf_tac|]. split; [reflexivity|]. split; [discriminate|]. split; [reflexivity|]. discriminate.
Qed.

(** A slice with room for the value may still refuse it: it wants to be as long
    as the largest alignment requested. *)
Theorem C31_slice_room_refuted :
  exists E nb e o st t m,
    fresh E st /\ zwf t /\ valid_pattern nb t m /\ ofixed st = true /\
    lenN (odata st) + padding_to (lenN (odata st)) (align_of t) + size_of t <= ocap st /\
    o_store E nb e o st t m = ZPanic.
Proof.
  exists ex_env, Little, Little, o32, (s_with 0 4 8), (ZInt 1 1), [7].
  split; [apply fresh_slice; [apply p2_8|reflexivity]|]. split; [zwf_tac|].
  split; [exists (VI 7); split; [constructor; reflexivity|repeat constructor]|].
  split; [reflexivity|]. split; [vm_compute; discriminate|]. reflexivity.
Qed.

Example C31_nonvacuous :
  exists st, reach ex_env Little st /\ lenN (odata st) = 1 /\
  room ex_env st (align_of ex_zty) (size_of ex_zty) /\
  exists st' r, o_store ex_env Little Big o32 st ex_zty (zeroed (mem_of Little ex_zty ex_zval)) = ZOk (st', r) /\
    r_offset Little Big o32 r = 4.
Proof.
  exists {| odata := [1]; ocap := 8; oreq := 8; oal := 8; obase := 8; ofixed := false;
            olive := Some (8, 8); ocnt := 1 |}.
  split.
  { exists {| odata := []; ocap := 0; oreq := 8; oal := 8; obase := 8; ofixed := false; olive := None; ocnt := 0 |}, [OpExtend [1]].
    split; [apply (fresh_owned _ 0 8); [apply p2_8|reflexivity]|]. split; [repeat constructor|reflexivity]. }
  split; [reflexivity|]. split; [reflexivity|]. eexists. eexists. split; reflexivity.
Qed.

Print Assumptions C31_store.
Print Assumptions C31_store_slice.
Print Assumptions C31_store_str.
Print Assumptions C31_store_total.
Print Assumptions C31_usize_order_refuted.
Print Assumptions C31_slice_room_refuted.

(** ** C32: loads *)

(** A buffer holding the bytes of [st], at an address with the alignment [st]
    asks for: the buffer itself after [align_in_place], or any copy of it. *)
Definition aligned_view (st : obuf) (b : zbuf) : Prop :=
  bdata b = odata st /\ (oreq st | baddr b).

Theorem C32_align_in_place E nb st st' :
  0 < ubits E -> alloc_good E -> reach E nb st -> o_align_in_place E st = ZOk st' ->
  odata st' = odata st /\ aligned_view st' (o_buf st').
Proof.
  intros U G R H. apply reach_ok in R; auto.
  destruct (align_spec E st U G (ok_inv _ _ R)) as [_ K].
  destruct (K st' H) as (I & D & Q & B & _). split; auto. split; auto. cbn. now rewrite Q.
Qed.

(** A value stored in a buffer and not overwritten is what its reference loads,
    whatever is stored afterwards. *)
Theorem C32_store_load_partial E nb e o st t v m st1 r ops st2 b :
  0 < ubits E -> alloc_good E -> reach E nb st ->
  zwf t -> pk_ok t -> vpk_ok t -> zok t v -> holds (mem_of nb t v) m -> size_sane nb e o ->
  o_store E nb e o st t m = ZOk (st1, r) ->
  Forall (op_ok nb) ops -> Forall (untouched (r_offset nb e o r) (size_of t)) ops ->
  orun E nb st1 ops = ZOk st2 -> aligned_view st2 b ->
  load_sized (ubits E) nb b t (r_offset nb e o r) = ZOk (zeroed (mem_of nb t v)).
Proof.
  intros U G R W P V O H S HS FO FU RUN [BD BA]. apply reach_ok in R; auto.
  rewrite store_is, (store_mem_spec nb t v m) in HS by auto.
  set (z := zeroed (mem_of nb t v)) in *.
  assert (ZL : lenN z = size_of t) by (unfold z; now rewrite zeroed_len, mem_of_len).
  assert (ZB : bytes_ok z = true) by apply mem_ok.
  destruct (gstore_spec E st (align_of t) (size_of t) z (ref_new nb e o) U G (ok_inv _ _ R) (align_pow2 _ W) ZL (ref_new_ub nb e o)) as [_ K].
  destruct (K st1 r HS) as (I1 & D1 & Q1 & MK & _ & _).
  assert (OK1 : okst E st1).
  { constructor; auto. rewrite D1, !bytes_ok_app, bytes_ok_zeros, ZB, (ok_bytes _ _ R). auto. }
  apply ref_new_offset in MK; auto. rewrite MK in *. clear MK.
  set (pad := padding_to (lenN (odata st)) (align_of t)) in *.
  set (off := lenN (odata st) + pad) in *.
  assert (L1 : off + size_of t = lenN (odata st1)).
  { rewrite D1, !lenN_app, zeros_len. unfold off. lia. }
  assert (S1 : slice_at (odata st1) off (size_of t) = z).
  { rewrite D1, app_assoc, <- (app_nil_r z), <- ZL. unfold off.
    replace (lenN (odata st) + pad) with (lenN (odata st ++ zeros pad)) by (rewrite lenN_app, zeros_len; auto).
    rewrite app_nil_r. rewrite <- (app_nil_r z) at 1. apply slice_at_mid. }
  destruct (run_spec E nb ops U G FO st1 OK1) as [_ K2]. destruct (K2 st2 RUN) as [[[I2 B2] Q2 _ _] KP].
  destruct (KP off (size_of t) FU) as [L2 E2]; [lia|].
  assert (AL : (align_of t | baddr b + off)).
  { apply N.divide_add_r.
    - eapply N.divide_trans; [|exact BA]. apply pow2_divide; [now apply align_pow2|apply I2|lia].
    - apply padding_divide. now apply align_pow2. }
  pose proof (i_len _ _ I2). pose proof (i_cap _ _ I2).
  assert (BB : bytes_ok (bdata b) = true) by now rewrite BD.
  destruct (load_sized_cases (ubits E) nb b t off W P V BB) as [[X _]|[X N]]; [lia| |].
  - rewrite X, BD, E2, S1. auto.
  - exfalso. apply N. rewrite BD, E2, S1. split; [split; auto; rewrite BD; auto|].
    exists v. split; auto. apply holds_zeroed.
Qed.

Theorem C32_store_slice_load_partial E nb e o st t n vs m st1 r ops st2 b :
  0 < ubits E -> alloc_good E -> reach E nb st ->
  zwf t -> pk_ok t -> vpk_ok t -> length vs = n -> Forall (zok t) vs ->
  holds (concat (map (mem_of nb t) vs)) m -> size_sane nb e o ->
  o_store_slice E nb e o st t n m = ZOk (st1, r) ->
  Forall (op_ok nb) ops -> Forall (untouched (r_offset nb e o r) (N.of_nat n * size_of t)) ops ->
  orun E nb st1 ops = ZOk st2 -> aligned_view st2 b ->
  load_slice (ubits E) nb b t (r_offset nb e o r) (r_len nb e o r) =
    ZOk (concat (map (fun v => zeroed (mem_of nb t v)) vs)).
Proof.
  intros U G R W P V LV FV H S HS FO FU RUN [BD BA]. apply reach_ok in R; auto.
  assert (O : zok (ZArray t n) (VArr vs)) by now constructor.
  assert (WA : zwf (ZArray t n)) by now constructor.
  rewrite store_slice_is, (store_mem_spec nb (ZArray t n) (VArr vs) m) in HS; auto; [|now constructor].
  replace (concat (map (fun v => zeroed (mem_of nb t v)) vs)) with (zeroed (mem_of nb (ZArray t n) (VArr vs))).
  2: { cbn [mem_of]. unfold zeroed. rewrite concat_map, map_map. auto. }
  set (z := zeroed (mem_of nb (ZArray t n) (VArr vs))) in *.
  assert (ZL : lenN z = N.of_nat n * size_of t) by (unfold z; now rewrite zeroed_len, mem_of_len).
  assert (ZB : bytes_ok z = true) by apply mem_ok.
  set (mk := fun off => ref_with_metadata nb e o off (N.of_nat n)) in *.
  destruct (gstore_spec E st (align_of t) (N.of_nat n * size_of t) z mk U G (ok_inv _ _ R) (align_pow2 _ W) ZL ltac:(intros; apply ref_meta_ub)) as [_ K].
  destruct (K st1 r HS) as (I1 & D1 & Q1 & MK & _ & _).
  assert (OK1 : okst E st1).
  { constructor; auto. rewrite D1, !bytes_ok_app, bytes_ok_zeros, ZB, (ok_bytes _ _ R). auto. }
  apply ref_meta_spec in MK as [MK ML]; auto. rewrite MK, ML in *. clear MK ML.
  set (pad := padding_to (lenN (odata st)) (align_of t)) in *.
  set (off := lenN (odata st) + pad) in *.
  assert (L1 : off + lenN z = lenN (odata st1)).
  { rewrite D1, !lenN_app, zeros_len. unfold off. lia. }
  assert (S1 : slice_at (odata st1) off (lenN z) = z).
  { rewrite D1, app_assoc. unfold off.
    replace (lenN (odata st) + pad) with (lenN (odata st ++ zeros pad)) by (rewrite lenN_app, zeros_len; auto).
    rewrite <- (app_nil_r z) at 1. apply slice_at_mid. }
  rewrite ZL in S1, L1.
  destruct (run_spec E nb ops U G FO st1 OK1) as [_ K2]. destruct (K2 st2 RUN) as [[[I2 B2] Q2 _ _] KP].
  destruct (KP off (N.of_nat n * size_of t) FU) as [L2 E2]; [lia|].
  assert (AL : (align_of t | baddr b + off)).
  { apply N.divide_add_r.
    - eapply N.divide_trans; [|exact BA]. apply pow2_divide; [now apply align_pow2|apply I2|lia].
    - apply padding_divide. now apply align_pow2. }
  pose proof (i_len _ _ I2). pose proof (i_cap _ _ I2).
  assert (BB : bytes_ok (bdata b) = true) by now rewrite BD.
  destruct (load_slice_cases (ubits E) nb b t off n W P V BB) as [[X _]|[X N]]; [rewrite BD; lia| |].
  - rewrite X, BD, E2, S1. auto.
  - exfalso. apply N. rewrite BD, E2, S1. split; [lia|]. split; [auto|]. split; auto.
    exists (VArr vs). split; auto. apply holds_zeroed.
Qed.

Theorem C32_store_str_load E nb e o st s st1 r ops st2 b :
  0 < ubits E -> alloc_good E -> reach E nb st ->
  bytes_ok s = true -> utf8_valid s = true -> size_sane nb e o ->
  o_store_str E nb e o st s = ZOk (st1, r) ->
  Forall (op_ok nb) ops -> Forall (untouched (r_offset nb e o r) (lenN s)) ops ->
  orun E nb st1 ops = ZOk st2 -> bdata b = odata st2 ->
  load_str b (r_offset nb e o r) (r_len nb e o r) = ZOk s.
Proof.
  intros U G R SB SU S HS FO FU RUN BD. pose proof (reach_ok _ _ _ U G R) as RO.
  destruct (C31_store_str E nb e o st s st1 r U G R S HS) as (D1 & MK & ML). rewrite MK, ML in *.
  rewrite store_str_is in HS.
  destruct (gstore_later E st 1 (lenN s) s (fun off => ref_with_metadata nb e o off (lenN s))
              U G RO align_1 eq_refl SB ltac:(intros; apply ref_meta_ub)) as [_ K].
  destruct (K st1 r HS) as [[OK1 _ _ _] _].
  destruct (run_spec E nb ops U G FO st1 OK1) as [_ K2]. destruct (K2 st2 RUN) as [_ KP].
  destruct (KP (lenN (odata st)) (lenN s) FU) as [L2 E2]; [rewrite D1, lenN_app; lia|].
  assert (S1 : slice_at (odata st1) (lenN (odata st)) (lenN s) = s).
  { rewrite D1. rewrite <- (app_nil_r s) at 1. apply slice_at_mid. }
  destruct (load_str_cases b (lenN (odata st)) (lenN s)) as [[X _]|[X N]]; rewrite BD in *.
  - now rewrite X, E2, S1.
  - exfalso. apply N. rewrite E2, S1. auto.
Qed.

(** Any reference whatever: loading succeeds exactly when the reference is in
    bounds, aligned and the bytes there are a value of the type, and then gives
    those bytes; otherwise it is an error. *)
Theorem C32_load_exact_partial ub nb b t off :
  zwf t -> pk_ok t -> vpk_ok t -> bytes_ok (bdata b) = true -> off + size_of t < 2 ^ ub ->
  let s := slice_at (bdata b) off (size_of t) in
  let good := off + size_of t <= lenN (bdata b) /\ (align_of t | baddr b + off) /\ valid_pattern nb t s in
  (load_sized ub nb b t off = ZOk s /\ good) \/ (load_sized ub nb b t off = ZErr /\ ~ good).
Proof.
  intros W P V B O s good.
  destruct (load_sized_cases ub nb b t off W P V B O) as [(X & [L A] & VP)|(X & N)]; [left|right]; split; auto.
  - split; auto.
  - intros (L & A & VP). apply N. split; auto. split; auto.
Qed.

Theorem C32_load_slice_exact_partial ub nb b t off n :
  zwf t -> pk_ok t -> vpk_ok t -> bytes_ok (bdata b) = true -> lenN (bdata b) < 2 ^ ub ->
  let s := slice_at (bdata b) off (N.of_nat n * size_of t) in
  let good := off <= lenN (bdata b) /\ off + N.of_nat n * size_of t <= lenN (bdata b) /\
              (align_of t | baddr b + off) /\ valid_pattern nb (ZArray t n) s in
  (load_slice ub nb b t off (N.of_nat n) = ZOk s /\ good) \/
  (load_slice ub nb b t off (N.of_nat n) = ZErr /\ ~ good).
Proof. apply load_slice_cases. Qed.

Theorem C32_load_str_exact b off len :
  let s := slice_at (bdata b) off len in
  let good := off + len <= lenN (bdata b) /\ utf8_valid s = true in
  (load_str b off len = ZOk s /\ good) \/ (load_str b off len = ZErr /\ ~ good).
Proof. apply load_str_cases. Qed.

(** [Buf::swap]: with two places that do not overlap, their bytes are exchanged
    and all other bytes stay; a place out of bounds is an error. *)
Theorem C32_swap ub sz d a b :
  lenN d < 2 ^ ub -> N.max a b + sz < 2 ^ ub ->
  a = b \/ a + sz <= b \/ b + sz <= a ->
  (N.max a b + sz <= lenN d -> exists d', b_swap ub sz d a b = ZOk d' /\ lenN d' = lenN d /\
     slice_at d' a sz = slice_at d b sz /\ slice_at d' b sz = slice_at d a sz /\
     forall off n, (off + n <= a \/ a + sz <= off) -> (off + n <= b \/ b + sz <= off) ->
       slice_at d' off n = slice_at d off n) /\
  (lenN d < N.max a b + sz -> a <> b -> b_swap ub sz d a b = ZErr).
Proof.
  intros U O S. unfold b_swap. destruct (N.eqb_spec a b) as [->|NE].
  { split; [|congruence]. intros _. exists d. auto. }
  rewrite uadd_fits by auto. cbn [zbind]. split.
  - intros L. destruct (N.ltb_spec (lenN d) (N.max a b + sz)); [lia|].
    assert (LA : lenN (slice_at d a sz) = sz) by (apply slice_at_len; lia).
    assert (LB : lenN (slice_at d b sz) = sz) by (apply slice_at_len; lia).
    assert (L1 : lenN (patch d a (slice_at d b sz)) = lenN d) by (apply patch_len; lia).
    eexists. split; [reflexivity|]. split; [rewrite patch_len; lia|]. split; [|split].
    + rewrite slice_patch_other by lia. apply slice_patch_eq; lia.
    + apply slice_patch_eq; lia.
    + intros off n A B. rewrite slice_patch_other by lia. apply slice_patch_other; lia.
  - intros L _. destruct (N.ltb_spec (lenN d) (N.max a b + sz)); [auto|lia].
Qed.

(** A reference close to the end of the address space is not rejected: the sum
    of its offset and size overflows. *)
Theorem C32_overflow_refuted :
  exists ub nb b t r, zwf t /\ bytes_ok (bdata b) = true /\
    load_sized ub nb b t (r_offset nb nb o64 r) = ZPanic.
Proof.
  exists 64, Little, {| baddr := 0; bdata := [] |}, (ZInt 4 4), {| roff := 2 ^ 64 - 1; rmeta := 0 |}.
  split; [zwf_tac|]. split; reflexivity.
Qed.

Example C32_nonvacuous :
  exists st0 st1 r st2, fresh ex_env st0 /\
    o_store ex_env Little Big o32 st0 ex_zty (zeroed (mem_of Little ex_zty ex_zval)) = ZOk (st1, r) /\
    Forall (op_ok Little) ex_ops /\
    Forall (untouched (r_offset Little Big o32 r) (size_of ex_zty)) ex_ops /\
    orun ex_env Little st1 ex_ops = ZOk st2 /\ aligned_view st2 (o_buf st2) /\
    (exists v, load_sized 64 Little (o_buf st2) ex_zty (r_offset Little Big o32 r) = ZOk v) /\
    load_sized 64 Little (o_buf st2) ex_zty 2 = ZErr /\ load_sized 64 Little (o_buf st2) ex_zty 64 = ZErr /\
    load_slice 64 Little (o_buf st2) (ZInt 2 2) 60 3 = ZErr.
Proof.
  pose (st0 := {| odata := []; ocap := 0; oreq := 8; oal := 8; obase := 8; ofixed := false; olive := None; ocnt := 0 |}).
  pose (x := match o_store ex_env Little Big o32 st0 ex_zty (zeroed (mem_of Little ex_zty ex_zval)) with ZOk x => x | _ => (st0, {| roff := 0; rmeta := 0 |}) end).
  pose (st2 := match orun ex_env Little (fst x) ex_ops with ZOk x => x | _ => st0 end).
  exists st0, (fst x), (snd x), st2.
  split; [apply (fresh_owned _ 0 8); [apply p2_8|reflexivity]|]. split; [vm_compute; reflexivity|].
  split; [apply ex_ops_ok|]. split; [repeat constructor|]. split; [vm_compute; reflexivity|].
  split; [split; [reflexivity|exists (obase st2 / 8); vm_compute; reflexivity]|].
  split; [eexists; vm_compute; reflexivity|]. vm_compute; auto.
Qed.

Print Assumptions C32_align_in_place.
Print Assumptions C32_store_load_partial.
Print Assumptions C32_store_slice_load_partial.
Print Assumptions C32_store_str_load.
Print Assumptions C32_load_exact_partial.
Print Assumptions C32_load_slice_exact_partial.
Print Assumptions C32_load_str_exact.
Print Assumptions C32_swap.
Print Assumptions C32_overflow_refuted.

(** ** C51: the allocator's contract *)

(** No history of safe operations allocates zero bytes, frees what is not
    allocated or with another layout, or writes outside the allocation. *)
Theorem C51_no_ub_partial E nb st0 ops :
  0 < ubits E -> alloc_good E -> fresh E st0 -> Forall (op_ok nb) ops -> orun E nb st0 ops <> ZUb.
Proof.
  intros U G F W. apply fresh_ok in F; auto. now destruct (run_spec E nb ops U G W st0 F) as [X _].
Qed.

(** After any history the live allocation is exactly the one the buffer
    describes, the contents are inside it and the address has the alignment it
    was allocated with. *)
Theorem C51_allocation_tracked E nb st :
  0 < ubits E -> alloc_good E -> reach E nb st ->
  lenN (odata st) <= ocap st /\ (oal st | obase st) /\
  olive st = if ofixed st || (ocap st =? 0) then None else Some (ocap st, oal st).
Proof.
  intros U G R. apply reach_ok in R; auto. destruct R as [I _].
  split; [apply I|]. split; [apply I|]. destruct (ofixed st) eqn:F; cbn [orb]; now apply I.
Qed.

(** Dropping the buffer frees it. *)
Theorem C51_drop E nb st :
  0 < ubits E -> alloc_good E -> reach E nb st -> o_drop st = ZOk None.
Proof.
  intros U G R. apply reach_ok in R; auto. destruct R as [I _]. unfold o_drop.
  destruct (ofixed st) eqn:F; auto. pose proof (i_live _ _ I F) as L.
  destruct (ocap st =? 0); [now rewrite L|]. unfold a_dealloc. now rewrite L, !N.eqb_refl.
Qed.

(** A clone of a buffer that is not empty has its contents and keeps the
    contract through any further history. *)
Theorem C51_clone_partial E nb st st' ops :
  0 < ubits E -> alloc_good E -> reach E nb st -> odata st <> [] -> o_clone E st = ZOk st' ->
  Forall (op_ok nb) ops ->
  odata st' = odata st /\ oreq st' = oreq st /\ orun E nb st' ops <> ZUb /\
  forall st2, orun E nb st' ops = ZOk st2 -> o_drop st2 = ZOk None.
Proof.
  intros U G R NE H FO. apply reach_ok in R; auto. destruct R as [I B].
  unfold o_clone in H. apply zbind_ok in H as (n & W & H). inversion H; subst st'; clear H.
  cbn [odata set_data set_req oreq]. split; auto. split; auto.
  assert (LN : 0 < lenN (odata st)) by (destruct (odata st); [congruence|rewrite lenN_cons; lia]).
  assert (OK : okst E (set_data (set_req n (oreq st)) (odata st))).
  { unfold o_with in W. destruct (N.eqb_spec (lenN (odata st)) 0); [lia|].
    destruct (layout_ok E (lenN (odata st)) (oal st)) eqn:L; [|discriminate].
    unfold a_alloc in W. destruct (N.eqb_spec (lenN (odata st)) 0); [lia|]. cbn [ocnt] in W.
    destruct (ealloc E 0 (lenN (odata st)) (oal st)) eqn:A; cbn [zbind] in W; [|discriminate].
    inversion W; subst n; clear W. apply layout_lt in L; auto. apply G in A.
    constructor; cbn; auto. constructor; cbn; auto; try lia; try apply I; try discriminate.
    intros _. destruct (N.eqb_spec (lenN (odata st)) 0); [lia|auto]. }
  destruct (run_spec E nb ops U G FO _ OK) as [X K]. split; auto.
  intros st2 RUN. destruct (K st2 RUN) as [[[I2 _] _ _ _] _]. unfold o_drop.
  destruct (ofixed st2) eqn:F; auto. pose proof (i_live _ _ I2 F) as L.
  destruct (ocap st2 =? 0); [now rewrite L|]. unfold a_dealloc. now rewrite L, !N.eqb_refl.
Qed.

(** A clone of an empty buffer whose requested alignment was raised:
    [with_capacity_and_alignment::<u8>(16)], [request_align::<u64>()], [clone()],
    [align_in_place()] asks the allocator for zero bytes. *)
Theorem C51_clone_refuted :
  exists E nb st st', 0 < ubits E /\ alloc_good E /\ reach E nb st /\
    o_clone E st = ZOk st' /\ orun E nb st' [OpAlign] = ZUb.
Proof.
  exists ex_env, Little,
    {| odata := []; ocap := 16; oreq := 8; oal := 1; obase := 1; ofixed := false; olive := Some (16, 1); ocnt := 1 |},
    {| odata := []; ocap := 0; oreq := 8; oal := 1; obase := 1; ofixed := false; olive := None; ocnt := 0 |}.
  split; [reflexivity|]. split; [apply ex_alloc|]. split.
  { exists {| odata := []; ocap := 16; oreq := 1; oal := 1; obase := 1; ofixed := false; olive := Some (16, 1); ocnt := 1 |},
      [OpRequestAlign (ZInt 8 8)].
    split; [apply (fresh_owned _ 16 1); [apply p2_1|reflexivity]|].
    split; [repeat first [constructor|zwf_tac]|reflexivity]. }
  split; reflexivity.
Qed.

Example C51_nonvacuous :
  exists st0 st, fresh ex_env st0 /\ Forall (op_ok Little) (ex_ops ++ ex_ops) /\
    orun ex_env Little st0 (ex_ops ++ ex_ops) = ZOk st /\ 2 <= ocnt st /\ odata st <> [] /\
    exists st', o_clone ex_env st = ZOk st'.
Proof.
  pose (st0 := {| odata := []; ocap := 0; oreq := 1; oal := 1; obase := 1; ofixed := false; olive := None; ocnt := 0 |}).
  pose (st2 := match orun ex_env Little st0 (ex_ops ++ ex_ops) with ZOk x => x | _ => st0 end).
  exists st0, st2.
  split; [apply (fresh_owned _ 0 1); [apply p2_1|reflexivity]|].
  split; [apply Forall_app; split; apply ex_ops_ok|]. split; [vm_compute; reflexivity|].
  split; [vm_compute; discriminate|]. split; [vm_compute; discriminate|].
  eexists. vm_compute; reflexivity.
Qed.

Print Assumptions C51_no_ub_partial.
Print Assumptions C51_allocation_tracked.
Print Assumptions C51_drop.
Print Assumptions C51_clone_partial.
Print Assumptions C51_clone_refuted.
