(** Properties C36 and C39: searching and slice reference arithmetic. *)
From Coq Require Import Lia.
From Verif Require Import Base BaseFacts Options Int IntFacts IOFacts Utf8 Zc ZcSpec ZcFacts ZcValid ZcSwap
  ZcBuf ZcBufSpec ZcBufFacts ZcRefSpec ZcRefFacts PropsZc PropsZcBuf.
Local Open Scope N_scope.

(** ** C39: slice references *)

(** [r] below is a reference to the slice of [n] elements of size [sz] at
    [off]. *)
Theorem C39_get_partial ub nb e o sz off n r i :
  size_sane nb e o -> ref_with_metadata nb e o off n = ZOk r -> off + sz * n < 2 ^ ub ->
  off + sz * i <= omax o \/ n <= i ->
  (i < n /\ exists x, r_get ub nb e o sz r i = ZOk (Some x) /\ r_offset nb e o x = off + sz * i) \/
  (n <= i /\ r_get ub nb e o sz r i = ZOk None).
Proof.
  intros S R B F. destruct (ref_meta_spec nb e o off n r S R) as [RO RL]. unfold r_get. rewrite RL.
  destruct (N.leb_spec n i) as [L|L]; [right; auto|left; split; auto].
  destruct F as [F|F]; [|lia].
  assert (M : sz * i <= sz * n) by (apply N.mul_le_mono_l; lia).
  unfold r_get_unchecked. rewrite umul_fits by lia. cbn [zbind]. rewrite RO, uadd_fits by lia. cbn [zbind].
  destruct (ref_new_fits nb e o (off + sz * i) F) as (x & X). rewrite X. cbn [zbind].
  eexists. split; [reflexivity|]. eapply ref_new_offset; eauto.
Qed.

Theorem C39_split_at_partial ub nb e o sz off n r at_ :
  size_sane nb e o -> ref_with_metadata nb e o off n = ZOk r -> off + sz * n < 2 ^ ub ->
  at_ <= n -> off + sz * at_ <= omax o ->
  exists a b, r_split_at ub nb e o sz r at_ = ZOk (a, b) /\
    r_offset nb e o a = off /\ r_len nb e o a = at_ /\
    r_offset nb e o b = off + sz * at_ /\ r_len nb e o b = n - at_.
Proof.
  intros S R B L F. destruct (ref_meta_spec nb e o off n r S R) as [RO RL].
  apply ref_meta_ok in R as (OO & NO & _).
  assert (M : sz * at_ <= sz * n) by (apply N.mul_le_mono_l; lia).
  unfold r_split_at. rewrite RL, RO. destruct (N.ltb_spec n at_); [lia|].
  destruct (ref_meta_fits nb e o off at_) as (a & A); [lia|lia|]. rewrite A. cbn [zbind].
  rewrite umul_fits by lia. cbn [zbind]. rewrite (N.mul_comm at_ sz). rewrite uadd_fits by lia. cbn [zbind].
  destruct (ref_meta_fits nb e o (off + sz * at_) (n - at_)) as (b & X); [lia|lia|]. rewrite X. cbn [zbind].
  exists a, b. split; auto.
  destruct (ref_meta_spec nb e o _ _ a S A) as [-> ->].
  destruct (ref_meta_spec nb e o _ _ b S X) as [-> ->]. auto.
Qed.

Theorem C39_split_at_out_of_bounds ub nb e o sz off n r at_ :
  size_sane nb e o -> ref_with_metadata nb e o off n = ZOk r -> n < at_ ->
  r_split_at ub nb e o sz r at_ = ZPanic.
Proof.
  intros S R L. destruct (ref_meta_spec nb e o off n r S R) as [RO RL].
  unfold r_split_at. rewrite RL. destruct (N.ltb_spec n at_); [auto|lia].
Qed.

(** An iterator yields each element once, whatever the order in which its two
    ends are used. *)
Theorem C39_iter_partial ub nb e o sz off n r script :
  size_sane nb e o -> ref_with_metadata nb e o off (N.of_nat n) = ZOk r -> 0 < sz ->
  off + sz * N.of_nat n < 2 ^ ub -> (n = 0%nat \/ off + sz * N.of_nat (n - 1) <= omax o) ->
  exists it, r_iter ub nb e o sz r = ZOk it /\
    iter_run ub nb e o sz script it = ZOk (deque script (elems off sz n)).
Proof.
  intros S R P B F. destruct (ref_meta_spec nb e o off _ r S R) as [RO RL].
  unfold r_iter. rewrite RL, RO, umul_fits by lia. cbn [zbind]. rewrite (N.mul_comm _ sz), uadd_fits by lia.
  cbn [zbind]. eexists. split; [reflexivity|]. now apply iter_run_spec.
Qed.

(** Coercions to smaller elements, in the native byte order. *)
Theorem C39_try_coerce_partial nb o k off n r :
  ref_with_metadata nb nb o off n = ZOk r ->
  match r_try_coerce o k r with
  | Some x => n * k <= omax o /\ r_offset nb nb o x = off /\ r_len nb nb o x = n * k
  | None => omax o < n * k
  end.
Proof.
  intros R. assert (S : size_sane nb nb o) by (intros _; auto).
  apply ref_meta_ok in R as (OO & NO & ->). unfold r_try_coerce. cbn [rmeta roff].
  assert (P : 0 < 256 ^ N.of_nat (ow o)) by (apply N.neq_0_lt_0, N.pow_nonzero; discriminate).
  assert (NA : forall x, osw nb nb o x = x) by (intros x; unfold osw, swap_int; now rewrite bo_eqb_refl).
  rewrite NA. destruct (N.ltb_spec (n * k) (256 ^ N.of_nat (ow o))) as [L|L]; unfold omax in *; [|lia].
  split; [lia|]. unfold r_offset, r_len, as_usize. cbn [roff rmeta]. rewrite !NA. destruct (ousz o); auto.
Qed.

Theorem C39_array_into_slice_partial nb o off n r :
  ref_new nb nb o off = ZOk r -> n <= omax o ->
  exists x, r_array_into_slice nb nb o n r = ZOk x /\ r_offset nb nb o x = off /\ r_len nb nb o x = n.
Proof.
  intros R NO. assert (S : size_sane nb nb o) by (intros _; auto).
  apply ref_new_ok in R as (OO & ->). unfold r_array_into_slice. cbn [roff].
  assert (NA : forall x, osw nb nb o x = x) by (intros x; unfold osw, swap_int; now rewrite bo_eqb_refl).
  rewrite NA. destruct (ref_meta_fits nb nb o off n OO NO) as (x & X). rewrite X.
  exists x. split; auto. now apply ref_meta_spec.
Qed.

(** Changing the byte order of a reference keeps what it refers to. *)
Theorem C39_to_endian nb e u o off n r :
  size_sane nb e o -> size_sane nb u o -> ref_with_metadata nb e o off n = ZOk r ->
  r_offset nb u o (r_to_endian nb e u o r) = off /\ r_len nb u o (r_to_endian nb e u o r) = n.
Proof.
  intros S SU R. apply ref_meta_ok in R as (OO & NO & ->). unfold r_to_endian, r_offset, r_len. cbn [roff rmeta].
  now rewrite !osw_twice, !as_usize_osw by auto.
Qed.

(** Packed slices: indexing and splitting, in the native byte order (their
    elements are referred to by [usize]). *)
Theorem C39_packed_get_partial ub nb o l usz sz off n r i :
  ousz usz = true -> omax usz = 2 ^ ub - 1 -> packed_new nb nb o l off n = ZOk r -> off + sz * n < 2 ^ ub ->
  (i < n /\ exists x, p_get ub nb nb o l usz sz r i = ZOk (Some x) /\ r_offset nb nb usz x = off + sz * i) \/
  (n <= i /\ p_get ub nb nb o l usz sz r i = ZOk None).
Proof.
  intros US UM R B.
  assert (S : forall o, size_sane nb nb o) by (intros ? _; auto).
  unfold packed_new in R. destruct (otry o off) eqn:T; [|discriminate]. apply otry_some in T as [-> L].
  destruct (otry l n) eqn:T; [|discriminate]. apply otry_some in T as [-> L'].
  inversion R; subst r; clear R. unfold p_get, p_len. cbn [rmeta]. rewrite as_usize_osw by auto.
  destruct (N.leb_spec n i) as [Q|Q]; [right; auto|left; split; auto].
  assert (M : sz * i <= sz * n) by (apply N.mul_le_mono_l; lia).
  unfold p_get_unchecked, p_offset. cbn [roff]. rewrite umul_fits by lia. cbn [zbind].
  rewrite as_usize_osw by auto. rewrite uadd_fits by lia. cbn [zbind].
  destruct (ref_new_fits nb nb usz (off + sz * i)) as (x & X); [lia|]. rewrite X. cbn [zbind].
  eexists. split; [reflexivity|]. eapply ref_new_offset; eauto.
Qed.

Theorem C39_packed_split_at ub nb e o l sz off n r at_ :
  size_sane nb e o -> size_sane nb e l -> packed_new nb e o l off n = ZOk r -> off + sz * n < 2 ^ ub ->
  at_ <= n -> off + sz * at_ <= omax o ->
  exists a b, p_split_at ub nb e o l sz r at_ = ZOk (a, b) /\
    p_offset nb e o a = off /\ p_len nb e l a = at_ /\
    p_offset nb e o b = off + sz * at_ /\ p_len nb e l b = n - at_.
Proof.
  intros S SL R B LA F.
  unfold packed_new in R. destruct (otry o off) eqn:T; [|discriminate]. apply otry_some in T as [-> L].
  destruct (otry l n) eqn:T; [|discriminate]. apply otry_some in T as [-> L'].
  inversion R; subst r; clear R. unfold p_split_at, p_offset, p_len. cbn [roff rmeta].
  assert (M : sz * at_ <= sz * n) by (apply N.mul_le_mono_l; lia).
  rewrite !as_usize_osw by auto. destruct (N.ltb_spec n at_); [lia|].
  unfold packed_new. rewrite (otry_fits o off), (otry_fits l at_) by lia. cbn [zbind].
  rewrite umul_fits by lia. cbn [zbind]. rewrite (N.mul_comm at_ sz). rewrite uadd_fits by lia. cbn [zbind].
  rewrite (otry_fits o (off + sz * at_)), (otry_fits l (n - at_)) by lia. cbn [zbind].
  eexists. eexists. split; [reflexivity|]. cbn [roff rmeta]. rewrite !as_usize_osw by (auto; lia). auto.
Qed.

(** Offsets beyond the range of the reference: an element of a slice that was
    stored and loads cannot be referred to. *)
Theorem C39_get_narrow_refuted :
  exists nb o b t off r m,
    ousz o = false /\ ref_with_metadata nb nb o off 20 = ZOk r /\ zwf t /\
    load_slice 64 nb b t off 20 = ZOk m /\ r_get 64 nb nb o (size_of t) r 19 = ZPanic.
Proof.
  exists Little, {| ow := 1; ousz := false |}, {| baddr := 0; bdata := repeat 7 270 |}, (ZInt 1 1), 250,
    {| roff := 250; rmeta := 20 |}, (repeat 7 20).
  split; [reflexivity|]. split; [reflexivity|]. split; [zwf_tac|]. split; reflexivity.
Qed.

(** [usize] references in the other byte order. *)
Theorem C39_usize_order_refuted :
  exists nb e o off n r,
    ref_with_metadata nb e o off n = ZOk r /\ r_offset nb e o r <> off /\ r_len nb e o r <> n.
Proof.
  exists Little, Big, o64, 5, 2, {| roff := 5 * 2 ^ 56; rmeta := 2 ^ 57 |}.
  split; [reflexivity|]. split; discriminate.
Qed.

(** Packed slices in the other byte order: the references to their elements are
    such [usize] references, even if the slice itself uses [u32]. *)
Theorem C39_packed_order_refuted :
  exists ub nb e o l usz sz off n r x,
    ousz o = false /\ ousz l = false /\ packed_new nb e o l off n = ZOk r /\
    p_offset nb e o r = off /\ p_len nb e l r = n /\ 0 < n /\
    p_get ub nb e o l usz sz r 0 = ZOk (Some x) /\ r_offset nb e usz x <> off.
Proof.
  exists 64, Little, Big, o32, o32, o64, 1, 5, 2, {| roff := 5 * 2 ^ 24; rmeta := 2 ^ 25 |},
    {| roff := 5 * 2 ^ 56; rmeta := 0 |}.
  repeat split; try reflexivity; discriminate.
Qed.

(** Coercing in the other byte order multiplies the swapped length. *)
Theorem C39_coerce_order_refuted :
  exists nb e o k off n r x,
    ousz o = false /\ ref_with_metadata nb e o off n = ZOk r /\ n * k <= omax o /\
    r_try_coerce o k r = Some x /\ r_len nb e o x <> n * k.
Proof.
  exists Little, Big, o32, 2, 0, 8388608, {| roff := 0; rmeta := 32768 |}, {| roff := 0; rmeta := 65536 |}.
  split; [reflexivity|]. split; [reflexivity|]. split; [discriminate|]. split; [reflexivity|discriminate].
Qed.

(** ... or fails although the length fits. *)
Theorem C39_coerce_fits_refuted :
  exists nb e o k off n r,
    ousz o = false /\ ref_with_metadata nb e o off n = ZOk r /\ n * k <= omax o /\
    r_try_coerce o k r = None.
Proof.
  exists Little, Big, o32, 2, 0, 200, {| roff := 0; rmeta := 200 * 2 ^ 24 |}.
  split; [reflexivity|]. split; [reflexivity|]. split; [discriminate|reflexivity].
Qed.

(** [array_into_slice] swaps the stored offset once more. *)
Theorem C39_array_order_refuted :
  exists nb e o n off r x,
    ousz o = false /\ ref_new nb e o off = ZOk r /\ r_array_into_slice nb e o n r = ZOk x /\
    r_offset nb e o x <> off.
Proof.
  exists Little, Big, o32, 4, 16, {| roff := 16 * 2 ^ 24; rmeta := 0 |},
    {| roff := 16; rmeta := 4 * 2 ^ 24 |}.
  split; [reflexivity|]. split; [reflexivity|]. split; [reflexivity|discriminate].
Qed.

(** Slices of zero-sized elements have no elements to iterate over. *)
Theorem C39_iter_zero_sized_refuted :
  exists ub nb o off n r it,
    ref_with_metadata nb nb o off n = ZOk r /\ 0 < n /\ r_len nb nb o r = n /\
    (exists x, r_get ub nb nb o (size_of ZUnit) r 0 = ZOk (Some x)) /\
    r_iter ub nb nb o (size_of ZUnit) r = ZOk it /\
    iter_next ub nb nb o (size_of ZUnit) it = ZOk None.
Proof.
  exists 64, Little, o32, 8, 3, {| roff := 8; rmeta := 3 |}, (8, 8).
  split; [reflexivity|]. split; [reflexivity|]. split; [reflexivity|]. split; [eexists; reflexivity|].
  split; reflexivity.
Qed.

Example C39_nonvacuous :
  exists r, size_sane Little Big o32 /\ ref_with_metadata Little Big o32 16 5 = ZOk r /\
    16 + 4 * 5 < 2 ^ 64 /\
    (exists x, r_get 64 Little Big o32 4 r 3 = ZOk (Some x) /\ r_offset Little Big o32 x = 28) /\
    r_get 64 Little Big o32 4 r 5 = ZOk None /\
    (exists it, r_iter 64 Little Big o32 4 r = ZOk it /\
       iter_run 64 Little Big o32 4 [true; false; false; true; true; true; false] it =
         ZOk [Some 16; Some 32; Some 28; Some 20; Some 24; None; None]).
Proof.
  eexists. split; [discriminate|]. split; [reflexivity|]. split; [reflexivity|].
  split; [eexists; split; reflexivity|]. split; [reflexivity|].
  eexists. split; reflexivity.
Qed.

(** ** C36: binary search *)

(** The search ends, whatever the elements compare like, and never reports an
    element which did not compare equal. *)
Theorem C36_sound probe len :
  exists r, binary_search_by probe len = Some r /\
  match r with
  | ZOk (Found i) => i < len /\ probe i = ZOk Eq
  | ZOk (Missing i) => i <= len
  | ZErr => exists i, i < len /\ probe i = ZErr
  | ZPanic => exists i, i < len /\ probe i = ZPanic
  | ZUb => exists i, i < len /\ probe i = ZUb
  end.
Proof.
  unfold binary_search_by.
  destruct (bs_loop (S (N.to_nat len)) probe len 0 len) as [r|] eqn:B.
  2: { apply bs_loop_fuel in B; [easy|lia|lia|lia]. }
  exists r. split; auto. apply bs_loop_sound in B; [|lia|lia].
  destruct r as [[i|i]| | |].
  - destruct B as [[_ X] Y]; auto.
  - lia.
  - destruct B as (i & [_ X] & Y); eauto.
  - destruct B as (i & [_ X] & Y); eauto.
  - destruct B as (i & [_ X] & Y); eauto.
Qed.

(** On a sorted slice the answer is right: an equal element if there is one, and
    else where it would have to be inserted. *)
Theorem C36_sorted probe c len :
  (forall i, i < len -> probe i = ZOk (c i)) -> sorted_cmp c len ->
  exists r, binary_search_by probe len = Some (ZOk r) /\ answer c len r.
Proof.
  intros P S. unfold binary_search_by. apply bs_loop_answer; auto; try lia.
Qed.

(** Through a reference to a slice in a buffer: if the slice loads, then the
    search compares its elements. *)
Theorem C36_slice_partial ub nb e o b t off n r s f c :
  zwf t -> pk_ok t -> vpk_ok t -> bytes_ok (bdata b) = true -> lenN (bdata b) < 2 ^ ub ->
  size_sane nb e o -> ref_with_metadata nb e o off (N.of_nat n) = ZOk r -> lenN (bdata b) <= omax o ->
  load_slice ub nb b t off (N.of_nat n) = ZOk s ->
  (forall i, i < N.of_nat n -> f (slice_at s (size_of t * i) (size_of t)) = ZOk (c i)) ->
  sorted_cmp c (N.of_nat n) ->
  exists x, binary_search_by (probe_ref ub nb e o b t r f) (r_len nb e o r) = Some (ZOk x) /\
    answer c (N.of_nat n) x.
Proof.
  intros W P V B U S R M L F SC. destruct (ref_meta_spec nb e o off _ r S R) as [RO RL]. rewrite RL.
  apply C36_sorted; auto. intros i I.
  destruct (slice_element ub nb b t off n s i W P V B U L I) as (OB & LE & SE).
  unfold probe_ref, r_get_unchecked. rewrite RO.
  rewrite umul_fits by lia. cbn [zbind]. rewrite uadd_fits by lia. cbn [zbind].
  destruct (ref_new_fits nb e o (off + size_of t * i)) as (x & X); [lia|]. rewrite X. cbn [zbind].
  rewrite (ref_new_offset nb e o _ x S X), LE. cbn [zbind]. rewrite <- SE. auto.
Qed.

(** ... and through a [Packed] reference in the native byte order. *)
Theorem C36_packed_partial ub nb o l usz b t off n r s f c :
  zwf t -> pk_ok t -> vpk_ok t -> bytes_ok (bdata b) = true -> lenN (bdata b) < 2 ^ ub ->
  ousz usz = true -> omax usz = 2 ^ ub - 1 -> packed_new nb nb o l off (N.of_nat n) = ZOk r ->
  load_slice ub nb b t off (N.of_nat n) = ZOk s ->
  (forall i, i < N.of_nat n -> f (slice_at s (size_of t * i) (size_of t)) = ZOk (c i)) ->
  sorted_cmp c (N.of_nat n) ->
  exists x, binary_search_by (probe_packed ub nb nb o usz b t r f) (p_len nb nb l r) = Some (ZOk x) /\
    answer c (N.of_nat n) x.
Proof.
  intros W P V B U US UM R L F SC.
  assert (S : forall o, size_sane nb nb o) by (intros ? _; auto).
  unfold packed_new in R. destruct (otry o off) eqn:T; [|discriminate]. apply otry_some in T as [-> LO].
  destruct (otry l (N.of_nat n)) eqn:T; [|discriminate]. apply otry_some in T as [-> LL].
  inversion R; subst r; clear R. unfold p_len. cbn [rmeta]. rewrite as_usize_osw by auto.
  apply C36_sorted; auto. intros i I.
  destruct (slice_element ub nb b t off n s i W P V B U L I) as (OB & LE & SE).
  unfold probe_packed, p_get_unchecked, p_offset. cbn [roff]. rewrite as_usize_osw by auto.
  rewrite umul_fits by lia. cbn [zbind]. rewrite uadd_fits by lia. cbn [zbind].
  destruct (ref_new_fits nb nb usz (off + size_of t * i)) as (x & X); [lia|]. rewrite X. cbn [zbind].
  rewrite (ref_new_offset nb nb usz _ x (S _) X), LE. cbn [zbind]. rewrite <- SE. auto.
Qed.

(** A [Packed] slice in the other byte order cannot be searched. *)
Theorem C36_packed_order_refuted :
  exists ub nb e o l usz b t off n r s f c,
    ousz o = false /\ ousz l = false /\ zwf t /\ packed_new nb e o l off n = ZOk r /\
    p_len nb e l r = n /\
    load_slice ub nb b t off n = ZOk s /\
    (forall i, i < n -> f (slice_at s (size_of t * i) (size_of t)) = ZOk (c i)) /\ sorted_cmp c n /\
    binary_search_by (probe_packed ub nb e o usz b t r f) (p_len nb e l r) = Some ZErr.
Proof.
  exists 64, Little, Big, o32, o32, o64, {| baddr := 0; bdata := [9; 1; 2; 3] |}, (ZInt 1 1), 1, 3,
    {| roff := 2 ^ 24; rmeta := 3 * 2 ^ 24 |}, [1; 2; 3],
    (fun m => ZOk (match m with x :: _ => N.compare x 2 | [] => Lt end)), (fun i => N.compare (i + 1) 2).
  split; [reflexivity|]. split; [reflexivity|]. split; [zwf_tac|]. split; [reflexivity|]. split; [reflexivity|].
  split; [reflexivity|]. split.
  { intros i I. assert (i = 0 \/ i = 1 \/ i = 2) as [->|[->| ->]] by lia; reflexivity. }
  split; [|reflexivity].
  intros i j I J. rewrite !N.compare_gt_iff, !N.compare_lt_iff. lia.
Qed.

Example C36_nonvacuous :
  exists b r s f c, size_sane Little Big o32 /\ ref_with_metadata Little Big o32 2 4 = ZOk r /\
    load_slice 64 Little b (ZInt 2 2) 2 4 = ZOk s /\
    (forall i, i < 4 -> f (slice_at s (size_of (ZInt 2 2) * i) (size_of (ZInt 2 2))) = ZOk (c i)) /\
    sorted_cmp c 4 /\
    binary_search_by (probe_ref 64 Little Big o32 b (ZInt 2 2) r f) (r_len Little Big o32 r) =
      Some (ZOk (Missing 2)).
Proof.
  exists {| baddr := 64; bdata := [0; 0; 1; 0; 3; 0; 5; 0; 8; 0] |}, {| roff := 2 ^ 25; rmeta := 2 ^ 26 |},
    [1; 0; 3; 0; 5; 0; 8; 0],
    (fun m => ZOk (match m with x :: _ => N.compare x 4 | [] => Lt end)),
    (fun i => if i <=? 1 then Lt else Gt).
  split; [discriminate|]. split; [reflexivity|]. split; [reflexivity|]. split.
  { intros i I. assert (i = 0 \/ i = 1 \/ i = 2 \/ i = 3) as [->|[->|[->| ->]]] by lia; reflexivity. }
  split; [|reflexivity].
  intros i j I J. destruct (N.leb_spec i 1), (N.leb_spec j 1); split; intros; auto; try discriminate; lia.
Qed.

Print Assumptions C39_get_partial.
Print Assumptions C39_split_at_partial.
Print Assumptions C39_split_at_out_of_bounds.
Print Assumptions C39_iter_partial.
Print Assumptions C39_try_coerce_partial.
Print Assumptions C39_array_into_slice_partial.
Print Assumptions C39_to_endian.
Print Assumptions C39_packed_get_partial.
Print Assumptions C39_packed_split_at.
Print Assumptions C39_get_narrow_refuted.
Print Assumptions C39_usize_order_refuted.
Print Assumptions C39_packed_order_refuted.
Print Assumptions C39_coerce_order_refuted.
Print Assumptions C39_coerce_fits_refuted.
Print Assumptions C39_array_order_refuted.
Print Assumptions C39_iter_zero_sized_refuted.
Print Assumptions C36_sound.
Print Assumptions C36_sorted.
Print Assumptions C36_slice_partial.
Print Assumptions C36_packed_partial.
Print Assumptions C36_packed_order_refuted.
