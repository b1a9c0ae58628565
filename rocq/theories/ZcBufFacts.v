(** Facts about the zero-copy buffers. *)
From Coq Require Import Lia.
From Verif Require Import Base BaseFacts Options Int IntFacts Utf8 IOFacts Zc ZcSpec ZcFacts ZcValid ZcSwap ZcBuf ZcBufSpec.
Local Open Scope N_scope.

(** ** Alignment *)

Lemma aligned_iff a al : pow2 al -> is_aligned_with a al = true <-> (al | a).
Proof.
  intros [k ->]. unfold is_aligned_with.
  replace (2 ^ k - 1) with (N.ones k) by (rewrite N.ones_equiv; lia).
  rewrite N.land_ones, N.eqb_eq. apply N.mod_divide. apply N.pow_nonzero. discriminate.
Qed.

Lemma padding_divide n al : pow2 al -> (al | n + padding_to n al).
Proof.
  intros P. pose proof (pow2_pos _ P). rewrite padding_to_spec by auto.
  pose proof (round_up_ge n al ltac:(lia)).
  replace (n + (round_up n al - n)) with (round_up n al) by lia. apply round_up_divide.
Qed.

Lemma padding_least n al k : pow2 al -> (al | n + k) -> padding_to n al <= k.
Proof.
  intros P D. pose proof (pow2_pos _ P) as Q. rewrite padding_to_spec by auto.
  pose proof (round_up_lt n al ltac:(lia)) as L. destruct D as [q D].
  pose proof (round_up_divide n al) as [r R].
  destruct (N.le_gt_cases r q) as [G|G]; [nia|]. nia.
Qed.

(** ** The invariant of a buffer *)

Record oinv (E : zenv) (st : obuf) : Prop := {
  i_req : pow2 (oreq st);
  i_al : pow2 (oal st);
  i_le : oal st <= oreq st;
  i_base : (oal st | obase st);
  i_len : lenN (odata st) <= ocap st;
  i_cap : ocap st < 2 ^ ubits E;
  i_live : ofixed st = false -> olive st = if ocap st =? 0 then None else Some (ocap st, oal st);
  i_zero : ofixed st = false -> ocap st = 0 -> oal st = oreq st;
  i_fix : ofixed st = true -> olive st = None
}.

Lemma layout_lt E s a : 0 < ubits E -> layout_ok E s a = true -> s < 2 ^ ubits E.
Proof.
  unfold layout_ok. intros P H. apply N.leb_le in H.
  replace (ubits E) with (N.succ (ubits E - 1)) by lia. rewrite N.pow_succ_r'.
  assert (0 < 2 ^ (ubits E - 1)) by (apply N.neq_0_lt_0, N.pow_nonzero; discriminate). lia.
Qed.

Ltac zinv H :=
  match type of H with
  | zbind ?e _ = _ => let E := fresh "E" in destruct e eqn:E; cbn [zbind] in H; try discriminate
  end.

Lemma zbind_ok {A B} (e : zres A) (f : A -> zres B) b : zbind e f = ZOk b -> exists a, e = ZOk a /\ f a = ZOk b.
Proof. destruct e; simpl; intros H; try discriminate. eauto. Qed.

Lemma zbind_ub {A B} (e : zres A) (f : A -> zres B) :
  e <> ZUb -> (forall a, e = ZOk a -> f a <> ZUb) -> zbind e f <> ZUb.
Proof. destruct e; simpl; intros H K; auto; discriminate. Qed.

Lemma uadd_ub u a b : uadd u a b <> ZUb.
Proof. unfold uadd. destruct (_ <? _); discriminate. Qed.
Lemma uadd_ok u a b c : uadd u a b = ZOk c -> c = a + b /\ a + b < 2 ^ u.
Proof. unfold uadd. destruct (N.ltb_spec (a + b) (2 ^ u)); intros X; inversion X; auto. Qed.
Lemma uadd_fits u a b : a + b < 2 ^ u -> uadd u a b = ZOk (a + b).
Proof. unfold uadd. intros H. apply N.ltb_lt in H. now rewrite H. Qed.

Lemma set_req_inv E st r : oinv E st -> pow2 r -> (ocap st <> 0 \/ ofixed st = true) ->
  oinv E (set_req st (N.max (oreq st) r)).
Proof.
  intros I P C. destruct I. constructor; cbn; auto.
  - now apply pow2_max.
  - lia.
  - intros F Z. destruct C as [C|C]; congruence.
Qed.

(** What [o_ensure] does, under a weaker invariant that allows the requested
    alignment to have just been raised. *)
Record oinv0 (E : zenv) (st : obuf) : Prop := {
  j_req : pow2 (oreq st);
  j_al : pow2 (oal st);
  j_le : oal st <= oreq st;
  j_base : (oal st | obase st);
  j_len : lenN (odata st) <= ocap st;
  j_cap : ocap st < 2 ^ ubits E;
  j_live : ofixed st = false -> olive st = if ocap st =? 0 then None else Some (ocap st, oal st);
  j_fix : ofixed st = true -> olive st = None
}.
Lemma oinv_0 E st : oinv E st -> oinv0 E st.
Proof. intros []. constructor; auto. Qed.
Lemma oinv_of0 E st : oinv0 E st -> 0 < ocap st \/ ofixed st = true -> oinv E st.
Proof. intros [] C. constructor; auto. intros F Z. destruct C; [lia|congruence]. Qed.
Lemma set_req_inv0 E st r : oinv E st -> pow2 r -> oinv0 E (set_req st (N.max (oreq st) r)).
Proof. intros [] P. constructor; cbn; auto. - now apply pow2_max. - lia. Qed.

Lemma ensure_spec E st want :
  0 < ubits E -> alloc_good E -> oinv0 E st ->
  o_ensure E st want <> ZUb /\
  forall st', o_ensure E st want = ZOk st' ->
    oinv E st' /\ odata st' = odata st /\ oreq st' = oreq st /\ want <= ocap st' /\ oreq st <= ocap st' /\
    ofixed st' = ofixed st /\ (ofixed st = true -> obase st' = obase st).
Proof.
  intros U G I. unfold o_ensure.
  assert (RP : 0 < oreq st) by (apply pow2_pos; apply I).
  set (w := N.max want (oreq st)).
  destruct (N.leb_spec w (ocap st)) as [L|L].
  { split; [discriminate|]. intros st' X. inversion X; subst st'; clear X.
    split; [apply oinv_of0; auto; left; lia|]. repeat split; auto; lia. }
  destruct (ofixed st) eqn:F; [split; discriminate|].
  set (w2 := N.max w (egrow E (ocap st))). fold w2.
  destruct (layout_ok E w2 (oreq st)) eqn:LO; [|split; discriminate].
  assert (W0 : (w2 =? 0) = false) by (apply N.eqb_neq; lia).
  assert (CL : w2 < 2 ^ ubits E) by (eapply layout_lt; eauto).
  assert (DL : lenN (odata st) <= w2) by (pose proof (j_len _ _ I); lia).
  assert (RL : oreq st <= w2) by lia. assert (WL : want <= w2) by lia.
  pose proof (j_live _ _ I F) as LV.
  destruct (N.eqb_spec (ocap st) 0) as [Z|Z].
  - unfold o_alloc_init, a_alloc. rewrite W0.
    destruct (ealloc E (ocnt st) w2 (oreq st)) as [a|] eqn:A; cbn [zbind]; [|split; discriminate].
    split; [discriminate|]. intros st' X. inversion X; subst st'; clear X; cbn.
    split; [|repeat split; auto; discriminate].
    constructor; cbn; auto; try (apply I); try lia; try discriminate; [now apply G in A|].
    rewrite W0. auto.
  - destruct (N.eqb_spec (oreq st) (oal st)) as [Q|Q].
    + unfold o_realloc, a_dealloc. rewrite LV. rewrite !N.eqb_refl. cbn [andb zbind].
      unfold a_alloc. rewrite W0.
      destruct (ealloc E (ocnt st) w2 (oal st)) as [a|] eqn:A; cbn [zbind]; [|split; discriminate].
      split; [discriminate|]. intros st' X. inversion X; subst st'; clear X; cbn.
      assert (FN : firstn (N.to_nat (N.min (ocap st) w2)) (odata st) = odata st).
      { apply firstn_all2. pose proof (j_len _ _ I) as JL. unfold lenN in *. lia. }
      rewrite FN.
      split; [|repeat split; auto; discriminate].
      constructor; cbn; auto; try (apply I); try lia; try discriminate; [now apply G in A|].
      rewrite W0. auto.
    + unfold o_alloc_new, a_alloc. rewrite W0.
      destruct (ealloc E (ocnt st) w2 (oreq st)) as [a|] eqn:A; cbn [zbind]; [|split; discriminate].
      destruct (N.ltb_spec w2 (lenN (odata st))); [lia|].
      unfold a_dealloc. rewrite LV. rewrite !N.eqb_refl. cbn [andb zbind].
      split; [discriminate|]. intros st' X. inversion X; subst st'; clear X; cbn.
      split; [|repeat split; auto; discriminate].
      constructor; cbn; auto; try (apply I); try lia; try discriminate; [now apply G in A|].
      rewrite W0. auto.
Qed.

Lemma reserve_spec E st n :
  0 < ubits E -> alloc_good E -> oinv0 E st ->
  o_reserve E st n <> ZUb /\
  forall st', o_reserve E st n = ZOk st' ->
    oinv E st' /\ odata st' = odata st /\ oreq st' = oreq st /\ lenN (odata st) + n <= ocap st' /\
    ofixed st' = ofixed st /\ (ofixed st = true -> obase st' = obase st).
Proof.
  intros U G I. unfold o_reserve, uadd.
  destruct (N.ltb_spec (lenN (odata st) + n) (2 ^ ubits E)); cbn [zbind]; [|split; discriminate].
  destruct (ensure_spec E st (lenN (odata st) + n) U G I) as [A B]. split; auto.
  intros st' X. destruct (B st' X) as (? & ? & ? & ? & ? & ? & ?). auto 10.
Qed.

Lemma push_spec E st bs st' : oinv E st -> lenN (odata st) + lenN bs <= ocap st ->
  o_push st bs = ZOk st' ->
  oinv E st' /\ odata st' = odata st ++ bs /\ oreq st' = oreq st /\ ocap st' = ocap st /\
  ofixed st' = ofixed st /\ obase st' = obase st.
Proof.
  intros I L. unfold o_push. apply N.leb_le in L. rewrite L. apply N.leb_le in L.
  intros X. inversion X; subst st'; clear X; cbn. split; [|auto 10].
  destruct I. constructor; cbn; auto. now rewrite lenN_app.
Qed.
Lemma push_ok st bs : lenN (odata st) + lenN bs <= ocap st -> exists st', o_push st bs = ZOk st'.
Proof. intros L. unfold o_push. apply N.leb_le in L. rewrite L. eauto. Qed.

Lemma zeros_len n : lenN (zeros n) = n.
Proof. unfold lenN, zeros. rewrite repeat_length. lia. Qed.

Lemma next_spec E st al reserve :
  0 < ubits E -> alloc_good E -> oinv E st -> pow2 al ->
  o_next E st al reserve <> ZUb /\
  forall st', o_next E st al reserve = ZOk st' ->
    oinv E st' /\ odata st' = odata st ++ zeros (padding_to (lenN (odata st)) al) /\
    oreq st' = N.max (oreq st) al /\ lenN (odata st') + reserve <= ocap st' /\
    ofixed st' = ofixed st /\ (ofixed st = true -> obase st' = obase st).
Proof.
  intros U G I P. unfold o_next. cbn [odata set_req].
  set (x := padding_to (lenN (odata st)) al).
  pose proof (set_req_inv0 E st al I P) as I0.
  unfold uadd. destruct (N.ltb_spec (x + reserve) (2 ^ ubits E)); cbn [zbind]; [|split; discriminate].
  destruct (reserve_spec E _ (x + reserve) U G I0) as [A B]. cbn [odata set_req oreq ofixed obase] in *.
  destruct (o_reserve E (set_req st (N.max (oreq st) al)) (x + reserve)) as [s1| | |] eqn:R;
    cbn [zbind]; try (split; [congruence|discriminate]).
  destruct (B s1 eq_refl) as (I1 & D1 & R1 & C1 & F1 & B1).
  destruct (push_ok s1 (zeros x)) as (s2 & P2); [rewrite D1, zeros_len; lia|].
  rewrite P2. split; [discriminate|]. intros st' X. inversion X; subst st'; clear X.
  destruct (push_spec E s1 (zeros x) s2 I1) as (I2 & D2 & R2 & C2 & F2 & B2);
    [rewrite D1, zeros_len; lia|auto|].
  split; auto. rewrite D2, D1. split; auto. split; [congruence|].
  split; [rewrite lenN_app, zeros_len, C2; lia|]. split; [congruence|].
  intros Z. rewrite B2. auto.
Qed.

(** ** References *)

Lemma osw_lt nb e o n : n <= omax o -> osw nb e o n < 256 ^ N.of_nat (ow o).
Proof.
  unfold osw, swap_int, omax. intros L.
  assert (0 < 256 ^ N.of_nat (ow o)) by (apply N.neq_0_lt_0, N.pow_nonzero; discriminate).
  destruct (bo_eqb nb e); [lia|]. apply swap_bytes_lt.
Qed.
Lemma osw_twice nb e o n : n <= omax o -> osw nb e o (osw nb e o n) = n.
Proof.
  unfold osw, swap_int, omax. intros L.
  assert (0 < 256 ^ N.of_nat (ow o)) by (apply N.neq_0_lt_0, N.pow_nonzero; discriminate).
  destruct (bo_eqb nb e); auto. apply swap_bytes_twice. lia.
Qed.
Lemma bo_eqb_refl b : bo_eqb b b = true.
Proof. now destruct b. Qed.
Lemma as_usize_osw nb e o n : size_sane nb e o -> n <= omax o -> as_usize nb e o (osw nb e o n) = n.
Proof.
  unfold as_usize, size_sane. intros S L. destruct (ousz o).
  - rewrite S by auto. unfold osw, swap_int. now rewrite bo_eqb_refl.
  - now apply osw_twice.
Qed.
Lemma osw_0 nb e o : osw nb e o 0 = 0.
Proof. unfold osw, swap_int. destruct (bo_eqb nb e); auto using swap_bytes_0. Qed.
Lemma osw_zero nb e o n : n <= omax o -> osw nb e o n = 0 -> n = 0.
Proof. intros L Z. rewrite <- (osw_twice nb e o n), Z by auto. apply osw_0. Qed.

Lemma otry_some o n m : otry o n = Some m -> m = n /\ n <= omax o.
Proof. unfold otry. destruct (N.ltb_spec (omax o) n); intros X; inversion X; subst; auto. Qed.
Lemma otry_fits o n : n <= omax o -> otry o n = Some n.
Proof. unfold otry. destruct (N.ltb_spec (omax o) n); [lia|auto]. Qed.

Lemma ref_new_ok nb e o off r : ref_new nb e o off = ZOk r ->
  off <= omax o /\ r = {| roff := osw nb e o off; rmeta := 0 |}.
Proof.
  unfold ref_new. destruct (otry o off) eqn:T; [|discriminate]. apply otry_some in T as [-> L].
  intros X; inversion X; auto.
Qed.
Lemma ref_new_offset nb e o off r : size_sane nb e o -> ref_new nb e o off = ZOk r -> r_offset nb e o r = off.
Proof. intros S R. apply ref_new_ok in R as [L ->]. unfold r_offset; cbn. now apply as_usize_osw. Qed.
Lemma ref_new_fits nb e o off : off <= omax o -> exists r, ref_new nb e o off = ZOk r.
Proof. intros L. unfold ref_new. rewrite otry_fits by auto. eauto. Qed.
Lemma ref_new_ub nb e o off : ref_new nb e o off <> ZUb.
Proof. unfold ref_new. destruct (otry o off); discriminate. Qed.
Lemma ref_meta_ok nb e o off len r : ref_with_metadata nb e o off len = ZOk r ->
  off <= omax o /\ len <= omax o /\ r = {| roff := osw nb e o off; rmeta := osw nb e o len |}.
Proof.
  unfold ref_with_metadata. destruct (otry o off) eqn:T; [|discriminate]. apply otry_some in T as [-> L].
  destruct (otry o len) eqn:T; [|discriminate]. apply otry_some in T as [-> L'].
  intros X; inversion X; auto.
Qed.
Lemma ref_meta_spec nb e o off len r : size_sane nb e o -> ref_with_metadata nb e o off len = ZOk r ->
  r_offset nb e o r = off /\ r_len nb e o r = len.
Proof.
  intros S R. apply ref_meta_ok in R as (L & L' & ->). unfold r_offset, r_len; cbn.
  now rewrite !as_usize_osw.
Qed.
Lemma ref_meta_fits nb e o off len : off <= omax o -> len <= omax o ->
  exists r, ref_with_metadata nb e o off len = ZOk r.
Proof. intros L L'. unfold ref_with_metadata. rewrite !otry_fits by auto. eauto. Qed.
Lemma ref_meta_ub nb e o off len : ref_with_metadata nb e o off len <> ZUb.
Proof. unfold ref_with_metadata. destruct (otry o off), (otry o len); discriminate. Qed.

(** ** Stores *)

(** The common shape of the stores: align, push the [size] bytes [m], make a
    reference. *)
Definition gstore {R} (E : zenv) (st : obuf) (al size : N) (m : zres bytes) (mk : N -> zres R) : zres (obuf * R) :=
  let+ st := o_next E st al size in
  let off := lenN (odata st) in
  let+ m := m in
  let+ st := o_push st m in
  let+ r := mk off in
  ZOk (st, r).

Lemma gstore_spec {R} E st al size m mk :
  0 < ubits E -> alloc_good E -> oinv E st -> pow2 al -> lenN m = size ->
  (forall off, (mk off : zres R) <> ZUb) ->
  gstore E st al size (ZOk m) mk <> ZUb /\
  forall st' r, gstore E st al size (ZOk m) mk = ZOk (st', r) ->
    let pad := padding_to (lenN (odata st)) al in
    oinv E st' /\ odata st' = odata st ++ zeros pad ++ m /\
    oreq st' = N.max (oreq st) al /\ mk (lenN (odata st) + pad) = ZOk r /\
    ofixed st' = ofixed st /\ (ofixed st = true -> obase st' = obase st).
Proof.
  intros U G I P L MK. unfold gstore.
  destruct (next_spec E st al size U G I P) as [A B].
  destruct (o_next E st al size) as [s1| | |]; cbn [zbind]; try (split; [congruence|discriminate]).
  destruct (B s1 eq_refl) as (I1 & D1 & R1 & C1 & F1 & B1).
  destruct (push_ok s1 m) as (s2 & P2); [lia|]. rewrite P2; cbn [zbind].
  destruct (push_spec E s1 m s2 I1) as (I2 & D2 & R2 & C2 & F2 & B2); [lia|auto|].
  assert (O : lenN (odata s1) = lenN (odata st) + padding_to (lenN (odata st)) al)
    by (rewrite D1, lenN_app, zeros_len; lia).
  rewrite O. specialize (MK (lenN (odata st) + padding_to (lenN (odata st)) al)).
  destruct (mk (lenN (odata st) + padding_to (lenN (odata st)) al)) as [r0| | |]; cbn [zbind];
    try (split; [congruence|discriminate]).
  split; [discriminate|]. intros st' r X. inversion X; subst st' r0; clear X.
  cbv zeta. split; auto. split; [now rewrite D2, D1, <- app_assoc|]. split; [congruence|]. split; auto.
  split; [congruence|]. intros Z. rewrite B2. auto.
Qed.

Lemma store_is E nb e o st t m : o_store E nb e o st t m =
  gstore E st (align_of t) (size_of t) (store_mem nb t m) (ref_new nb e o).
Proof. reflexivity. Qed.
Lemma store_slice_is E nb e o st t n m : o_store_slice E nb e o st t n m =
  gstore E st (align_of t) (N.of_nat n * size_of t) (store_mem nb (ZArray t n) m)
    (fun off => ref_with_metadata nb e o off (N.of_nat n)).
Proof. reflexivity. Qed.
Lemma store_str_is E nb e o st s : o_store_str E nb e o st s =
  gstore E st 1 (lenN s) (ZOk s) (fun off => ref_with_metadata nb e o off (lenN s)).
Proof. reflexivity. Qed.
Lemma store_uninit_is E nb e o st t : o_store_uninit E nb e o st t =
  gstore E st (align_of t) (size_of t) (ZOk (zeros (size_of t))) (ref_new nb e o).
Proof. reflexivity. Qed.

Lemma patch_len d off s : off + lenN s <= lenN d -> lenN (patch d off s) = lenN d.
Proof.
  intros L. unfold patch. rewrite !lenN_app. unfold lenN in *. rewrite firstn_length, skipn_length. lia.
Qed.

Lemma set_data_inv E st d : oinv E st -> lenN d <= lenN (odata st) -> oinv E (set_data st d).
Proof. intros [] L. constructor; cbn; auto. lia. Qed.

Lemma align_spec E st :
  0 < ubits E -> alloc_good E -> oinv E st ->
  o_align_in_place E st <> ZUb /\
  forall st', o_align_in_place E st = ZOk st' ->
    oinv E st' /\ odata st' = odata st /\ oreq st' = oreq st /\ (oreq st | obase st') /\
    ofixed st' = ofixed st /\ (ofixed st = true -> obase st' = obase st).
Proof.
  intros U G I. unfold o_align_in_place.
  destruct (is_aligned_with (obase st) (oreq st)) eqn:A.
  { split; [discriminate|]. intros st' X. inversion X; subst st'; clear X.
    apply aligned_iff in A; [|apply I]. auto 10. }
  destruct (ofixed st) eqn:F; [split; discriminate|].
  destruct (layout_ok E (ocap st) (oreq st)) eqn:LO; [|split; discriminate].
  assert (Z : ocap st <> 0).
  { intros Z. pose proof (i_zero _ _ I F Z) as Q. pose proof (i_base _ _ I) as B. rewrite Q in B.
    apply aligned_iff in B; [congruence|apply I]. }
  pose proof (i_live _ _ I F) as LV. apply N.eqb_neq in Z. rewrite Z in LV.
  unfold o_alloc_new, a_alloc. rewrite Z.
  destruct (ealloc E (ocnt st) (ocap st) (oreq st)) as [a|] eqn:EA; cbn [zbind]; [|split; discriminate].
  pose proof (i_len _ _ I) as IL.
  destruct (N.ltb_spec (ocap st) (lenN (odata st))); [lia|].
  unfold a_dealloc. rewrite LV. rewrite !N.eqb_refl. cbn [andb zbind].
  split; [discriminate|]. intros st' X. inversion X; subst st'; clear X; cbn.
  apply G in EA. split; [|repeat split; auto; discriminate].
  constructor; cbn; auto; try (apply I); try lia; try discriminate. now rewrite Z.
Qed.

Lemma valid_store nb t m : zwf t -> pk_ok t -> valid_pattern nb t m ->
  exists m', store_mem nb t m = ZOk m' /\ lenN m' = size_of t /\ bytes_ok m' = true.
Proof.
  intros W P (v & O & H). exists (zeroed (mem_of nb t v)).
  split; [now apply store_mem_spec|]. split; [now rewrite zeroed_len, mem_of_len|apply mem_ok].
Qed.

Lemma bytes_ok_zeros n : bytes_ok (zeros n) = true.
Proof. unfold zeros. induction (N.to_nat n); cbn; auto. Qed.

Lemma bytes_ok_firstn n l : bytes_ok l = true -> bytes_ok (firstn n l) = true.
Proof.
  revert l; induction n as [|n IH]; intros [|x l] H; auto. cbn [firstn].
  rewrite bytes_ok_cons in *. apply andb_true_iff in H as [A B]. rewrite A; cbn. auto.
Qed.
Lemma bytes_ok_skipn n l : bytes_ok l = true -> bytes_ok (skipn n l) = true.
Proof.
  revert l; induction n as [|n IH]; intros [|x l] H; auto. cbn [skipn].
  rewrite bytes_ok_cons in H. apply andb_true_iff in H as [A B]. auto.
Qed.
Lemma bytes_ok_patch d off s : bytes_ok d = true -> bytes_ok s = true -> bytes_ok (patch d off s) = true.
Proof.
  intros D S. unfold patch. rewrite !bytes_ok_app, S, bytes_ok_firstn, bytes_ok_skipn by auto. auto.
Qed.

(** ** Steps of a history *)

(** What a step preserves: the invariant, validity of bytes, and the bytes it
    does not touch. *)
Lemma slice_at_app d x off n : off + n <= lenN d -> slice_at (d ++ x) off n = slice_at d off n.
Proof.
  intros L. unfold slice_at. unfold lenN in L.
  rewrite skipn_app, firstn_app. replace (N.to_nat n - length (skipn (N.to_nat off) d))%nat with 0%nat.
  - now rewrite firstn_O, app_nil_r.
  - rewrite skipn_length. lia.
Qed.
Lemma slice_at_len d off n : off + n <= lenN d -> lenN (slice_at d off n) = n.
Proof. intros L. unfold slice_at. rewrite lenN_firstn; auto. rewrite lenN_skipn. lia. Qed.

Lemma slice_at_split d off n : off + n <= lenN d ->
  d = firstn (N.to_nat off) d ++ slice_at d off n ++ skipn (N.to_nat (off + n)) d.
Proof.
  intros L. unfold slice_at. rewrite <- (firstn_skipn (N.to_nat off) d) at 1. f_equal.
  rewrite <- (firstn_skipn (N.to_nat n) (skipn (N.to_nat off) d)) at 1. f_equal.
  rewrite skipn_add. f_equal. lia.
Qed.

Lemma slice_at_mid a s b : slice_at (a ++ s ++ b) (lenN a) (lenN s) = s.
Proof.
  unfold slice_at, lenN. rewrite !Nat2N.id. rewrite skipn_app, skipn_all, Nat.sub_diag. cbn [skipn app].
  rewrite firstn_app, firstn_all, Nat.sub_diag. cbn. apply app_nil_r.
Qed.

Lemma nth_patch d at_ s i : at_ + lenN s <= lenN d ->
  nth_error (patch d at_ s) i =
  if (N.of_nat i <? at_) then nth_error d i else
  if (N.of_nat i <? at_ + lenN s) then nth_error s (i - N.to_nat at_) else nth_error d i.
Proof.
  intros L. unfold patch. unfold lenN in *.
  destruct (N.ltb_spec (N.of_nat i) at_) as [A|A].
  - rewrite nth_error_app1 by (rewrite firstn_length; lia).
    rewrite <- (firstn_skipn (N.to_nat at_) d) at 2.
    rewrite nth_error_app1 by (rewrite firstn_length; lia). auto.
  - rewrite nth_error_app2 by (rewrite firstn_length; lia).
    rewrite firstn_length, Nat.min_l by lia.
    destruct (N.ltb_spec (N.of_nat i) (at_ + N.of_nat (length s))) as [B|B].
    + rewrite nth_error_app1 by lia. auto.
    + rewrite nth_error_app2 by lia.
      rewrite <- (firstn_skipn (N.to_nat at_ + length s) d) at 2.
      rewrite (nth_error_app2 (firstn _ d)) by (rewrite firstn_length; lia).
      rewrite firstn_length, Nat.min_l by lia. f_equal. lia.
Qed.

Lemma nth_slice d off n i : nth_error (slice_at d off n) i =
  if (N.of_nat i <? n) then nth_error d (N.to_nat off + i) else None.
Proof.
  unfold slice_at. destruct (N.ltb_spec (N.of_nat i) n) as [A|A].
  - rewrite <- (firstn_skipn (N.to_nat off) d) at 2.
    destruct (Nat.le_gt_cases (N.to_nat off) (length d)) as [Q|Q].
    + rewrite (nth_error_app2 (firstn (N.to_nat off) d)) by (rewrite firstn_length; lia).
      rewrite firstn_length, Nat.min_l by lia. replace (N.to_nat off + i - N.to_nat off)%nat with i by lia.
      rewrite <- (firstn_skipn (N.to_nat n) (skipn (N.to_nat off) d)) at 2.
      destruct (Nat.lt_ge_cases i (length (skipn (N.to_nat off) d))).
      * rewrite nth_error_app1 by (rewrite firstn_length; lia). auto.
      * rewrite nth_error_app2; rewrite firstn_length, Nat.min_r by lia; [|lia].
        rewrite (skipn_all2 (skipn _ d)) by lia.
        replace (nth_error (firstn (N.to_nat n) (skipn (N.to_nat off) d)) i) with (@None N).
        2: { symmetry. apply nth_error_None. rewrite firstn_length. lia. }
        now destruct (i - _)%nat.
    + rewrite (skipn_all2 d) by lia. rewrite firstn_nil, app_nil_r.
      replace (nth_error (firstn (N.to_nat off) d) (N.to_nat off + i)) with (@None N).
      * now destruct i.
      * symmetry. apply nth_error_None. rewrite firstn_length. lia.
  - apply nth_error_None. rewrite firstn_length. lia.
Qed.

Lemma nth_ext_error {A} (a b : list A) : (forall i, nth_error a i = nth_error b i) -> a = b.
Proof.
  revert b; induction a as [|x a IH]; intros [|y b] H; auto.
  - specialize (H 0%nat); discriminate.
  - specialize (H 0%nat); discriminate.
  - pose proof (H 0%nat) as H0. cbn in H0. inversion H0; subst. f_equal. apply IH.
    intros i. apply (H (S i)).
Qed.

Lemma slice_patch_other d at_ s off n : at_ + lenN s <= lenN d ->
  at_ + lenN s <= off \/ off + n <= at_ -> slice_at (patch d at_ s) off n = slice_at d off n.
Proof.
  intros L S. apply nth_ext_error. intros i. rewrite !nth_slice.
  destruct (N.ltb_spec (N.of_nat i) n) as [A|A]; auto.
  rewrite nth_patch by auto.
  destruct (N.ltb_spec (N.of_nat (N.to_nat off + i)) at_); auto.
  destruct (N.ltb_spec (N.of_nat (N.to_nat off + i)) (at_ + lenN s)); auto. lia.
Qed.
Lemma slice_patch_same d at_ s : at_ + lenN s <= lenN d -> slice_at (patch d at_ s) at_ (lenN s) = s.
Proof.
  intros L. apply nth_ext_error. intros i. rewrite nth_slice.
  destruct (N.ltb_spec (N.of_nat i) (lenN s)) as [A|A].
  - rewrite nth_patch by auto.
    destruct (N.ltb_spec (N.of_nat (N.to_nat at_ + i)) at_); [lia|].
    destruct (N.ltb_spec (N.of_nat (N.to_nat at_ + i)) (at_ + lenN s)); [|lia]. f_equal. lia.
  - symmetry. apply nth_error_None. unfold lenN in *. lia.
Qed.
Lemma slice_patch_eq d at_ s n : n = lenN s -> at_ + lenN s <= lenN d -> slice_at (patch d at_ s) at_ n = s.
Proof. intros ->. apply slice_patch_same. Qed.
Lemma slice_truncate d k off n : off + n <= k -> off + n <= lenN d ->
  slice_at (firstn (N.to_nat k) d) off n = slice_at d off n.
Proof.
  intros K L. destruct (N.le_gt_cases (lenN d) k) as [Q|Q].
  - rewrite firstn_all2; auto. unfold lenN in Q. lia.
  - rewrite <- (firstn_skipn (N.to_nat k) d) at 2. rewrite slice_at_app; auto.
    rewrite lenN_firstn; lia.
Qed.

Record okst (E : zenv) (st : obuf) : Prop := { ok_inv : oinv E st; ok_bytes : bytes_ok (odata st) = true }.

(** Relation between the states before and after some steps. *)
Record later (E : zenv) (st st' : obuf) : Prop := {
  l_ok : okst E st';
  l_req : oreq st <= oreq st';
  l_fix : ofixed st' = ofixed st;
  l_base : ofixed st = true -> obase st' = obase st
}.

Definition kept (off n : N) (d d' : bytes) : Prop :=
  off + n <= lenN d -> off + n <= lenN d' /\ slice_at d' off n = slice_at d off n.

Lemma kept_app off n d x : kept off n d (d ++ x).
Proof. intros L. rewrite lenN_app. split; [lia|]. now apply slice_at_app. Qed.
Lemma kept_refl off n d : kept off n d d.
Proof. intros L; auto. Qed.

Lemma gstore_later {R} E st al size m (mk : N -> zres R) :
  0 < ubits E -> alloc_good E -> okst E st -> pow2 al -> lenN m = size -> bytes_ok m = true ->
  (forall off, mk off <> ZUb) ->
  gstore E st al size (ZOk m) mk <> ZUb /\
  forall st' r, gstore E st al size (ZOk m) mk = ZOk (st', r) ->
    later E st st' /\ exists x, odata st' = odata st ++ x.
Proof.
  intros U G [I B] P L M MK. destruct (gstore_spec E st al size m mk U G I P L MK) as [A K].
  split; auto. intros st' r X. destruct (K st' r X) as (I' & D & Q & _ & F & S). split; [|eauto].
  constructor; auto.
  - constructor; auto. rewrite D, !bytes_ok_app, B, M, bytes_ok_zeros. auto.
  - lia.
Qed.

Lemma align_1 : pow2 1. Proof. now exists 0. Qed.

Lemma step_spec E nb st op :
  0 < ubits E -> alloc_good E -> okst E st -> op_ok nb op ->
  ostep E nb st op <> ZUb /\
  forall st', ostep E nb st op = ZOk st' ->
    later E st st' /\ forall off n, untouched off n op -> kept off n (odata st) (odata st').
Proof.
  intros U G OK W. destruct op as [e o t m|e o t n m|e o s|e o t|at_ t m|bs|n|t| |n|i b]; cbn [ostep op_ok untouched] in *.
  - destruct W as (W & P & V). destruct (valid_store nb t m W P V) as (m' & S & L & B).
    rewrite store_is, S.
    destruct (gstore_later E st (align_of t) (size_of t) m' (ref_new nb e o) U G OK (align_pow2 _ W) L B (ref_new_ub nb e o)) as [A K].
    destruct (gstore _ _ _ _ _ _) as [[s1 r]| | |]; cbn [zbind fst]; try (split; [congruence|discriminate]).
    split; [discriminate|]. intros st' X; inversion X; subst st'. destruct (K s1 r eq_refl) as (A1 & x & ->).
    split; auto. intros; apply kept_app.
  - destruct W as (W & P & V).
    destruct (valid_store nb (ZArray t n) m (wf_array _ _ W) (po_array _ _ P) V) as (m' & S & L & B).
    rewrite store_slice_is, S.
    destruct (gstore_later E st (align_of t) (N.of_nat n * size_of t) m' (fun off => ref_with_metadata nb e o off (N.of_nat n))
                U G OK (align_pow2 _ W) L B ltac:(intros; apply ref_meta_ub)) as [A K].
    destruct (gstore _ _ _ _ _ _) as [[s1 r]| | |]; cbn [zbind fst]; try (split; [congruence|discriminate]).
    split; [discriminate|]. intros st' X; inversion X; subst st'. destruct (K s1 r eq_refl) as (A1 & x & ->).
    split; auto. intros; apply kept_app.
  - destruct W as (B & _). rewrite store_str_is.
    destruct (gstore_later E st 1 (lenN s) s (fun off => ref_with_metadata nb e o off (lenN s))
                U G OK align_1 eq_refl B ltac:(intros; apply ref_meta_ub)) as [A K].
    destruct (gstore _ _ _ _ _ _) as [[s1 r]| | |]; cbn [zbind fst]; try (split; [congruence|discriminate]).
    split; [discriminate|]. intros st' X; inversion X; subst st'. destruct (K s1 r eq_refl) as (A1 & x & ->).
    split; auto. intros; apply kept_app.
  - rewrite store_uninit_is.
    destruct (gstore_later E st (align_of t) (size_of t) (zeros (size_of t)) (ref_new nb e o)
                U G OK (align_pow2 _ W) (zeros_len _) (bytes_ok_zeros _) (ref_new_ub nb e o)) as [A K].
    destruct (gstore _ _ _ _ _ _) as [[s1 r]| | |]; cbn [zbind fst]; try (split; [congruence|discriminate]).
    split; [discriminate|]. intros st' X; inversion X; subst st'. destruct (K s1 r eq_refl) as (A1 & x & ->).
    split; auto. intros; apply kept_app.
  - destruct W as (W & P & V). destruct (valid_store nb t m W P V) as (m' & S & L & B).
    unfold o_write_uninit, uadd. destruct (N.ltb_spec (at_ + size_of t) (2 ^ ubits E)); cbn [zbind]; [|split; discriminate].
    destruct (N.ltb_spec (lenN (odata st)) (at_ + size_of t)) as [T|T]; [split; discriminate|].
    rewrite S; cbn [zbind]. split; [discriminate|]. intros st' X; inversion X; subst st'; clear X.
    destruct OK as [I BD]. rewrite <- L in T. split.
    + constructor; cbn; auto; try lia. constructor; cbn; [|now apply bytes_ok_patch].
      apply set_data_inv; auto. rewrite patch_len; lia.
    + intros off k D Lk. cbn. rewrite patch_len by lia. split; auto.
      apply slice_patch_other; lia.
  - unfold o_extend. destruct OK as [I B].
    destruct (reserve_spec E st (lenN bs) U G (oinv_0 _ _ I)) as [A K].
    destruct (o_reserve E st (lenN bs)) as [s1| | |]; cbn [zbind]; try (split; [congruence|discriminate]).
    destruct (K s1 eq_refl) as (I1 & D1 & R1 & C1 & F1 & B1).
    destruct (push_ok s1 bs) as (s2 & P2); [rewrite D1; lia|]. rewrite P2.
    split; [discriminate|]. intros st' X; inversion X; subst st'; clear X.
    destruct (push_spec E s1 bs s2 I1) as (I2 & D2 & R2 & C2 & F2 & B2); [rewrite D1; lia|auto|].
    rewrite D2, D1. split; [|intros; apply kept_app].
    constructor; try congruence; [|lia|intros Z; rewrite B2; auto].
    constructor; auto. rewrite D2, D1, bytes_ok_app, B, W. auto.
  - destruct OK as [I B].
    destruct (reserve_spec E st n U G (oinv_0 _ _ I)) as [A K]. split; auto.
    intros st' X. destruct (K st' X) as (I1 & D1 & R1 & C1 & F1 & B1). rewrite D1.
    split; [|intros; apply kept_refl]. constructor; auto; [|lia]. constructor; auto. now rewrite D1.
  - destruct OK as [I B].
    destruct (next_spec E st (align_of t) (size_of t) U G I (align_pow2 _ W)) as [A K]. split; auto.
    intros st' X. destruct (K st' X) as (I1 & D1 & R1 & C1 & F1 & B1). rewrite D1.
    split; [|intros; apply kept_app]. constructor; auto; [|lia]. constructor; auto.
    now rewrite D1, bytes_ok_app, B, bytes_ok_zeros.
  - destruct OK as [I B]. destruct (align_spec E st U G I) as [A K]. split; auto.
    intros st' X. destruct (K st' X) as (I1 & D1 & R1 & C1 & F1 & B1). rewrite D1.
    split; [|intros; apply kept_refl]. constructor; auto; [|lia]. constructor; auto. now rewrite D1.
  - split; [discriminate|]. intros st' X; inversion X; subst st'; clear X. destruct OK as [I B].
    unfold o_truncate. destruct (N.ltb_spec n (lenN (odata st))) as [T|T].
    + split.
      * constructor; cbn; auto; try lia. constructor; cbn; [|now apply bytes_ok_firstn].
        apply set_data_inv; auto. rewrite lenN_firstn; lia.
      * intros off k D L. cbn. rewrite lenN_firstn by lia. split; [lia|]. now apply slice_truncate.
    + split; [|intros; apply kept_refl]. constructor; auto; try lia. constructor; auto.
  - destruct (N.ltb_spec i (lenN (odata st))) as [T|T]; [|split; discriminate].
    split; [discriminate|]. intros st' X; inversion X; subst st'; clear X. destruct OK as [I B].
    assert (B1 : bytes_ok [b] = true) by (rewrite bytes_ok_cons; unfold byte_ok; apply N.ltb_lt in W; now rewrite W).
    assert (L1 : lenN [b] = 1) by reflexivity.
    split.
    + constructor; cbn; auto; try lia. constructor; cbn; [|now apply bytes_ok_patch].
      apply set_data_inv; auto. rewrite patch_len; lia.
    + intros off k D L. cbn. rewrite patch_len by lia. split; auto.
      apply slice_patch_other; rewrite L1; lia.
Qed.

Lemma later_refl E st : okst E st -> later E st st.
Proof. intros. constructor; auto. lia. Qed.
Lemma later_trans E a b c : later E a b -> later E b c -> later E a c.
Proof.
  intros [? ? F B] [? ? F' B']. constructor; auto; try lia; try congruence.
  intros Z. rewrite B' by congruence. auto.
Qed.

Lemma run_spec E nb ops :
  0 < ubits E -> alloc_good E -> Forall (op_ok nb) ops -> forall st, okst E st ->
  orun E nb st ops <> ZUb /\
  forall st', orun E nb st ops = ZOk st' ->
    later E st st' /\ forall off n, Forall (untouched off n) ops -> kept off n (odata st) (odata st').
Proof.
  intros U G F. induction F as [|op ops W F IH]; intros st OK; cbn [orun].
  - split; [discriminate|]. intros st' X; inversion X; subst. split; [now apply later_refl|].
    intros; apply kept_refl.
  - destruct (step_spec E nb st op U G OK W) as [A K].
    destruct (ostep E nb st op) as [s1| | |]; cbn [zbind]; try (split; [congruence|discriminate]).
    destruct (K s1 eq_refl) as [L1 K1]. destruct (IH s1 (l_ok _ _ _ L1)) as [A2 K2]. split; auto.
    intros st' X. destruct (K2 st' X) as [L2 K3]. split; [eapply later_trans; eauto|].
    intros off n FU. inversion FU; subst. intros L. destruct (K1 off n ltac:(auto) L) as [La Ea].
    destruct (K3 off n ltac:(auto) La) as [Lb Eb]. split; auto. congruence.
Qed.

Lemma fresh_ok E st : 0 < ubits E -> alloc_good E -> fresh E st -> okst E st.
Proof.
  intros U G F. destruct F as [cap al st P W|base cap al P C].
  - unfold o_with in W. pose proof (pow2_pos _ P) as PP.
    assert (0 < 2 ^ ubits E) by (apply N.neq_0_lt_0, N.pow_nonzero; discriminate).
    destruct (N.eqb_spec cap 0) as [Z|Z].
    + inversion W; subst st. constructor; auto. constructor; cbn; auto; try lia; try discriminate.
      apply N.divide_refl.
    + destruct (layout_ok E cap al) eqn:L; [|discriminate]. unfold a_alloc in W.
      destruct (N.eqb_spec cap 0); [lia|]. cbn [ocnt] in W.
      destruct (ealloc E 0 cap al) eqn:A; cbn [zbind] in W; [|discriminate].
      inversion W; subst st. apply layout_lt in L; auto. apply G in A.
      constructor; auto. constructor; cbn; auto; try lia; try discriminate.
      intros _. destruct (N.eqb_spec cap 0); [lia|auto].
  - constructor; auto. constructor; cbn; auto; try lia; try discriminate.
    + apply align_1.
    + apply pow2_pos in P. lia.
    + exists base. lia.
Qed.

Lemma reach_ok E nb st : 0 < ubits E -> alloc_good E -> reach E nb st -> okst E st.
Proof.
  intros U G (st0 & ops & F & W & R). apply fresh_ok in F; auto.
  destruct (run_spec E nb ops U G W st0 F) as [_ K]. destruct (K st R) as [L _]. apply L.
Qed.

(** ** Loads *)

Definition load_at_ok (b : zbuf) (t : zty) (off : N) : Prop :=
  off + size_of t <= lenN (bdata b) /\ (align_of t | baddr b + off).

Lemma any_or_validate nb t addr s post :
  zwf t -> pk_ok t -> vpk_ok t -> (align_of t | addr) -> bytes_ok s = true -> lenN s = size_of t ->
  ((if any_bits t then ZOk tt else zvalidate nb t addr (s ++ post)) = ZOk tt /\ valid_pattern nb t s) \/
  ((if any_bits t then ZOk tt else zvalidate nb t addr (s ++ post)) = ZErr /\ ~ valid_pattern nb t s).
Proof.
  intros W P V A B L. destruct (any_bits t) eqn:Y.
  - left. split; auto. now apply any_bits_valid.
  - apply zvalidate_spec; auto. eapply N.divide_trans; [|exact A]. now apply valign_divide.
Qed.

Lemma load_sized_cases ub nb b t off :
  zwf t -> pk_ok t -> vpk_ok t -> bytes_ok (bdata b) = true -> off + size_of t < 2 ^ ub ->
  (load_sized ub nb b t off = ZOk (slice_at (bdata b) off (size_of t)) /\ load_at_ok b t off /\
     valid_pattern nb t (slice_at (bdata b) off (size_of t))) \/
  (load_sized ub nb b t off = ZErr /\
     ~ (load_at_ok b t off /\ valid_pattern nb t (slice_at (bdata b) off (size_of t)))).
Proof.
  intros W P V B O. unfold load_sized, load_at_ok. rewrite uadd_fits by auto. cbn [zbind].
  unfold b_get, b_get_unaligned.
  destruct (N.leb_spec off (off + size_of t)); [|lia]. cbn [andb].
  destruct (N.leb_spec (off + size_of t) (lenN (bdata b))) as [L|L]; cbn [zbind].
  2: { right. split; auto. intros ((X & _) & _). lia. }
  replace (off + size_of t - off) with (size_of t) by lia. fold (slice_at (bdata b) off (size_of t)).
  set (s := slice_at (bdata b) off (size_of t)).
  destruct (is_aligned_with (baddr b + off) (align_of t)) eqn:A; cbn [zbind].
  2: { right. split; auto. intros ((_ & X) & _). apply aligned_iff in X; [congruence|now apply align_pow2]. }
  apply aligned_iff in A; [|now apply align_pow2].
  assert (SB : bytes_ok s = true) by (apply bytes_ok_firstn, bytes_ok_skipn; auto).
  assert (SL : lenN s = size_of t) by (now apply slice_at_len).
  destruct (any_or_validate nb t (baddr b + off) s [] W P V A SB SL) as [[E VP]|[E VP]];
    rewrite app_nil_r in E; rewrite E; cbn [zbind]; [left|right]; split; auto.
  intros (_ & X). auto.
Qed.

Lemma load_slice_cases ub nb b t off n :
  zwf t -> pk_ok t -> vpk_ok t -> bytes_ok (bdata b) = true -> lenN (bdata b) < 2 ^ ub ->
  let s := slice_at (bdata b) off (N.of_nat n * size_of t) in
  let good := off <= lenN (bdata b) /\ off + N.of_nat n * size_of t <= lenN (bdata b) /\ (align_of t | baddr b + off) /\
     valid_pattern nb (ZArray t n) s in
  (load_slice ub nb b t off (N.of_nat n) = ZOk s /\ good) \/
  (load_slice ub nb b t off (N.of_nat n) = ZErr /\ ~ good).
Proof.
  intros W P V B U s good. unfold load_slice, b_get_from.
  destruct (N.ltb_spec (lenN (bdata b)) off) as [X|X]; cbn [zbind].
  { right. split; auto. unfold good. lia. }
  destruct (is_aligned_with (baddr b + off) (align_of t)) eqn:A; cbn [zbind].
  2: { right. split; auto. unfold good. intros (_ & _ & Y & _). apply aligned_iff in Y; [congruence|now apply align_pow2]. }
  apply aligned_iff in A; [|now apply align_pow2].
  destruct (N.leb_spec (2 ^ ub) (N.of_nat n * size_of t)) as [Q|Q].
  { right. split; auto. unfold good. lia. }
  rewrite lenN_skipn.
  destruct (N.ltb_spec (lenN (bdata b) - off) (N.of_nat n * size_of t)) as [Z|Z].
  { right. split; auto. unfold good. lia. }
  assert (SL : lenN s = N.of_nat n * size_of t) by (apply slice_at_len; lia).
  assert (SB : bytes_ok s = true) by (apply bytes_ok_firstn, bytes_ok_skipn; auto).
  assert (RS : skipn (N.to_nat off) (bdata b) = s ++ skipn (N.to_nat (off + N.of_nat n * size_of t)) (bdata b)).
  { unfold s, slice_at. rewrite <- (firstn_skipn (N.to_nat (N.of_nat n * size_of t)) (skipn (N.to_nat off) (bdata b))) at 1.
    f_equal. rewrite skipn_add. f_equal. lia. }
  assert (TK : forall R, take_opt (N.of_nat n * size_of t) (s ++ R) = Some (s, R))
    by (intros R; rewrite <- SL; apply take_opt_app).
  rewrite RS, TK, Nat2N.id.
  destruct (any_or_validate nb (ZArray t n) (baddr b + off) s
              (skipn (N.to_nat (off + N.of_nat n * size_of t)) (bdata b)))
    as [[E VP]|[E VP]]; auto; try (now constructor);
    cbn [any_bits] in E; rewrite E; cbn [zbind]; [left|right]; split; auto; unfold good.
  - repeat split; auto; lia.
  - intros (_ & _ & _ & Y). auto.
Qed.

Lemma load_str_cases b off len :
  let s := slice_at (bdata b) off len in
  let good := off + len <= lenN (bdata b) /\ utf8_valid s = true in
  (load_str b off len = ZOk s /\ good) \/ (load_str b off len = ZErr /\ ~ good).
Proof.
  intros s good. unfold load_str, b_get_from.
  destruct (N.ltb_spec (lenN (bdata b)) off) as [X|X]; cbn [zbind].
  { right. split; auto. unfold good. lia. }
  destruct (is_aligned_with (baddr b + off) 1) eqn:A; cbn [zbind].
  2: { exfalso. assert (Y : is_aligned_with (baddr b + off) 1 = true); [|congruence].
       apply aligned_iff; [apply align_1|]. exists (baddr b + off). lia. }
  rewrite lenN_skipn.
  destruct (N.ltb_spec (lenN (bdata b) - off) len) as [Z|Z].
  { right. split; auto. unfold good. lia. }
  rewrite take_opt_spec, lenN_skipn. destruct (N.leb_spec len (lenN (bdata b) - off)); [|lia].
  fold (slice_at (bdata b) off len). fold s.
  destruct (utf8_valid s) eqn:Y; [left|right]; split; auto; unfold good; [split; auto; lia|].
  intros [_ F]. congruence.
Qed.

(** The stores without any assumption on the memory stored. *)
Lemma gstore_layout {R} E st al size m (mk : N -> zres R) st' r :
  0 < ubits E -> alloc_good E -> oinv E st -> pow2 al -> gstore E st al size m mk = ZOk (st', r) ->
  exists m', m = ZOk m' /\
    let pad := padding_to (lenN (odata st)) al in
    odata st' = odata st ++ zeros pad ++ m' /\ mk (lenN (odata st) + pad) = ZOk r.
Proof.
  intros U G I P H. unfold gstore in H.
  destruct (next_spec E st al size U G I P) as [A B].
  apply zbind_ok in H as (s1 & N1 & H). destruct (B s1 N1) as (I1 & D1 & _).
  apply zbind_ok in H as (m' & -> & H). apply zbind_ok in H as (s2 & P2 & H).
  apply zbind_ok in H as (r' & MK & H). inversion H; subst s2 r'; clear H.
  exists m'. split; auto. cbv zeta. rewrite D1, lenN_app, zeros_len in MK. split; auto.
  unfold o_push in P2. destruct (_ <=? _); [|discriminate]. inversion P2; subst st'. cbn [odata].
  now rewrite D1, <- app_assoc.
Qed.

(** When the stores succeed. *)
Definition room (E : zenv) (st : obuf) (al size : N) : Prop :=
  let want := N.max (lenN (odata st) + padding_to (lenN (odata st)) al + size) (N.max (oreq st) al) in
  if ofixed st then want <= ocap st
  else layout_ok E (N.max want (egrow E (ocap st))) (N.max (oreq st) al) = true.

Lemma next_total E st al size :
  0 < ubits E -> alloc_good E -> (forall n s a, ealloc E n s a <> None) -> oinv E st -> pow2 al ->
  room E st al size -> exists st', o_next E st al size = ZOk st'.
Proof.
  intros U G AL I P R. unfold o_next. cbn [odata set_req]. unfold room in R.
  set (x := padding_to (lenN (odata st)) al) in *. set (rq := N.max (oreq st) al) in *.
  set (want := N.max (lenN (odata st) + x + size) rq) in *.
  assert (WB : want < 2 ^ ubits E).
  { destruct (ofixed st) eqn:F.
    - pose proof (i_cap _ _ I). lia.
    - apply layout_lt in R; auto. lia. }
  rewrite uadd_fits by lia. cbn [zbind]. unfold o_reserve. cbn [odata set_req].
  rewrite uadd_fits by lia. cbn [zbind].
  assert (EN : exists s1, o_ensure E (set_req st rq) (lenN (odata st) + (x + size)) = ZOk s1).
  { unfold o_ensure. cbn [oreq set_req ocap ofixed oal].
    replace (N.max (lenN (odata st) + (x + size)) rq) with want by (unfold want; f_equal; lia).
    destruct (N.leb_spec want (ocap st)); [eauto|].
    destruct (ofixed st) eqn:F; [lia|]. rewrite R.
    pose proof (pow2_pos _ (i_req _ _ I)) as RP.
    assert (W0 : (N.max want (egrow E (ocap st)) =? 0) = false) by (apply N.eqb_neq; lia).
    pose proof (i_live _ _ I F) as LV.
    destruct (N.eqb_spec (ocap st) 0) as [Z|Z].
    - unfold o_alloc_init, a_alloc. rewrite W0. cbn [ocnt set_req oreq].
      destruct (ealloc E (ocnt st) _ rq) eqn:A; [|now apply AL in A]. cbn [zbind]. eauto.
    - destruct (N.eqb_spec rq (oal st)) as [Q|Q].
      + unfold o_realloc, a_dealloc. cbn [olive set_req oal ocap]. rewrite LV, !N.eqb_refl. cbn [andb zbind].
        unfold a_alloc. rewrite W0. cbn [ocnt set_req].
        destruct (ealloc E (ocnt st) _ (oal st)) eqn:A; [|now apply AL in A]. cbn [zbind]. eauto.
      + unfold o_alloc_new, a_alloc. rewrite W0. cbn [ocnt set_req oreq odata].
        destruct (ealloc E (ocnt st) _ rq) eqn:A; [|now apply AL in A]. cbn [zbind].
        pose proof (i_len _ _ I) as IL.
        match goal with |- context [?a <? ?b] => destruct (N.ltb_spec a b); [lia|] end.
        unfold a_dealloc. cbn [olive set_req oal ocap]. rewrite LV, !N.eqb_refl. cbn [andb zbind]. eauto. }
  destruct EN as (s1 & EN). rewrite EN. cbn [zbind].
  destruct (ensure_spec E (set_req st rq) (lenN (odata st) + (x + size)) U G (set_req_inv0 E st al I P)) as [_ K].
  destruct (K s1 EN) as (I1 & D1 & R1 & C1 & _). cbn [odata set_req] in D1.
  apply push_ok. rewrite D1, zeros_len. lia.
Qed.

Lemma gstore_total {R} E st al size m (mk : N -> zres R) r :
  0 < ubits E -> alloc_good E -> (forall n s a, ealloc E n s a <> None) -> oinv E st -> pow2 al ->
  room E st al size -> lenN m = size -> mk (lenN (odata st) + padding_to (lenN (odata st)) al) = ZOk r ->
  exists st', gstore E st al size (ZOk m) mk = ZOk (st', r).
Proof.
  intros U G AL I P RM L MK. destruct (next_total E st al size U G AL I P RM) as (s1 & N1).
  destruct (next_spec E st al size U G I P) as [_ B]. destruct (B s1 N1) as (I1 & D1 & R1 & C1 & _).
  unfold gstore. rewrite N1. cbn [zbind]. destruct (push_ok s1 m) as (s2 & P2); [lia|].
  rewrite P2. cbn [zbind]. rewrite D1, lenN_app, zeros_len, MK. cbn [zbind]. eauto.
Qed.
