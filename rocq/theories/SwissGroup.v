(** Facts about the group implementations of [Swiss.v]. *)
From Verif Require Import Base Options Int BaseFacts IntFacts Zc ZcBuf SipFacts Swiss.
Local Open Scope N_scope.

Lemma bok_cons b bs : bytes_ok (b :: bs) = true <-> b < 256 /\ bytes_ok bs = true.
Proof. rewrite bytes_ok_cons, andb_true_iff. unfold byte_ok. rewrite N.ltb_lt. tauto. Qed.

(** ** Bits *)
Lemma ptz_spec p : N.testbit (Npos p) (ptz p) = true /\ forall j, j < ptz p -> N.testbit (Npos p) j = false.
Proof.
  induction p as [p IH|p IH|].
  - split; [reflexivity|]. cbn. lia.
  - cbn [ptz]. destruct IH as [H1 H2]. change (N.pos p~0) with (2 * N.pos p). split.
    + replace (1 + ptz p) with (N.succ (ptz p)) by lia. rewrite N.testbit_even_succ by lia. auto.
    + intros j J. destruct (N.eq_dec j 0) as [->|E]; [apply N.testbit_even_0|].
      replace j with (N.succ (N.pred j)) by lia. rewrite N.testbit_even_succ by lia. apply H2. lia.
  - split; [reflexivity|]. cbn. lia.
Qed.
Lemma ctz_spec m : m <> 0 -> N.testbit m (ctz m) = true /\ forall j, j < ctz m -> N.testbit m j = false.
Proof. destruct m; [congruence|]. intros _. apply ptz_spec. Qed.
Lemma testbit_zero m : (forall j, N.testbit m j = false) -> m = 0.
Proof. intros H. apply N.bits_inj. intros j. rewrite H, N.bits_0. auto. Qed.
Lemma testbit_nz m j : N.testbit m j = true -> m <> 0.
Proof. intros H ->. rewrite N.bits_0 in H. congruence. Qed.

(** [m - 1] inverts the bits up to the lowest one *)
Lemma pred_bits m : m <> 0 -> forall j,
  N.testbit (m - 1) j = if j <? ctz m then true else if j =? ctz m then false else N.testbit m j.
Proof.
  destruct m as [|p]; [congruence|]. intros _. cbn [ctz].
  induction p as [p IH|p IH|]; intros j.
  - change (N.pos p~1) with (2 * N.pos p + 1). replace (2 * N.pos p + 1 - 1) with (2 * N.pos p) by lia. cbn [ptz].
    destruct (N.eq_dec j 0) as [->|E]; [rewrite N.testbit_even_0; reflexivity|].
    replace (j <? 0) with false by (symmetry; apply N.ltb_ge; lia).
    replace (j =? 0) with false by (symmetry; apply N.eqb_neq; lia).
    replace j with (N.succ (N.pred j)) by lia. rewrite N.testbit_even_succ, N.testbit_odd_succ by lia. auto.
  - cbn [ptz]. change (N.pos p~0) with (2 * N.pos p).
    replace (2 * N.pos p - 1) with (2 * (N.pos p - 1) + 1) by lia.
    destruct (N.eq_dec j 0) as [->|E].
    { rewrite N.testbit_odd_0. replace (0 <? 1 + ptz p) with true by (symmetry; apply N.ltb_lt; lia). auto. }
    replace j with (N.succ (N.pred j)) by lia. rewrite N.testbit_even_succ, N.testbit_odd_succ by lia. rewrite IH.
    set (q := N.pred j).
    replace (N.succ q <? 1 + ptz p) with (q <? ptz p).
    2:{ destruct (N.ltb_spec q (ptz p)); symmetry; [apply N.ltb_lt|apply N.ltb_ge]; lia. }
    replace (N.succ q =? 1 + ptz p) with (q =? ptz p); auto.
    destruct (N.eqb_spec q (ptz p)); symmetry; [apply N.eqb_eq|apply N.eqb_neq]; lia.
  - change (1 - 1) with 0. cbn [ptz]. rewrite N.bits_0.
    replace (j <? 0) with false by (symmetry; apply N.ltb_ge; lia).
    destruct (N.eqb_spec j 0) as [->|E]; auto.
    destruct j; [congruence|]. reflexivity.
Qed.
Lemma remove_bits m : m <> 0 -> forall j,
  N.testbit (remove_lowest_bit m) j = negb (j =? ctz m) && N.testbit m j.
Proof.
  intros M j. unfold remove_lowest_bit. rewrite N.land_spec, pred_bits by auto.
  destruct (ctz_spec m M) as [H1 H2].
  destruct (N.ltb_spec j (ctz m)).
  - rewrite (H2 j) by auto. destruct (j =? ctz m); auto.
  - destruct (N.eqb_spec j (ctz m)).
    + subst. rewrite H1. auto.
    + cbn. destruct (N.testbit m j); auto.
Qed.

Lemma mul_stride s c i j : c < s -> s * i + c = s * j + c -> i = j.
Proof. intros H E. apply (N.mul_cancel_l i j s); lia. Qed.
Lemma div_stride s c i : c < s -> (s * i + c) / s = i.
Proof. intros H. symmetry. apply (N.div_unique _ _ _ c); lia. Qed.

Lemma bm_iter_spec s c : c < s -> forall fuel m k,
  (forall j, N.testbit m j = true -> exists i, j = s * i + c /\ k <= i < k + N.of_nat fuel) ->
  forall i, In i (bm_iter fuel s m) <-> N.testbit m (s * i + c) = true.
Proof.
  intros Hc. induction fuel as [|fuel IH]; intros m k H i.
  - cbn. split; [tauto|]. intros T. destruct (H _ T) as (? & ? & ?). lia.
  - cbn [bm_iter]. unfold lowest_set_bit. destruct (N.eqb_spec m 0) as [->|M].
    + rewrite N.bits_0. cbn. intuition congruence.
    + destruct (ctz_spec m M) as [H1 H2]. destruct (H _ H1) as (i0 & E0 & R0).
      rewrite E0, div_stride by auto. cbn [In].
      rewrite (IH (remove_lowest_bit m) (k + 1)).
      * rewrite remove_bits by auto. split.
        -- intros [<-|T]; [congruence|]. apply andb_true_iff in T. tauto.
        -- intros T. destruct (N.eq_dec i0 i) as [|D]; [auto|right]. rewrite T, andb_true_r, negb_true_iff, N.eqb_neq, E0.
           intros X. apply mul_stride in X; auto.
      * intros j. rewrite remove_bits, andb_true_iff, negb_true_iff, N.eqb_neq by auto. intros [D T].
        destruct (H _ T) as (i1 & E1 & R1). exists i1. split; auto.
        assert (i0 < i1 \/ i1 <= i0) as [L|L] by lia; [lia|].
        exfalso. destruct (N.eq_dec i1 i0) as [->|D']; [congruence|].
        assert (j < ctz m). { rewrite E0, E1. assert (s * i1 < s * i0) by (apply N.mul_lt_mono_pos_l; lia). lia. }
        rewrite H2 in T by auto. congruence.
Qed.

(** Whatever the mask, the iterator's elements are bits' elements. *)
Lemma bm_iter_sound s : forall fuel m i, In i (bm_iter fuel s m) -> exists j, N.testbit m j = true /\ i = j / s.
Proof.
  induction fuel as [|fuel IH]; intros m i I; [destruct I|].
  cbn [bm_iter] in I. unfold lowest_set_bit in I. destruct (N.eqb_spec m 0) as [->|M]; [destruct I|].
  destruct (ctz_spec m M) as [H1 H2].
  destruct I as [<-|I]; [eauto|]. apply IH in I as (j & T & ->). rewrite remove_bits in T by auto.
  apply andb_true_iff in T. exists j. tauto.
Qed.

Lemma lowest_none s m : lowest_set_bit s m = None <-> m = 0.
Proof. unfold lowest_set_bit. destruct (N.eqb_spec m 0); split; congruence. Qed.
Lemma lowest_some s m i : lowest_set_bit s m = Some i ->
  exists j, N.testbit m j = true /\ i = j / s /\ forall j', N.testbit m j' = true -> j <= j'.
Proof.
  unfold lowest_set_bit. destruct (N.eqb_spec m 0) as [|M]; [congruence|]. intros E. inversion E.
  destruct (ctz_spec m M) as [H1 H2]. exists (ctz m). split; [auto|split; auto].
  intros j' T. destruct (N.lt_ge_cases j' (ctz m)) as [L|L]; auto. rewrite H2 in T by auto. congruence.
Qed.

(** ** Words as lists of bytes *)
Lemma split8 j : exists i r, j = 8 * i + r /\ r < 8.
Proof. exists (j / 8), (j mod 8). split; [apply N.div_mod; lia|apply N.mod_lt; lia]. Qed.

Lemma testbit_low a A j : a < 256 -> j < 8 -> N.testbit (a + 256 * A) j = N.testbit a j.
Proof.
  intros Ha Hj. replace (a + 256 * A) with (a + A * 2 ^ 8) by (change (2 ^ 8) with 256; lia).
  rewrite <- (N.mod_pow2_bits_low (a + A * 2 ^ 8) 8 j) by auto.
  rewrite N.mod_add by (change (2 ^ 8) with 256; lia). rewrite N.mod_small; auto.
Qed.
Lemma testbit_high a A j : a < 256 -> N.testbit (a + 256 * A) (8 + j) = N.testbit A j.
Proof.
  intros Ha. rewrite N.add_comm with (n := 8). rewrite <- N.div_pow2_bits. change (2 ^ 8) with 256.
  rewrite (N.mul_comm 256), N.div_add by lia. rewrite N.div_small by auto. auto.
Qed.
Lemma byte_high b j : b < 256 -> 8 <= j -> N.testbit b j = false.
Proof.
  intros Hb Hj. destruct (N.eq_dec b 0) as [->|E]; [apply N.bits_0|]. apply N.bits_above_log2.
  apply N.lt_le_trans with 8; auto. apply N.log2_lt_pow2; lia.
Qed.

Lemma testbit_of_le : forall bs i r, bytes_ok bs = true -> r < 8 ->
  N.testbit (of_le bs) (8 * i + r) = N.testbit (nth (N.to_nat i) bs 0) r.
Proof.
  induction bs as [|b bs IH]; intros i r Ok R.
  - cbn [of_le]. rewrite N.bits_0. destruct (N.to_nat i); cbn [nth]; rewrite N.bits_0; auto.
  - rewrite bok_cons in Ok. destruct Ok as [Hb Ok]. cbn [of_le].
    destruct (N.eq_dec i 0) as [->|E].
    + replace (8 * 0 + r) with r by lia. rewrite testbit_low by auto. reflexivity.
    + replace (8 * i + r) with (8 + (8 * (i - 1) + r)) by lia. rewrite testbit_high, IH by auto.
      replace (N.to_nat i) with (S (N.to_nat (i - 1))) by lia. reflexivity.
Qed.

Fixpoint map2 (f : N -> N -> N) (a b : bytes) : bytes :=
  match a, b with x :: a, y :: b => f x y :: map2 f a b | _, _ => [] end.
Lemma map2_len f : forall a b, length a = length b -> length (map2 f a b) = length a.
Proof. induction a as [|x a IH]; intros [|y b] L; cbn in *; try congruence. rewrite IH; lia. Qed.

Lemma bitop_step (op : N -> N -> N) (bop : bool -> bool -> bool)
  (S1 : forall a b j, N.testbit (op a b) j = bop (N.testbit a j) (N.testbit b j)) (S2 : bop false false = false) :
  forall a b A B, a < 256 -> b < 256 -> op (a + 256 * A) (b + 256 * B) = op a b + 256 * op A B /\ op a b < 256.
Proof.
  intros a b A B Ha Hb.
  assert (L : op a b < 256).
  { destruct (N.eq_dec (op a b) 0) as [->|E]; [lia|]. change 256 with (2 ^ 8). apply N.log2_lt_pow2; [lia|].
    destruct (N.lt_ge_cases (N.log2 (op a b)) 8) as [|G]; auto.
    pose proof (N.bit_log2 _ E) as X. rewrite S1, !byte_high in X by auto. congruence. }
  split; auto. apply N.bits_inj. intros j. rewrite S1.
  destruct (N.lt_ge_cases j 8) as [J|J].
  - rewrite !testbit_low by auto. rewrite S1. auto.
  - replace j with (8 + (j - 8)) by lia. rewrite !testbit_high by auto. rewrite S1. auto.
Qed.
Lemma land_step a b A B : a < 256 -> b < 256 -> N.land (a + 256 * A) (b + 256 * B) = N.land a b + 256 * N.land A B /\ N.land a b < 256.
Proof. apply (bitop_step N.land andb); auto using N.land_spec. Qed.
Lemma lxor_step a b A B : a < 256 -> b < 256 -> N.lxor (a + 256 * A) (b + 256 * B) = N.lxor a b + 256 * N.lxor A B /\ N.lxor a b < 256.
Proof. apply (bitop_step N.lxor xorb); auto using N.lxor_spec. Qed.

Lemma land_of_le : forall a b, length a = length b -> bytes_ok a = true -> bytes_ok b = true ->
  N.land (of_le a) (of_le b) = of_le (map2 N.land a b) /\ bytes_ok (map2 N.land a b) = true.
Proof.
  induction a as [|x a IH]; intros [|y b] L Ha Hb; try discriminate; [auto|].
  rewrite bok_cons in Ha, Hb. destruct Ha as [Hx Ha], Hb as [Hy Hb]. cbn [of_le map2].
  injection L as L.
  destruct (land_step x y (of_le a) (of_le b) Hx Hy) as [E R]. rewrite E, bok_cons.
  destruct (IH b L Ha Hb) as [-> O]. auto.
Qed.
Lemma lxor_of_le : forall a b, length a = length b -> bytes_ok a = true -> bytes_ok b = true ->
  N.lxor (of_le a) (of_le b) = of_le (map2 N.lxor a b) /\ bytes_ok (map2 N.lxor a b) = true.
Proof.
  induction a as [|x a IH]; intros [|y b] L Ha Hb; try discriminate; [auto|].
  rewrite bok_cons in Ha, Hb. destruct Ha as [Hx Ha], Hb as [Hy Hb]. cbn [of_le map2].
  injection L as L. destruct (lxor_step x y (of_le a) (of_le b) Hx Hy) as [E R]. rewrite E, bok_cons.
  destruct (IH b L Ha Hb) as [-> O]. auto.
Qed.
Lemma bytes_ok_repeat b n : b < 256 -> bytes_ok (List.repeat b n) = true.
Proof. intros Hb. induction n as [|n IH]; [auto|]. cbn [repeat]. rewrite bok_cons. auto. Qed.
Lemma map2_repeat f b : forall l, map2 f l (List.repeat b (length l)) = map (fun x => f x b) l.
Proof. induction l as [|x l IH]; cbn; [auto|]. rewrite IH. auto. Qed.

(** [x & repeat(b)] *)
Lemma land_grepeat l b : bytes_ok l = true -> b < 256 ->
  N.land (of_le l) (grepeat (length l) b) = of_le (map (fun x => N.land x b) l)
  /\ bytes_ok (map (fun x => N.land x b) l) = true.
Proof.
  intros Ol Hb. unfold grepeat. rewrite <- map2_repeat. apply land_of_le; auto using bytes_ok_repeat.
  rewrite repeat_length. auto.
Qed.
Lemma lxor_grepeat l b : bytes_ok l = true -> b < 256 ->
  N.lxor (of_le l) (grepeat (length l) b) = of_le (map (fun x => N.lxor x b) l)
  /\ bytes_ok (map (fun x => N.lxor x b) l) = true.
Proof.
  intros Ol Hb. unfold grepeat. rewrite <- map2_repeat. apply lxor_of_le; auto using bytes_ok_repeat.
  rewrite repeat_length. auto.
Qed.
Lemma swap_of_le w l : length l = w -> bytes_ok l = true -> swap_bytes w (of_le l) = of_le (rev l).
Proof. intros <- Ol. unfold swap_bytes. rewrite to_le_of_le by auto. auto. Qed.
Lemma ones_of_le n : N.ones (8 * N.of_nat n) = of_le (List.repeat 255 n).
Proof.
  induction n as [|n IH]; [reflexivity|]. cbn [repeat of_le]. rewrite <- IH.
  rewrite !N.ones_equiv. rewrite <- !N.sub_1_r.
  replace (8 * N.of_nat (S n)) with (8 + 8 * N.of_nat n) by lia. rewrite N.pow_add_r. change (2 ^ 8) with 256.
  assert (0 < 2 ^ (8 * N.of_nat n)) by (apply N.neq_0_lt_0, N.pow_nonzero; lia). lia.
Qed.
Lemma wnot_of_le l : bytes_ok l = true -> wnot (length l) (of_le l) = of_le (map (fun x => N.lxor x 255) l)
  /\ bytes_ok (map (fun x => N.lxor x 255) l) = true.
Proof. intros Ol. unfold wnot. rewrite ones_of_le. apply (lxor_grepeat l 255); auto. lia. Qed.

(** ** Subtracting 1 from every byte *)
Fixpoint bsub (br : N) (cs : bytes) : bytes :=
  match cs with
  | [] => []
  | c :: cs => (c + 255 - br) mod 256 :: bsub (if c <? 1 + br then 1 else 0) cs
  end.
Lemma grepeat1_lt n : grepeat n 1 < 2 ^ (8 * N.of_nat n).
Proof.
  unfold grepeat. rewrite <- pow256. pose proof (of_le_lt (List.repeat 1 n)) as H.
  unfold lenN in H. rewrite repeat_length in H. apply H, bytes_ok_repeat. lia.
Qed.
Lemma wsub_of_le : forall cs br, bytes_ok cs = true -> br <= 1 ->
  wsub (length cs) (of_le cs) (grepeat (length cs) 1 + br) = of_le (bsub br cs).
Proof.
  induction cs as [|c cs IH]; intros br Ok Hbr.
  - cbn [length of_le bsub]. unfold wsub, grepeat. cbn [repeat of_le]. change (2 ^ (8 * N.of_nat 0)) with 1. apply N.mod_1_r.
  - apply bok_cons in Ok as [Hc Ok]. cbn [of_le bsub].
    rewrite <- IH by (auto; destruct (c <? 1 + br); lia).
    unfold wsub. set (n := length cs). pose proof (grepeat1_lt n) as L.
    replace (length (c :: cs)) with (S n) by reflexivity.
    change (grepeat (S n) 1) with (1 + 256 * grepeat n 1).
    replace (8 * N.of_nat (S n)) with (8 + 8 * N.of_nat n) by lia. rewrite N.pow_add_r. change (2 ^ 8) with 256.
    set (P := 2 ^ (8 * N.of_nat n)) in *. set (R := grepeat n 1) in *. set (A := of_le cs).
    rewrite N.mod_mul_r by lia.
    destruct (N.ltb_spec c (1 + br)) as [B|B].
    + replace (c + 256 * A + 256 * P - (1 + 256 * R + br)) with (c + 255 - br + (A + P - (R + 1)) * 256) by lia.
      rewrite N.mod_add, N.div_add by lia. rewrite (N.div_small (c + 255 - br)) by lia. rewrite N.add_0_l. auto.
    + replace (c + 256 * A + 256 * P - (1 + 256 * R + br)) with (c - 1 - br + (A + P - (R + 0)) * 256) by lia.
      rewrite N.mod_add, N.div_add by lia. rewrite (N.div_small (c - 1 - br)) by lia. rewrite N.add_0_l.
      f_equal. replace (c + 255 - br) with (c - 1 - br + 1 * 256) by lia. rewrite N.mod_add by lia. auto.
Qed.
Lemma bsub_len : forall cs br, length (bsub br cs) = length cs.
Proof. induction cs as [|c cs IH]; intros br; cbn; auto. Qed.
Lemma bsub_ok : forall cs br, bytes_ok (bsub br cs) = true.
Proof. induction cs as [|c cs IH]; intros br; [auto|]. cbn [bsub]. apply bok_cons. split; auto. apply N.mod_lt. lia. Qed.

Definition zmatch (c m : N) := (m = 0 \/ m = 128) /\ (c = 0 -> m = 128) /\ (m = 128 -> c < 128).
Definition mbyte (br c : N) : N := N.land (N.land ((c + 255 - br) mod 256) (N.lxor c 255)) 128.
Definition zmatchb (br c : N) : bool :=
  let m := mbyte br c in
  ((m =? 0) || (m =? 128)) && (negb (c =? 0) || (m =? 128)) && (negb (m =? 128) || (c <? 128)).
Lemma zmatchb_ok br c : zmatchb br c = true -> zmatch c (mbyte br c).
Proof.
  unfold zmatchb, zmatch. cbv zeta. rewrite !andb_true_iff, !orb_true_iff, !negb_true_iff, !N.eqb_eq, !N.eqb_neq, N.ltb_lt.
  intuition.
Qed.
Lemma mbyte_ok br c : br <= 1 -> c < 256 -> zmatch c (mbyte br c).
Proof.
  intros Hb Hc. apply zmatchb_ok. assert (br = 0 \/ br = 1) as [->| ->] by lia.
  - revert c Hc. apply byte_sweep. vm_compute. reflexivity.
  - revert c Hc. apply byte_sweep. vm_compute. reflexivity.
Qed.
Fixpoint mbytes (br : N) (cs : bytes) : bytes :=
  match cs with [] => [] | c :: cs => mbyte br c :: mbytes (if c <? 1 + br then 1 else 0) cs end.
Lemma mbytes_match : forall cs br, br <= 1 -> bytes_ok cs = true -> Forall2 zmatch cs (mbytes br cs).
Proof.
  induction cs as [|c cs IH]; intros br Hb Ok; [constructor|]. apply bok_cons in Ok as [Hc Ok]. cbn [mbytes].
  constructor; [apply mbyte_ok; auto|]. apply IH; auto. destruct (c <? 1 + br); lia.
Qed.
Lemma mbytes_map2 : forall cs br, map (fun x => N.land x 128) (map2 N.land (bsub br cs) (map (fun x => N.lxor x 255) cs)) = mbytes br cs.
Proof. induction cs as [|c cs IH]; intros br; [auto|]. cbn [bsub map map2 mbytes]. rewrite IH. reflexivity. Qed.

Lemma zero_bytes cs : bytes_ok cs = true ->
  N.land (N.land (wsub (length cs) (of_le cs) (grepeat (length cs) 1)) (wnot (length cs) (of_le cs))) (grepeat (length cs) 128)
  = of_le (mbytes 0 cs).
Proof.
  intros Ok. pose proof (wsub_of_le cs 0 Ok ltac:(lia)) as E1. rewrite N.add_0_r in E1. rewrite E1.
  destruct (wnot_of_le cs Ok) as [-> O2].
  assert (L : length (bsub 0 cs) = length (map (fun x => N.lxor x 255) cs)) by (rewrite map_length, bsub_len; auto).
  destruct (land_of_le _ _ L (bsub_ok cs 0) O2) as [-> O3].
  set (l := map2 _ _ _) in *. assert (Ll : length l = length cs) by (subst l; rewrite map2_len, bsub_len; auto).
  rewrite <- Ll. destruct (land_grepeat l 128 O3 ltac:(lia)) as [-> _]. subst l. rewrite mbytes_map2. auto.
Qed.

Lemma Forall2_rev {A B} (R : A -> B -> Prop) : forall l m, Forall2 R l m -> Forall2 R (rev l) (rev m).
Proof. induction 1; cbn; [constructor|]. apply Forall2_app; auto. Qed.
Lemma Forall2_length {A B} (R : A -> B -> Prop) l m : Forall2 R l m -> length l = length m.
Proof. induction 1; cbn; auto. Qed.
Lemma Forall2_impl {A B} (R S0 : A -> B -> Prop) : (forall a b, R a b -> S0 a b) -> forall l m, Forall2 R l m -> Forall2 S0 l m.
Proof. intros H l m. induction 1; constructor; auto. Qed.
Lemma Forall2_nth {A B} (R : A -> B -> Prop) : forall l m, Forall2 R l m -> forall i,
  match nth_error l i, nth_error m i with Some x, Some y => R x y | None, None => True | _, _ => False end.
Proof. induction 1; intros [|i]; cbn; auto. apply IHForall2. Qed.
Lemma map_Forall2 {A B} (f : A -> B) l : Forall2 (fun x y => y = f x) l (map f l).
Proof. induction l; constructor; auto. Qed.
Lemma Forall2_impl2 {A B} (P : A -> Prop) (R S0 : A -> B -> Prop) : (forall a b, P a -> R a b -> S0 a b) ->
  forall l m, Forall P l -> Forall2 R l m -> Forall2 S0 l m.
Proof. intros H l m F F2. induction F2; inversion F; constructor; auto. Qed.

(** ** Masks of words *)
Lemma bit128 r : r < 8 -> N.testbit 128 r = (r =? 7).
Proof.
  intros R. assert (r = 0 \/ r = 1 \/ r = 2 \/ r = 3 \/ r = 4 \/ r = 5 \/ r = 6 \/ r = 7) as H by lia.
  repeat destruct H as [->|H]; try reflexivity. subst. reflexivity.
Qed.
Definition ebyte (b : N) : N := if N.testbit b 7 && N.testbit b 6 then 128 else 0.
Lemma ebyte_ok l : bytes_ok (map ebyte l) = true.
Proof. induction l as [|x l IH]; [auto|]. cbn [map]. apply bok_cons. split; auto. unfold ebyte. destruct (_ && _); lia. Qed.
Lemma nth_repeat0 (b : N) n : forall i, nth i (List.repeat b n) 0 = if (i <? n)%nat then b else 0.
Proof. induction n as [|n IH]; intros [|i]; cbn [repeat nth]; auto. rewrite IH. reflexivity. Qed.
Lemma bits_word a b : (forall i r, r < 8 -> N.testbit a (8 * i + r) = N.testbit b (8 * i + r)) -> a = b.
Proof. intros H. apply N.bits_inj. intros j. destruct (split8 j) as (i & r & -> & R). auto. Qed.
Lemma empty_bytes l : bytes_ok l = true ->
  N.land (N.land (of_le l) (wshl1 (length l) (of_le l))) (grepeat (length l) 128) = of_le (map ebyte l).
Proof.
  intros Ok. apply bits_word. intros i r R. rewrite !N.land_spec. unfold grepeat.
  rewrite (testbit_of_le (List.repeat 128 (length l))) by (auto; apply bytes_ok_repeat; lia).
  rewrite (testbit_of_le (map ebyte l)) by (auto using ebyte_ok).
  rewrite nth_repeat0. change 0 with (ebyte 0) at 2. rewrite map_nth.
  destruct (Nat.ltb_spec (N.to_nat i) (length l)) as [Li|Li].
  - rewrite bit128 by auto. unfold ebyte. destruct (N.eqb_spec r 7) as [->|E].
    + rewrite andb_true_r. unfold wshl1. rewrite N.mod_pow2_bits_low by lia.
      rewrite N.shiftl_spec_high' by lia. replace (8 * i + 7 - 1) with (8 * i + 6) by lia.
      rewrite !testbit_of_le by (auto; lia). destruct (_ && _); reflexivity.
    + rewrite andb_false_r. destruct (_ && _); [rewrite bit128 by auto|rewrite N.bits_0; auto].
      symmetry. apply N.eqb_neq. auto.
  - rewrite N.bits_0, andb_false_r. rewrite (nth_overflow l) by auto. change (ebyte 0) with 0. rewrite N.bits_0. auto.
Qed.

Lemma nth_some (l : bytes) i : N.testbit (nth i l 0) 7 = true -> nth_error l i = Some (nth i l 0).
Proof.
  intros H. apply nth_error_nth'. destruct (Nat.lt_ge_cases i (length l)) as [|G]; auto.
  rewrite nth_overflow in H by auto. rewrite N.bits_0 in H. congruence.
Qed.
Lemma nth_some0 (l : bytes) i r : N.testbit (nth i l 0) r = true -> nth_error l i = Some (nth i l 0).
Proof.
  intros H. apply nth_error_nth'. destruct (Nat.lt_ge_cases i (length l)) as [|G]; auto.
  rewrite nth_overflow in H by auto. rewrite N.bits_0 in H. congruence.
Qed.
Definition mark (m : N) := m = 0 \/ m = 128.
Lemma mark_ok ms : Forall mark ms -> bytes_ok ms = true.
Proof. induction 1 as [|x l H ? IH]; [auto|]. apply bok_cons. split; auto. destruct H; subst; lia. Qed.
Lemma mark_nth ms i : Forall mark ms -> mark (nth i ms 0).
Proof. intros F. revert i. induction F as [|x l H ? IH]; intros [|i]; cbn; auto; left; auto. Qed.
Lemma bits8 ms i : Forall mark ms -> In i (bm_iter (length ms) 8 (of_le ms)) <-> nth_error ms (N.to_nat i) = Some 128.
Proof.
  intros F. pose proof (mark_ok ms F) as Ok. rewrite (bm_iter_spec 8 7 ltac:(lia) (length ms) (of_le ms) 0).
  - rewrite testbit_of_le by (auto; lia). split.
    + intros T. pose proof (nth_some0 _ _ _ T) as E. rewrite E. destruct (mark_nth ms (N.to_nat i) F) as [Z|Z]; rewrite Z in *; auto.
      discriminate.
    + intros E. rewrite (nth_error_nth _ _ _ E). reflexivity.
  - intros j T. destruct (split8 j) as (k & r & -> & R). rewrite testbit_of_le in T by auto.
    pose proof (nth_some0 _ _ _ T) as E. exists k. split.
    + destruct (mark_nth ms (N.to_nat k) F) as [Z|Z]; rewrite Z in T; [rewrite N.bits_0 in T; discriminate|].
      rewrite bit128, N.eqb_eq in T by auto. subst. auto.
    + assert (nth_error ms (N.to_nat k) <> None) as X by congruence. apply nth_error_Some in X. lia.
Qed.
Lemma word_zero l : bytes_ok l = true -> of_le l = 0 <-> Forall (fun x => x = 0) l.
Proof.
  intros _. induction l as [|x l IH]; cbn [of_le]; [split; auto|]. split.
  - intros E. constructor; [lia|]. apply IH. lia.
  - inversion 1; subst. rewrite (proj2 IH) by auto. lia.
Qed.
Lemma nonzero_bit b : b <> 0 -> b < 256 -> exists r, r < 8 /\ N.testbit b r = true.
Proof.
  intros E H. exists (N.log2 b). split; [apply N.log2_lt_pow2; lia|apply N.bit_log2; auto].
Qed.
Lemma lowest8 ms i : bytes_ok ms = true -> lowest_set_bit 8 (of_le ms) = Some i ->
  (exists x, nth_error ms (N.to_nat i) = Some x /\ x <> 0)
  /\ forall j y, j < i -> nth_error ms (N.to_nat j) = Some y -> y = 0.
Proof.
  intros Ok E. apply lowest_some in E as (j & T & -> & M). destruct (split8 j) as (k & r & -> & R).
  rewrite div_stride by auto. rewrite testbit_of_le in T by auto. split.
  - exists (nth (N.to_nat k) ms 0). split; [eapply nth_some0; eauto|]. eapply testbit_nz; eauto.
  - intros j y J Y. destruct (N.eq_dec y 0) as [|D]; auto. exfalso.
    assert (y < 256) as Hy.
    { unfold bytes_ok in Ok. rewrite forallb_forall in Ok. apply N.ltb_lt, Ok. eapply nth_error_In; eauto. }
    destruct (nonzero_bit y D Hy) as (r' & R' & T'). specialize (M (8 * j + r')).
    rewrite testbit_of_le in M by auto. rewrite (nth_error_nth _ _ _ Y) in M. specialize (M T'). lia.
Qed.

(** ** What a group implementation guarantees *)
Definition gbits (G : gimpl) (bs : bytes) (b : N) : list N :=
  bm_iter (gw G) (gstride G) (N.land (gmatch G bs b) (giter G)).
Record group_ok (G : gimpl) : Prop := {
  g_w : exists k, 2 <= k <= 4 /\ N.of_nat (gw G) = 2 ^ k;
  g_in : forall bs b i, length bs = gw G -> bytes_ok bs = true -> b < 128 -> In i (gbits G bs b) ->
    exists x, nth_error bs (N.to_nat i) = Some x /\ x < 128;
  g_all : forall bs b i, length bs = gw G -> bytes_ok bs = true -> b < 128 -> nth_error bs i = Some b ->
    In (N.of_nat i) (gbits G bs b);
  g_empty : forall bs, length bs = gw G -> Forall (fun x => x < 128 \/ x = EMPTY) bs ->
    (gempty G bs =? 0) = false <-> In EMPTY bs;
  g_free : forall bs, length bs = gw G -> bytes_ok bs = true ->
    match lowest_set_bit (gstride G) (gfree G bs) with
    | Some i => (exists x, nth_error bs (N.to_nat i) = Some x /\ 128 <= x)
                /\ forall j y, j < i -> nth_error bs (N.to_nat j) = Some y -> y < 128
    | None => Forall (fun x => x < 128) bs
    end
}.

Lemma Forall_nth_error {A} (P : A -> Prop) l : (forall i x, nth_error l i = Some x -> P x) -> Forall P l.
Proof. intros H. apply Forall_forall. intros x I. apply In_nth_error in I as [i I]. eauto. Qed.

(** Words: [ms] marks the bytes. *)
Definition free_mark (x m : N) := (m = 0 /\ x < 128) \/ (m <> 0 /\ m < 256 /\ 128 <= x).
Lemma free8 bs ms : Forall2 free_mark bs ms ->
  match lowest_set_bit 8 (of_le ms) with
  | Some i => (exists x, nth_error bs (N.to_nat i) = Some x /\ 128 <= x)
              /\ forall j y, j < i -> nth_error bs (N.to_nat j) = Some y -> y < 128
  | None => Forall (fun x => x < 128) bs
  end.
Proof.
  intros F. assert (Ok : bytes_ok ms = true).
  { clear -F. induction F as [|x m l ms H ? IH]; auto. apply bok_cons. split; auto. unfold free_mark in H. lia. }
  pose proof (Forall2_nth _ _ _ F) as Nth. destruct (lowest_set_bit 8 (of_le ms)) as [i|] eqn:E.
  - apply lowest8 in E as [(m & M & D) B]; auto. split.
    + specialize (Nth (N.to_nat i)). rewrite M in Nth. destruct (nth_error bs (N.to_nat i)) as [x|]; [|tauto].
      exists x. split; auto. unfold free_mark in Nth. lia.
    + intros j y J Y. specialize (Nth (N.to_nat j)). rewrite Y in Nth.
      destruct (nth_error ms (N.to_nat j)) as [m'|] eqn:M'; [|tauto]. apply B in M'; auto. unfold free_mark in Nth. lia.
  - apply lowest_none, word_zero in E; auto. apply Forall_nth_error. intros i x X. specialize (Nth i). rewrite X in Nth.
    destruct (nth_error ms i) as [m'|] eqn:M'; [|tauto]. rewrite Forall_forall in E. apply nth_error_In, E in M'.
    unfold free_mark in Nth. lia.
Qed.
Definition emp_mark (x m : N) := (m = 0 /\ x <> EMPTY) \/ (m <> 0 /\ m < 256 /\ x = EMPTY).
Lemma emp8 bs ms : Forall2 emp_mark bs ms -> (of_le ms =? 0) = false <-> In EMPTY bs.
Proof.
  intros F. assert (Ok : bytes_ok ms = true).
  { clear -F. induction F as [|x m l ms H ? IH]; auto. apply bok_cons. split; auto. unfold emp_mark in H. lia. }
  rewrite N.eqb_neq. rewrite word_zero by auto. clear Ok. induction F as [|x m l ms H ? IH]; cbn [In].
  - split; [intros X; destruct X; constructor|tauto].
  - split.
    + intros X. destruct (N.eq_dec m 0) as [->|D]; [right|left; unfold emp_mark in H; lia].
      apply IH. intros Y. apply X. constructor; auto.
    + intros [->|I] X; inversion X; subst; [unfold emp_mark in H; lia|]. apply IH in I; auto.
Qed.
Definition eq_mark (b x m : N) := mark m /\ (x = b -> m = 128) /\ (m = 128 -> x < 128).
Lemma eq8 b bs ms : Forall2 (eq_mark b) bs ms ->
  (forall i, In i (bm_iter (length bs) 8 (of_le ms)) -> exists x, nth_error bs (N.to_nat i) = Some x /\ x < 128)
  /\ (forall i, nth_error bs i = Some b -> In (N.of_nat i) (bm_iter (length bs) 8 (of_le ms))).
Proof.
  intros F. assert (Mk : Forall mark ms).
  { clear -F. induction F as [|x m l ms H ? IH]; constructor; auto. apply H. }
  assert (L : length bs = length ms) by (eapply Forall2_length; eauto). rewrite L.
  pose proof (Forall2_nth _ _ _ F) as Nth. split; intros i I.
  - apply bits8 in I; auto. specialize (Nth (N.to_nat i)). rewrite I in Nth.
    destruct (nth_error bs (N.to_nat i)) as [x|]; [|tauto]. exists x. split; auto. apply Nth. auto.
  - apply bits8; auto. rewrite Nat2N.id. specialize (Nth i). rewrite I in Nth.
    destruct (nth_error ms i) as [m|]; [|tauto]. f_equal. apply Nth. auto.
Qed.

(** *** sse2 *)
Lemma movemask_bit : forall bs j, N.testbit (movemask bs) j = N.testbit (nth (N.to_nat j) bs 0) 7.
Proof.
  induction bs as [|b bs IH]; intros j.
  - cbn [movemask]. rewrite N.bits_0. destruct (N.to_nat j); cbn [nth]; rewrite N.bits_0; auto.
  - cbn [movemask]. destruct (N.eq_dec j 0) as [->|E].
    + cbn [nth]. rewrite N.add_comm, N.testbit_0_r. auto.
    + replace j with (N.succ (N.pred j)) by lia. rewrite N.add_comm, N.testbit_succ_r, IH.
      rewrite N2Nat.inj_succ. reflexivity.
Qed.
Lemma movemask_nth bs j : N.testbit (movemask bs) j = true <-> exists x, nth_error bs (N.to_nat j) = Some x /\ N.testbit x 7 = true.
Proof.
  rewrite movemask_bit. split.
  - intros T. exists (nth (N.to_nat j) bs 0). split; auto. eapply nth_some0; eauto.
  - intros (x & E & T). rewrite (nth_error_nth _ _ _ E). auto.
Qed.
Lemma top_bit x : x < 256 -> N.testbit x 7 = (128 <=? x).
Proof. intros H. apply eqb_true_iff. revert x H. apply byte_sweep. vm_compute. reflexivity. Qed.
Lemma cmpeq_nth bs b i : nth_error (cmpeq bs b) i = match nth_error bs i with Some x => Some (if x =? b then 255 else 0) | None => None end.
Proof. unfold cmpeq. rewrite nth_error_map. destruct (nth_error bs i); auto. Qed.
Lemma cmpeq_bit bs b j : N.testbit (movemask (cmpeq bs b)) j = true <-> nth_error bs (N.to_nat j) = Some b.
Proof.
  rewrite movemask_nth. rewrite cmpeq_nth. destruct (nth_error bs (N.to_nat j)) as [x|].
  - split; [intros (y & E & T)|intros E].
    + inversion E; subst y. destruct (N.eqb_spec x b); [congruence|]. cbn in T. congruence.
    + inversion E; subst. rewrite N.eqb_refl. exists 255. auto.
  - split; [intros (? & ? & ?); congruence|congruence].
Qed.
Lemma nth_lt {A} (l : list A) i x : nth_error l i = Some x -> (i < length l)%nat.
Proof. intros E. apply nth_error_Some. congruence. Qed.
Lemma byte_at bs i x : bytes_ok bs = true -> nth_error bs i = Some x -> x < 256.
Proof. intros Ok E. unfold bytes_ok in Ok. rewrite forallb_forall in Ok. apply N.ltb_lt, Ok. eapply nth_error_In; eauto. Qed.

Lemma sse2_bits bs b i : length bs = 16%nat -> In i (gbits sse2 bs b) <-> nth_error bs (N.to_nat i) = Some b.
Proof.
  intros L. unfold gbits. cbn [gw gstride gmatch giter sse2].
  assert (E : N.land (movemask (cmpeq bs b)) 65535 = movemask (cmpeq bs b)).
  { change 65535 with (N.ones 16). apply N.bits_inj. intros j. rewrite N.land_spec.
    destruct (N.testbit (movemask (cmpeq bs b)) j) eqn:T; auto. cbn [andb]. apply N.ones_spec_iff.
    apply cmpeq_bit, nth_lt in T. lia. }
  rewrite E. rewrite (bm_iter_spec 1 0 ltac:(lia) 16 _ 0).
  - replace (1 * i + 0) with i by lia. apply cmpeq_bit.
  - intros j T. apply cmpeq_bit, nth_lt in T. exists j. lia.
Qed.
Lemma sse2_ok : group_ok sse2.
Proof.
  constructor.
  - exists 4. split; [lia|reflexivity].
  - intros bs b i L Ok B I. apply sse2_bits in I; auto. eauto.
  - intros bs b i L Ok B I. apply sse2_bits; auto. rewrite Nat2N.id. auto.
  - intros bs L F. cbn [gempty sse2]. rewrite N.eqb_neq. split.
    + intros D. assert (exists j, N.testbit (movemask (cmpeq bs EMPTY)) j = true) as [j T].
      { exists (N.log2 (movemask (cmpeq bs EMPTY))). apply N.bit_log2. auto. }
      apply cmpeq_bit in T. eapply nth_error_In; eauto.
    + intros I. apply In_nth_error in I as [i I]. apply (testbit_nz _ (N.of_nat i)). apply cmpeq_bit. rewrite Nat2N.id. auto.
  - intros bs L Ok. cbn [gstride gfree sse2]. destruct (lowest_set_bit 1 (movemask bs)) as [i|] eqn:E.
    + apply lowest_some in E as (j & T & -> & M). rewrite N.div_1_r. apply movemask_nth in T as (x & X & T). split.
      * exists x. split; auto. rewrite top_bit in T by (eapply byte_at; eauto). apply N.leb_le. auto.
      * intros k y K Y. destruct (N.lt_ge_cases y 128) as [|G]; auto. exfalso.
        assert (j <= k); [|lia]. apply M, movemask_nth. exists y. split; auto. rewrite top_bit by (eapply byte_at; eauto).
        apply N.leb_le. auto.
    + apply lowest_none in E. apply Forall_nth_error. intros i x X. destruct (N.lt_ge_cases x 128) as [|G]; auto. exfalso.
      revert E. apply (testbit_nz _ (N.of_nat i)). apply movemask_nth. exists x. rewrite Nat2N.id. split; auto.
      rewrite top_bit by (eapply byte_at; eauto). apply N.leb_le. auto.
Qed.

(** *** neon *)
Lemma bytes_Forall bs : bytes_ok bs = true -> Forall (fun x => x < 256) bs.
Proof. intros Ok. apply Forall_nth_error. intros i x. apply byte_at. auto. Qed.
Lemma Forall_bytes bs : Forall (fun x => x < 256) bs -> bytes_ok bs = true.
Proof. induction 1 as [|x l H ? IH]; [auto|]. apply bok_cons. auto. Qed.
Lemma neon_ok : group_ok neon.
Proof.
  assert (MM : forall bs b, length bs = 8%nat -> bytes_ok bs = true -> b < 128 ->
    exists ms, N.land (of_le (cmpeq bs b)) 0x8080808080808080 = of_le ms /\ Forall2 (eq_mark b) bs ms).
  { intros bs b L Ok B. exists (map (fun x => N.land x 128) (cmpeq bs b)). split.
    - change 0x8080808080808080 with (grepeat 8 128). replace 8%nat with (length (cmpeq bs b)) by (unfold cmpeq; rewrite map_length; auto).
      apply land_grepeat; [|lia]. apply Forall_bytes. unfold cmpeq. apply Forall_map. apply Forall_forall. intros x _. destruct (x =? b); lia.
    - unfold cmpeq. rewrite map_map. eapply Forall2_impl; [|apply map_Forall2]. intros x y ->. unfold eq_mark, mark.
      destruct (N.eqb_spec x b); cbn; intuition; try lia. }
  constructor.
  - exists 3. split; [lia|reflexivity].
  - intros bs b i L Ok B. destruct (MM bs b L Ok B) as (ms & E & F). unfold gbits. cbn [gw gstride gmatch giter neon] in *.
    rewrite E, <- L. apply (eq8 b bs ms F).
  - intros bs b i L Ok B. destruct (MM bs b L Ok B) as (ms & E & F). unfold gbits. cbn [gw gstride gmatch giter neon] in *.
    rewrite E, <- L. apply (eq8 b bs ms F).
  - intros bs L F. cbn [gempty neon]. apply emp8. unfold cmpeq. eapply Forall2_impl; [|apply map_Forall2].
    intros x y ->. unfold emp_mark. destruct (N.eqb_spec x EMPTY); lia.
  - intros bs L Ok. cbn [gstride gfree neon]. apply free8.
    eapply Forall2_impl2; [|apply bytes_Forall; eauto|apply map_Forall2].
    intros x y Hx ->. unfold free_mark. destruct (N.leb_spec 128 x); lia.
Qed.

(** *** generic *)
Lemma generic_words (nb : ByteOrder) (w : nat) (R : N -> N -> Prop) (f : N -> N) (g : bytes -> bytes) bs :
  length bs = w -> bytes_ok bs = true ->
  (forall l, length l = w -> bytes_ok l = true -> (forall x, In x l -> In x bs) ->
     f (of_le l) = of_le (g l) /\ Forall2 R l (g l) /\ bytes_ok (g l) = true) ->
  exists ms, word_to_le nb w (f (from_ne nb bs)) = of_le ms /\ Forall2 R bs ms.
Proof.
  intros L Ok H. destruct nb; cbn [from_ne word_to_le].
  - destruct (H bs L Ok) as (E & F & O); auto. rewrite E. eauto.
  - destruct (H (rev bs)) as (E & F & O).
    + rewrite rev_length. auto.
    + rewrite bytes_ok_rev. auto.
    + intros x. rewrite <- in_rev. auto.
    + exists (rev (g (rev bs))). rewrite E. split.
      * apply swap_of_le; auto. apply Forall2_length in F. rewrite rev_length in F. congruence.
      * rewrite <- (rev_involutive bs) at 1. apply Forall2_rev. auto.
Qed.

Lemma generic_ok nb w : w = 4%nat \/ w = 8%nat -> group_ok (generic nb w).
Proof.
  intros W.
  assert (MM : forall bs b, length bs = w -> bytes_ok bs = true -> b < 128 ->
    exists ms, N.land (gmatch (generic nb w) bs b) (giter (generic nb w)) = of_le ms /\ Forall2 (eq_mark b) bs ms).
  { intros bs b L Ok B. cbn [gmatch giter generic].
    destruct (generic_words nb w (eq_mark b)
      (fun x => let cmp := N.lxor x (grepeat w b) in
        N.land (N.land (wsub w cmp (grepeat w 1)) (wnot w cmp)) (grepeat w 128))
      (fun l => mbytes 0 (map (fun x => N.lxor x b) l)) bs L Ok) as (ms & E & F).
    - intros l Ll Ol _. cbv zeta. destruct (lxor_grepeat l b Ol ltac:(lia)) as [E1 O1]. rewrite Ll in E1. rewrite E1.
      set (cs := map _ l) in *. assert (Lc : length cs = w) by (subst cs; rewrite map_length; auto).
      pose proof (mbytes_match cs 0 ltac:(lia) O1) as Z. repeat split.
      + rewrite <- Lc. apply zero_bytes. auto.
      + subst cs. clear -Z B Ol. apply bytes_Forall in Ol. remember (mbytes 0 _) as ms. clear Heqms. revert ms Z.
        induction l as [|x l IH]; intros ms Z; inversion Z as [|? m ? ms' Zx Zr]; subst; [constructor|].
        inversion Ol as [|? ? Hx Hl]; subst. constructor; [|apply IH; auto].
        destruct Zx as (M & E & D). split; [exact M|]. split.
        * intros ->. apply E. apply N.lxor_nilpotent.
        * intros X. apply D in X. assert (Tb : N.testbit (N.lxor x b) 7 = false).
          { destruct (N.testbit (N.lxor x b) 7) eqn:T; auto. exfalso. rewrite top_bit in T by lia. apply N.leb_le in T. lia. }
          rewrite N.lxor_spec in Tb. rewrite (top_bit x Hx) in Tb. rewrite (top_bit b) in Tb by lia.
          destruct (N.leb_spec 128 x), (N.leb_spec 128 b); cbn in Tb; congruence || lia.
      + apply mark_ok. clear -Z. induction Z as [|? ? ? ? H]; constructor; auto. apply H.
    - exists ms. split; [|exact F]. cbv zeta in E. rewrite E.
      assert (Ok2 : bytes_ok ms = true). { apply mark_ok. clear -F. induction F as [|? ? ? ? H]; constructor; auto. apply H. }
      rewrite N.land_ones. apply N.mod_small. rewrite <- pow256.
      replace (N.of_nat w) with (lenN ms) by (unfold lenN; apply Forall2_length in F; congruence). apply of_le_lt. auto. }
  constructor.
  - cbn [gw generic]. destruct W as [->| ->]; [exists 2|exists 3]; split; try lia; reflexivity.
  - intros bs b i L Ok B. destruct (MM bs b L Ok B) as (ms & E & F). unfold gbits. rewrite E. cbn [gw gstride generic] in *.
    rewrite <- L. apply (eq8 b bs ms F).
  - intros bs b i L Ok B. destruct (MM bs b L Ok B) as (ms & E & F). unfold gbits. rewrite E. cbn [gw gstride generic] in *.
    rewrite <- L. apply (eq8 b bs ms F).
  - intros bs L F. cbn [gw gempty generic] in *.
    assert (Ok : bytes_ok bs = true). { apply Forall_bytes. eapply Forall_impl; [|exact F]. unfold EMPTY. cbn. lia. }
    destruct (generic_words nb w emp_mark (fun x => N.land (N.land x (wshl1 w x)) (grepeat w 128)) (map ebyte) bs L Ok) as (ms & E & F2).
    + intros l Ll Ol Sub. rewrite <- Ll. split; [apply empty_bytes; auto|]. split; [|apply ebyte_ok].
      eapply Forall2_impl2; [|apply Forall_forall; intros x X; apply Sub in X; rewrite Forall_forall in F; exact (F x X)|apply map_Forall2].
      intros x y Hx ->. unfold emp_mark, ebyte. destruct Hx as [Hx| ->].
      * assert (N.testbit x 7 = false) as ->. { rewrite top_bit by lia. apply N.leb_gt. auto. } unfold EMPTY. cbn. lia.
      * cbn. unfold EMPTY. lia.
    + cbv zeta in E. rewrite E. apply emp8. auto.
  - intros bs L Ok. cbn [gw gstride gfree generic] in *.
    destruct (generic_words nb w free_mark (fun x => N.land x (grepeat w 128)) (map (fun x => N.land x 128)) bs L Ok) as (ms & E & F2).
    + intros l Ll Ol _. rewrite <- Ll. destruct (land_grepeat l 128 Ol ltac:(lia)) as [E1 O1]. split; auto. split; auto.
      eapply Forall2_impl2; [|apply bytes_Forall; eauto|apply map_Forall2].
      intros x y Hx ->. unfold free_mark.
      assert ((x <? 128) = (N.land x 128 =? 0) /\ N.land x 128 < 256) as [E2 E3].
      { split; [symmetry; apply (cont_bit_clear x Hx)|]. destruct (N.eq_dec (N.land x 128) 0); [lia|].
        change 256 with (2 ^ 8). apply N.log2_lt_pow2; [lia|]. eapply N.le_lt_trans; [apply N.log2_land|].
        apply N.min_lt_iff. right. reflexivity. }
      destruct (N.ltb_spec x 128), (N.eqb_spec (N.land x 128) 0); try discriminate; lia.
    + rewrite E. apply free8. auto.
Qed.
