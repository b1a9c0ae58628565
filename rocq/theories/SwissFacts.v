(** Facts about swiss tables. *)
From Verif Require Import Base Options Int BaseFacts IntFacts Zc ZcBuf ZcBufFacts SipFacts Swiss SwissSpec SwissGroup.
Local Open Scope N_scope.

Lemma target_group T : swiss_target T -> group_ok (tg T).
Proof.
  intros [[->|[->|(nb & w & W & ->)]] _]; auto using sse2_ok, neon_ok, generic_ok.
Qed.

(** ** Triangular numbers reach every residue *)
Fixpoint tri (t : nat) : N := match t with O => 0 | S t' => tri t' + N.of_nat t end.
Lemma tri_closed t : 2 * tri t = N.of_nat t * (N.of_nat t + 1).
Proof. induction t as [|t IH]; [reflexivity|]. cbn [tri]. rewrite N.mul_add_distr_l, IH. lia. Qed.
Lemma odd_gcd_pow n m : N.odd n = true -> N.gcd (2 ^ m) n = 1.
Proof.
  intros O. induction m as [|m IH] using N.peano_ind; [apply N.gcd_1_l|].
  rewrite N.pow_succ_r', N.mul_comm.
  destruct (N.eq_dec (N.gcd (2 ^ m * 2) n) 1) as [|D]; auto. exfalso.
  assert (X : N.gcd n 2 = 1).
  { rewrite N.gcd_comm. pose proof (N.gcd_divide_l 2 n) as [a A]. pose proof (N.gcd_divide_r 2 n) as [b Bb].
    assert (N.gcd 2 n = 1 \/ N.gcd 2 n = 2) as [|E]; auto.
    { destruct (N.eq_dec (N.gcd 2 n) 0) as [Z|Z]; [rewrite Z in A; lia|].
      destruct (N.lt_ge_cases 2 (N.gcd 2 n)); [|lia]. exfalso.
      destruct (N.eq_dec a 0); [subst; lia|]. assert (1 * N.gcd 2 n <= a * N.gcd 2 n) by (apply N.mul_le_mono_r; lia). lia. }
    rewrite E in Bb. rewrite Bb, N.odd_mul in O. cbn in O. rewrite andb_false_r in O. discriminate. }
  apply D. rewrite N.gcd_comm in IH.
  assert (Dv : (N.gcd (2 ^ m * 2) n | 2)).
  { apply (N.gauss _ (2 ^ m) 2); [apply N.gcd_divide_l|].
    assert (Y : (N.gcd (N.gcd (2 ^ m * 2) n) (2 ^ m) | N.gcd n (2 ^ m))).
    { apply N.gcd_greatest; [|apply N.gcd_divide_r].
      eapply N.divide_trans; [apply N.gcd_divide_l|apply N.gcd_divide_r]. }
    rewrite IH in Y. apply N.divide_1_r in Y. auto. }
  assert (Z : (N.gcd (2 ^ m * 2) n | N.gcd n 2)) by (apply N.gcd_greatest; auto; apply N.gcd_divide_r).
  rewrite X in Z. apply N.divide_1_r in Z. auto.
Qed.
Lemma tri_inj m s t : (s < t)%nat -> N.of_nat t < 2 ^ m -> tri s mod 2 ^ m <> tri t mod 2 ^ m.
Proof.
  intros L R E.
  assert (P0 : 2 ^ m <> 0) by (apply N.pow_nonzero; lia).
  assert (Le : tri s <= tri t).
  { clear -L. induction L; cbn [tri]; lia. }
  assert (Dv : (2 ^ m | tri t - tri s)).
  { exists (tri t / 2 ^ m - tri s / 2 ^ m).
    pose proof (N.div_mod (tri t) (2 ^ m) P0) as E1. pose proof (N.div_mod (tri s) (2 ^ m) P0) as E2.
    rewrite N.mul_sub_distr_r. rewrite E in E2. set (a := tri t / 2 ^ m) in *. set (b := tri s / 2 ^ m) in *. nia. }
  assert (Dv2 : (2 ^ (m + 1) | (N.of_nat t - N.of_nat s) * (N.of_nat t + N.of_nat s + 1))).
  { destruct Dv as [q Q]. exists q. rewrite N.pow_add_r. change (2 ^ 1) with 2.
    replace (q * (2 ^ m * 2)) with (2 * (q * 2 ^ m)) by lia. rewrite <- Q, N.mul_sub_distr_l, !tri_closed. nia. }
  set (a := N.of_nat t - N.of_nat s) in *. set (b := N.of_nat t + N.of_nat s + 1) in *.
  assert (Pw : 2 ^ (m + 1) = 2 * 2 ^ m) by (rewrite N.pow_add_r; change (2 ^ 1) with 2; lia).
  assert (a + 2 * N.of_nat s + 1 = b) as AB by (subst a b; lia).
  destruct (N.odd a) eqn:O.
  - assert ((2 ^ (m + 1) | b)) as [q Q].
    { apply (N.gauss _ a b); auto. apply odd_gcd_pow. auto. }
    destruct (N.eq_dec q 0) as [->|]; [lia|]. assert (1 * 2 ^ (m + 1) <= q * 2 ^ (m + 1)) by (apply N.mul_le_mono_r; lia). lia.
  - assert ((2 ^ (m + 1) | a)) as [q Q].
    { rewrite N.mul_comm in Dv2. apply (N.gauss _ b a); auto. apply odd_gcd_pow.
      rewrite <- AB. replace (a + 2 * N.of_nat s + 1) with (a + (1 + 2 * N.of_nat s)) by lia. rewrite N.odd_add, O, N.odd_add_mul_2. reflexivity. }
    destruct (N.eq_dec q 0) as [->|]; [lia|]. assert (1 * 2 ^ (m + 1) <= q * 2 ^ (m + 1)) by (apply N.mul_le_mono_r; lia). lia.
Qed.
Lemma NoDup_map_inj {A B} (f : A -> B) : forall l, NoDup l -> (forall x y, In x l -> In y l -> f x = f y -> x = y) -> NoDup (map f l).
Proof.
  induction l as [|a l IH]; intros N H; [constructor|]. inversion N; subst. cbn [map]. constructor.
  - rewrite in_map_iff. intros (x & E & I). assert (x = a) by (apply H; cbn; auto). subst. auto.
  - apply IH; auto. intros x y X Y. apply H; cbn; auto.
Qed.
Lemma tri_onto m a : a < 2 ^ m -> exists t, N.of_nat t < 2 ^ m /\ tri t mod 2 ^ m = a.
Proof.
  intros A. set (M := N.to_nat (2 ^ m)).
  assert (P0 : 2 ^ m <> 0) by (apply N.pow_nonzero; lia).
  assert (I : incl (map N.of_nat (seq 0 M)) (map (fun t => tri t mod 2 ^ m) (seq 0 M))).
  { apply NoDup_length_incl.
    - apply NoDup_map_inj; [apply seq_NoDup|]. intros x y X Y E. apply in_seq in X, Y.
      destruct (Nat.lt_trichotomy x y) as [L|[L|L]]; auto; exfalso.
      + apply (tri_inj m x y); auto. lia.
      + apply (tri_inj m y x); auto. lia.
    - rewrite !map_length. auto.
    - intros x X. apply in_map_iff in X as (t & <- & _). apply in_map_iff. exists (N.to_nat (tri t mod 2 ^ m)).
      split; [lia|]. apply in_seq. pose proof (N.mod_lt (tri t) (2 ^ m) P0). lia. }
  assert (In a (map N.of_nat (seq 0 M))) as J.
  { apply in_map_iff. exists (N.to_nat a). split; [lia|]. apply in_seq. lia. }
  apply I, in_map_iff in J as (t & E & J). apply in_seq in J. exists t. split; auto. lia.
Qed.

(** ** Lists *)
Lemma upd_len {A} (l : list A) i x : i < lenN l -> lenN (upd l i x) = lenN l.
Proof. unfold lenN, upd. intros L. rewrite app_length, firstn_length. cbn [length]. rewrite skipn_length. lia. Qed.
Lemma nth_upd {A} (l : list A) i x j : i < lenN l -> nthN (upd l i x) j = if j =? i then Some x else nthN l j.
Proof.
  unfold lenN, upd, nthN. intros L.
  assert (F : length (firstn (N.to_nat i) l) = N.to_nat i) by (rewrite firstn_length; lia).
  destruct (N.lt_trichotomy j i) as [C|[C|C]].
  - rewrite nth_error_app1 by lia. replace (j =? i) with false by (symmetry; apply N.eqb_neq; lia).
    rewrite <- (firstn_skipn (N.to_nat i) l) at 2. rewrite nth_error_app1 by lia. auto.
  - subst. rewrite N.eqb_refl, nth_error_app2 by lia. rewrite F, Nat.sub_diag. reflexivity.
  - rewrite nth_error_app2 by lia. replace (j =? i) with false by (symmetry; apply N.eqb_neq; lia).
    rewrite F. replace (N.to_nat j - N.to_nat i)%nat with (S (N.to_nat j - S (N.to_nat i))) by lia. cbn [nth_error].
    rewrite <- (firstn_skipn (S (N.to_nat i)) l) at 2. rewrite nth_error_app2 by (rewrite firstn_length; lia).
    rewrite firstn_length. f_equal. lia.
Qed.
Lemma nthN_some {A} (l : list A) i : i < lenN l -> exists x, nthN l i = Some x.
Proof.
  unfold lenN, nthN. intros L. destruct (nth_error l (N.to_nat i)) eqn:E; [eauto|]. apply nth_error_None in E. lia.
Qed.
Lemma window_some l pos w : pos + N.of_nat w <= lenN l -> exists bs, window l pos w = Some bs /\ length bs = w
  /\ forall d, d < N.of_nat w -> nthN bs d = nthN l (pos + d).
Proof.
  intros L. unfold window. replace (pos + N.of_nat w <=? lenN l) with true by (symmetry; apply N.leb_le; auto).
  eexists. split; [reflexivity|]. unfold lenN in L. split.
  - rewrite firstn_length, skipn_length. lia.
  - intros d D. unfold nthN. rewrite <- (firstn_skipn (N.to_nat pos) l) at 2.
    rewrite nth_error_app2 by (rewrite firstn_length; lia). rewrite firstn_length.
    replace (N.to_nat (pos + d) - Nat.min (N.to_nat pos) (length l))%nat with (N.to_nat d) by lia.
    set (m := skipn _ l). rewrite <- (firstn_skipn w m) at 2. rewrite nth_error_app1; auto.
    subst m. rewrite firstn_length, skipn_length. lia.
Qed.

Lemma land_mask_pow x k : N.land x (2 ^ k - 1) = x mod 2 ^ k.
Proof. rewrite <- N.land_ones, N.ones_equiv. f_equal. lia. Qed.
Lemma mod_mul_add a b c : c <> 0 -> (a + c * b) mod c = a mod c.
Proof. intros C. rewrite (N.mul_comm c). apply N.mod_add. auto. Qed.
Lemma h2_lt T h : h2 T h < 128.
Proof.
  unfold h2. change 127 with (N.ones 7). rewrite N.land_ones. apply N.mod_lt. discriminate.
Qed.

Lemma wrap_back p B e : B <> 0 -> e < B -> (p + (e + B - p mod B)) mod B = e.
Proof.
  intros HB L. pose proof (N.div_mod p B HB) as D3. pose proof (N.mod_lt p B HB) as D4.
  replace (p + (e + B - p mod B)) with (e + B * (p / B + 1)) by (rewrite N.mul_add_distr_l; lia).
  rewrite mod_mul_add by auto. apply N.mod_small. auto.
Qed.
Lemma land_mask_B B k x : B = 2 ^ k -> N.land x (B - 1) = x mod B.
Proof. intros ->. apply land_mask_pow. Qed.

Section Tab.
Context {V : Type} (T : target) (G : group_ok (tg T)) (B k ub2 : N) (HB : B = 2 ^ k)
  (Hk : 2 <= k) (Hub : tub T = k + 2 + ub2) (Hub8 : 8 <= tub T).
Notation W := (tw T).

Lemma B_pos : 4 <= B.
Proof. rewrite HB. change 4 with (2 ^ 2). apply N.pow_le_mono_r; lia. Qed.
Lemma ub_B : 2 ^ tub T = B * 4 * 2 ^ ub2.
Proof. rewrite Hub, !N.pow_add_r, HB. reflexivity. Qed.
Lemma ub_pos : 0 < 2 ^ ub2.
Proof. apply N.neq_0_lt_0, N.pow_nonzero. lia. Qed.
Lemma W_pow : exists w, 2 <= w <= 4 /\ W = 2 ^ w.
Proof. apply (g_w _ G). Qed.
Lemma W_range : 4 <= W <= 16.
Proof.
  destruct W_pow as (w & R & ->). split; [change 4 with (2 ^ 2)|change 16 with (2 ^ 4)]; apply N.pow_le_mono_r; lia.
Qed.
Lemma ub_big : 2 * B + 2 * W < 2 ^ tub T.
Proof.
  pose proof W_range. pose proof B_pos. assert (256 <= 2 ^ tub T) by (change 256 with (2 ^ 8); apply N.pow_le_mono_r; lia).
  pose proof ub_B. pose proof ub_pos. nia.
Qed.
Lemma W_small : B < W -> exists z, W = B * z.
Proof.
  destruct W_pow as (w & R & ->). intros L. exists (2 ^ (w - k)). rewrite HB in *. rewrite <- N.pow_add_r. f_equal.
  assert (k < w) by (apply (N.pow_lt_mono_r_iff 2); lia). lia.
Qed.
Lemma W_big : W <= B -> exists m, B = W * 2 ^ m.
Proof.
  destruct W_pow as (w & R & ->). intros L. exists (k - w). rewrite HB in *. rewrite <- N.pow_add_r. f_equal.
  assert (w <= k) by (apply (N.pow_le_mono_r_iff 2); lia). lia.
Qed.

(** The control byte that belongs at each position, for the occupied buckets
    [occ] *)
Definition cellb (occ : N -> option (N * V)) (i : N) : N := match occ i with Some (h, _) => h2 T h | None => EMPTY end.
Definition gap (q : N) : bool := (B <=? q) && (q <? W).
Definition cell (occ : N -> option (N * V)) (q : N) : N := if gap q then EMPTY else cellb occ (q mod B).
Definition shape (occ : N -> option (N * V)) (ctl : bytes) : Prop :=
  B + W <= lenN ctl /\ forall q, q < B + W -> nthN ctl q = Some (cell occ q).

Lemma gap_false q : gap q = false <-> q < B \/ W <= q.
Proof. unfold gap. rewrite andb_false_iff, N.leb_gt, N.ltb_ge. tauto. Qed.
Lemma gap_true q : gap q = true <-> B <= q < W.
Proof. unfold gap. rewrite andb_true_iff, N.leb_le, N.ltb_lt. tauto. Qed.
Lemma cellb_or occ i : cellb occ i < 128 \/ cellb occ i = EMPTY.
Proof. unfold cellb. destruct (occ i) as [[h v]|]; auto. left. apply h2_lt. Qed.
Lemma cell_or occ q : cell occ q < 128 \/ cell occ q = EMPTY.
Proof. unfold cell. destruct (gap q); auto. apply cellb_or. Qed.
Lemma cell_low occ q : q < B -> cell occ q = cellb occ q.
Proof.
  intros L. unfold cell. rewrite (proj2 (gap_false q)) by auto. rewrite N.mod_small; auto.
Qed.
Lemma cellb_empty occ i : 128 <= cellb occ i <-> occ i = None.
Proof.
  unfold cellb. destruct (occ i) as [[h v]|]; [pose proof (h2_lt T h)|unfold EMPTY]; split; try lia; try congruence.
Qed.
Lemma cell_full occ q : cell occ q < 128 -> gap q = false /\ exists h v, occ (q mod B) = Some (h, v) /\ cell occ q = h2 T h.
Proof.
  unfold cell, cellb. destruct (gap q); [unfold EMPTY; lia|]. intros L. split; auto.
  destruct (occ (q mod B)) as [[h v]|]; [eauto|unfold EMPTY in L; lia].
Qed.

(** A window of a well-shaped control array *)
Lemma shape_window occ ctl pos : shape occ ctl -> pos < B -> exists bs, window ctl pos (gw (tg T)) = Some bs
  /\ length bs = gw (tg T) /\ bytes_ok bs = true /\ Forall (fun x => x < 128 \/ x = EMPTY) bs
  /\ forall d x, nthN bs d = Some x <-> d < W /\ x = cell occ (pos + d).
Proof.
  intros [L H] P. destruct (window_some ctl pos (gw (tg T))) as (bs & E & Lb & N). { unfold tw in *. lia. }
  assert (X : forall d x, nthN bs d = Some x <-> d < W /\ x = cell occ (pos + d)).
  { intros d x. split.
    - intros D. assert (d < W). { unfold nthN in D. apply nth_lt in D. unfold tw. lia. }
      split; auto. rewrite N in D by auto. rewrite H in D by lia. congruence.
    - intros [D ->]. rewrite N by auto. apply H. lia. }
  exists bs. split; [auto|]. split; [auto|].
  assert (F : Forall (fun x => x < 128 \/ x = EMPTY) bs).
  { apply Forall_nth_error. intros i x I. destruct (proj1 (X (N.of_nat i) x)) as [_ ->].
    - unfold nthN. rewrite Nat2N.id. auto.
    - apply cell_or. }
  split; [|auto]. apply Forall_bytes. eapply Forall_impl; [|exact F]. unfold EMPTY. cbn. lia.
Qed.

(** Probing: the positions of the windows *)
Definition ppos (p0 : N) (t : nat) : N := (p0 + W * tri t) mod B.
Lemma ppos_lt p0 t : ppos p0 t < B.
Proof. apply N.mod_lt. pose proof B_pos. lia. Qed.
Lemma move_next_ok p0 t : N.of_nat t * W <= B - 1 ->
  move_next T (B - 1) (ppos p0 t, N.of_nat t * W) = ZOk (ppos p0 (S t), N.of_nat (S t) * W).
Proof.
  intros L. pose proof ub_big. pose proof (ppos_lt p0 t). unfold move_next.
  replace (B - 1 <? N.of_nat t * W) with false by (symmetry; apply N.ltb_ge; auto).
  rewrite uadd_fits by lia. cbn [zbind]. rewrite uadd_fits by lia. cbn [zbind].
  rewrite (land_mask_B B k) by auto. unfold ppos. do 2 f_equal.
  - rewrite N.add_mod_idemp_l by (pose proof B_pos; lia). f_equal. cbn [tri]. lia.
  - lia.
Qed.
Definition wfull (occ : N -> option (N * V)) (p0 : N) (t : nat) : Prop :=
  forall d, d < W -> cell occ (ppos p0 t + d) <> EMPTY.
Definition wvisits (p0 : N) (t : nat) (i : N) : Prop :=
  exists d, d < W /\ gap (ppos p0 t + d) = false /\ (ppos p0 t + d) mod B = i.

Lemma small_visits p0 t i : B < W -> i < B -> wvisits p0 t i.
Proof.
  intros S0 I. destruct (W_small S0) as [z Z]. pose proof (ppos_lt p0 t) as P. set (p := ppos p0 t) in *.
  unfold wvisits. fold p. destruct (N.le_gt_cases p i) as [L|L].
  - exists (i - p). split; [lia|]. replace (p + (i - p)) with i by lia. split; [apply gap_false; auto|apply N.mod_small; auto].
  - exists (W + i - p). split; [lia|]. replace (p + (W + i - p)) with (i + W) by lia. split; [apply gap_false; lia|].
    rewrite Z, mod_mul_add by lia. apply N.mod_small. auto.
Qed.
Lemma empty_window occ p0 : (exists e, e < B /\ occ e = None) -> exists t, N.of_nat t * W <= B - 1 /\ ~ wfull occ p0 t.
Proof.
  intros (e & Le & E). pose proof B_pos as BP. destruct (N.lt_ge_cases B W) as [S0|S0].
  - exists O. split; [lia|]. intros F. pose proof (ppos_lt p0 0) as P. set (p := ppos p0 0) in *.
    apply (F (W - 1 - p)); [lia|]. fold p. replace (p + (W - 1 - p)) with (W - 1) by lia.
    unfold cell. rewrite (proj2 (gap_true (W - 1))) by lia. auto.
  - destruct (W_big S0) as [m M]. set (u := (e + B - p0 mod B) mod B).
    assert (U : u < B) by (apply N.mod_lt; lia). pose proof W_range as WR.
    assert (UW : u / W < 2 ^ m) by (apply N.div_lt_upper_bound; lia).
    destruct (tri_onto m (u / W) UW) as (t & Lt & Et). exists t. split.
    + assert (W * (N.of_nat t + 1) <= W * 2 ^ m) as Q by (apply N.mul_le_mono_l; clear -Lt; lia).
      rewrite <- M, N.mul_add_distr_l, N.mul_1_r, (N.mul_comm W) in Q. clear -Q WR. revert Q.
      generalize (N.of_nat t * W), B. intros. lia.
    + intros F. apply (F (u mod W)); [apply N.mod_lt; lia|].
      assert (X : (ppos p0 t + u mod W) mod B = e).
      { unfold ppos. rewrite N.add_mod_idemp_l by lia.
        pose proof (N.div_mod (tri t) (2 ^ m) ltac:(apply N.pow_nonzero; lia)) as D1. rewrite Et in D1.
        pose proof (N.div_mod u W ltac:(lia)) as D2.
        replace (p0 + W * tri t + u mod W) with (p0 + u + B * (tri t / 2 ^ m)).
        2:{ rewrite D1 at 2. rewrite D2 at 1. rewrite M at 1. rewrite !N.mul_add_distr_l. lia. }
        rewrite mod_mul_add by lia. subst u. rewrite N.add_mod_idemp_r by lia.
        apply wrap_back; [clear -BP; lia|auto]. }
      unfold cell. rewrite X. unfold cellb. rewrite E. destruct (gap _); auto.
Qed.

(** ** Lookups *)
Lemma uadd_win p0 t d : d < W -> uadd (tub T) (ppos p0 t) d = ZOk (ppos p0 t + d).
Proof. intros D. pose proof (ppos_lt p0 t). pose proof ub_big. apply uadd_fits. lia. Qed.

Lemma try_bits_spec p0 t (eqf : N -> zres bool) (pb : N -> bool) :
  (forall i, i < B -> eqf i = ZOk (pb i)) -> forall bits, (forall b, In b bits -> b < W) ->
  exists r, try_bits T (B - 1) (ppos p0 t) eqf bits = ZOk r /\
  match r with
  | Some i => exists b, In b bits /\ i = (ppos p0 t + b) mod B /\ pb i = true
  | None => forall b, In b bits -> pb ((ppos p0 t + b) mod B) = false
  end.
Proof.
  intros E. induction bits as [|b bits IH]; intros H.
  - exists None. split; [reflexivity|]. intros b [].
  - cbn [try_bits]. rewrite uadd_win by (apply H; cbn; auto). cbn [zbind]. rewrite (land_mask_B B k) by auto.
    rewrite E by (apply N.mod_lt; pose proof B_pos; lia). cbn [zbind].
    destruct (pb ((ppos p0 t + b) mod B)) eqn:P.
    + eexists. split; [reflexivity|]. exists b. cbn. auto.
    + destruct IH as (r & R & Hr). { intros b' I. apply H. cbn. auto. }
      exists r. split; auto. destruct r as [i|].
      * destruct Hr as (b' & I & X). exists b'. cbn. auto.
      * intros b' [<-|I]; auto.
Qed.

Lemma find_loop_spec occ ctl hh p0 (eqf : N -> zres bool) (pb : N -> bool) te :
  shape occ ctl -> hh < 128 -> (forall i, i < B -> eqf i = ZOk (pb i)) ->
  N.of_nat te * W <= B - 1 -> ~ wfull occ p0 te ->
  forall fuel t, (t <= te)%nat -> (te - t < fuel)%nat ->
  (forall s, (s < t)%nat -> wfull occ p0 s /\
     forall i h v, wvisits p0 s i -> occ i = Some (h, v) -> h2 T h = hh -> pb i = false) ->
  exists r, find_loop fuel T ctl (B - 1) hh eqf (ppos p0 t, N.of_nat t * W) = Some (ZOk r) /\
  match r with
  | Some i => i < B /\ occ i <> None /\ pb i = true
  | None => exists t', ~ wfull occ p0 t' /\ forall s, (s <= t')%nat ->
      forall i h v, wvisits p0 s i -> occ i = Some (h, v) -> h2 T h = hh -> pb i = false
  end.
Proof.
  intros Sh Hh E Lte Nte. induction fuel as [|fuel IH]; intros t Lt Lf Prev; [lia|].
  cbn [find_loop]. rewrite uadd_fits by (pose proof (ppos_lt p0 t); pose proof ub_big; lia).
  destruct (shape_window occ ctl (ppos p0 t) Sh (ppos_lt p0 t)) as (bs & Wn & Lb & Ob & Fb & Nb). rewrite Wn.
  fold (gbits (tg T) bs hh). set (bits := gbits (tg T) bs hh).
  assert (Hb : forall b, In b bits -> b < W /\ cell occ (ppos p0 t + b) < 128).
  { intros b I. destruct (g_in _ G bs hh b Lb Ob Hh I) as (x & X & Lx). change (nth_error bs (N.to_nat b)) with (nthN bs b) in X.
    apply Nb in X as [D ->]. auto. }
  destruct (try_bits_spec p0 t eqf pb E bits) as (r & R & Hr). { intros b I. apply Hb. auto. }
  rewrite R. destruct r as [i|].
  - eexists. split; [reflexivity|]. destruct Hr as (b & I & -> & P).
    destruct (Hb b I) as [D C]. apply cell_full in C as (_ & h & v & O & _). split; [apply N.mod_lt; pose proof B_pos; lia|].
    split; [congruence|auto].
  - assert (Now : forall i h v, wvisits p0 t i -> occ i = Some (h, v) -> h2 T h = hh -> pb i = false).
    { intros i h v (d & D & Gd & M) O Hv. rewrite <- M. apply Hr.
      replace d with (N.of_nat (N.to_nat d)) by lia. apply (g_all _ G); auto.
      change (nth_error bs (N.to_nat d)) with (nthN bs d). apply Nb. split; auto.
      unfold cell, cellb. rewrite Gd, M, O. auto. }
    destruct (gempty (tg T) bs =? 0) eqn:Em; cbn [negb].
    + assert (Wf : wfull occ p0 t).
      { intros d D C. assert (In EMPTY bs) as I.
        { assert (nthN bs d = Some EMPTY) as X by (apply Nb; auto). eapply nth_error_In; eauto. }
        apply (g_empty _ G bs Lb Fb) in I. congruence. }
      assert (t <> te) by congruence. assert (N.of_nat t * W <= B - 1).
      { pose proof W_range. assert (N.of_nat t * W <= N.of_nat te * W) by (apply N.mul_le_mono_r; lia). lia. }
      rewrite move_next_ok by auto. apply IH; [lia|lia|].
      intros s Ls. destruct (Nat.eq_dec s t) as [->|]; auto. apply Prev. lia.
    + eexists. split; [reflexivity|]. exists t. split.
      * intros Wf. apply (g_empty _ G bs Lb Fb) in Em. apply In_nth_error in Em as [d D].
        assert (nthN bs (N.of_nat d) = Some EMPTY) as X by (unfold nthN; rewrite Nat2N.id; auto).
        apply Nb in X as [X Y]. apply (Wf _ X). auto.
      * intros s Ls. destruct (Nat.eq_dec s t) as [->|]; auto. apply Prev. lia.
Qed.

(** ** Construction *)
Lemma wrapped_index i : i < B -> N.land ((i + 2 ^ tub T - W) mod 2 ^ tub T) (B - 1) + W
  = if B <? W then i + W else if i <? W then i + B else i.
Proof.
  intros Li. rewrite (land_mask_B B k) by auto. pose proof ub_B as U. pose proof ub_pos as UP. pose proof B_pos as BP.
  set (z := 4 * 2 ^ ub2). assert (E : 2 ^ tub T = B * z) by (rewrite U; subst z; lia).
  assert (Zp : 4 <= z) by (subst z; lia). clearbody z.
  assert (M : forall x, (x mod 2 ^ tub T) mod B = x mod B).
  { intros x. rewrite E. rewrite N.mod_mul_r by lia. rewrite mod_mul_add by lia. apply N.mod_mod. lia. }
  rewrite M, E. pose proof ub_big as UBig. rewrite E in UBig. clear M U UP E.
  destruct (N.ltb_spec B W) as [S0|S0].
  - destruct (W_small S0) as [y Y]. replace (i + B * z - W) with (i + B * (z - y)).
    2:{ rewrite Y, N.mul_sub_distr_l. assert (B * y <= B * z) by lia. lia. }
    rewrite mod_mul_add by lia. rewrite N.mod_small by auto. auto.
  - destruct (N.ltb_spec i W) as [L|L].
    + replace (i + B * z - W) with ((i + B - W) + B * (z - 1)).
      2:{ rewrite N.mul_sub_distr_l. assert (B * 4 <= B * z) by (apply N.mul_le_mono_l; auto). lia. }
      rewrite mod_mul_add by lia. rewrite N.mod_small by lia. lia.
    + replace (i + B * z - W) with ((i - W) + B * z) by lia.
      rewrite mod_mul_add by lia. rewrite N.mod_small by lia. lia.
Qed.

Definition occ_upd (occ : N -> option (N * V)) (i h : N) (v : V) : N -> option (N * V) :=
  fun j => if j =? i then Some (h, v) else occ j.
Lemma copies i q : i < B -> q < B + W ->
  let i2 := if B <? W then i + W else if i <? W then i + B else i in
  (q = i \/ q = i2) <-> (gap q = false /\ q mod B = i).
Proof.
  intros Li Lq i2. rewrite gap_false. pose proof B_pos as BP. subst i2.
  destruct (N.lt_ge_cases q B) as [C|C].
  - rewrite (N.mod_small q B) by auto.
    destruct (N.ltb_spec B W) as [S0|S0]; [|destruct (N.ltb_spec i W)]; split; lia.
  - destruct (N.ltb_spec B W) as [S0|S0].
    + destruct (W_small S0) as [y Y]. split.
      * intros [->| ->]; [lia|]. split; [lia|]. rewrite Y, mod_mul_add by lia. apply N.mod_small. auto.
      * intros [[?|C2] M]; [lia|]. right. assert (q mod B = q - W) as E; [|lia].
        replace q with ((q - W) + B * y) at 1 by lia. rewrite mod_mul_add by lia. apply N.mod_small. lia.
    + assert (q mod B = q - B) as E.
      { replace q with ((q - B) + B * 1) at 1 by lia. rewrite mod_mul_add by lia. apply N.mod_small. lia. }
      rewrite E. destruct (N.ltb_spec i W); split; lia.
Qed.
Lemma cell_upd occ i h v q : i < B -> cell (occ_upd occ i h v) q =
  if negb (gap q) && (q mod B =? i) then h2 T h else cell occ q.
Proof.
  intros Li. unfold cell, cellb, occ_upd. destruct (gap q); cbn [negb andb]; auto. destruct (q mod B =? i); auto.
Qed.

(** What is known of a table under construction *)
Definition reach (occ : N -> option (N * V)) (i h : N) : Prop :=
  exists t, N.of_nat t * W <= B - 1 + W /\ (forall s, (s < t)%nat -> wfull occ (h1 T h mod B) s) /\ wvisits (h1 T h mod B) t i.
Record inv (c : ctor V) (occ : N -> option (N * V)) (es : list (N * V)) : Prop := {
  i_mask : cmask c = B - 1;
  i_shape : shape occ (cctrl c);
  i_ents : lenN (cents c) = B;
  i_occ : forall i h v, occ i = Some (h, v) -> i < B /\ In (h, v) es /\ nthN (cents c) i = Some v /\ reach occ i h;
  i_all : forall h v, In (h, v) es -> exists i, occ i = Some (h, v);
  i_free : exists il, length il = length es /\ forall i, occ i <> None -> In i il;
  i_growth : cgrowth c + lenN es = bucket_mask_to_capacity (B - 1)
}.

Lemma put_ok (c : ctor V) i b : i < cmask c + 1 + W -> i < lenN (cctrl c) ->
  put_ctrl T c i b = ZOk {| cctrl := upd (cctrl c) i b; cents := cents c; cmask := cmask c; cgrowth := cgrowth c |}.
Proof. intros A1 A2. unfold put_ctrl. apply N.ltb_lt in A1, A2. rewrite A1, A2. auto. Qed.
Lemma set_ctrl_ok (c : ctor V) occ i h v : cmask c = B - 1 -> shape occ (cctrl c) -> i < B -> occ i = None ->
  exists c', set_ctrl T c i (h2 T h) = ZOk c' /\ cmask c' = cmask c /\ cents c' = cents c /\ cgrowth c' = cgrowth c
  /\ shape (occ_upd occ i h v) (cctrl c').
Proof.
  intros Mk [Ls Sh] Li On. pose proof B_pos as BP. pose proof ub_big as UB. pose proof W_range as WR.
  pose proof (wrapped_index i Li) as WI. unfold set_ctrl. rewrite Mk.
  set (i2 := if B <? W then i + W else if i <? W then i + B else i) in WI.
  assert (L2 : i2 < B + W).
  { subst i2. destruct (B <? W); [lia|]. destruct (N.ltb_spec i W); lia. }
  rewrite uadd_fits by (rewrite WI; lia). cbn [zbind]. rewrite WI.
  rewrite put_ok by (rewrite ?Mk; lia). cbn [zbind].
  assert (LU : lenN (upd (cctrl c) i (h2 T h)) = lenN (cctrl c)) by (apply upd_len; lia).
  rewrite put_ok by (cbn [cmask cctrl]; rewrite ?Mk, ?LU; lia). cbn [cmask cctrl cents cgrowth].
  eexists. split; [reflexivity|]. cbn [cmask cctrl cents cgrowth]. repeat split; auto.
  - rewrite upd_len by lia. lia.
  - intros q Lq. rewrite nth_upd by lia. rewrite nth_upd by lia. rewrite (Sh q Lq). rewrite cell_upd by auto.
    pose proof (copies i q Li Lq) as Cp. cbv zeta in Cp. fold i2 in Cp.
    destruct (gap q); cbn [negb andb].
    + destruct (N.eqb_spec q i2); [exfalso; destruct Cp as [Cp _]; destruct Cp; auto; discriminate|].
      destruct (N.eqb_spec q i); [exfalso; destruct Cp as [Cp _]; destruct Cp; auto; discriminate|]. auto.
    + destruct (N.eqb_spec (q mod B) i) as [E|E].
      * destruct (N.eqb_spec q i2); auto. destruct (N.eqb_spec q i); auto. exfalso. destruct Cp as [_ Cp]. destruct Cp; auto.
      * destruct (N.eqb_spec q i2); [exfalso; apply E; apply Cp; auto|].
        destruct (N.eqb_spec q i); [exfalso; apply E; apply Cp; auto|]. auto.
Qed.

Lemma get_ctrl_ok (c : ctor V) occ i : cmask c = B - 1 -> shape occ (cctrl c) -> i < B -> get_ctrl T c i = ZOk (cellb occ i).
Proof.
  intros Mk [Ls Sh] Li. unfold get_ctrl. rewrite Mk. replace (i <? B - 1 + 1 + W) with true by (symmetry; apply N.ltb_lt; lia).
  rewrite Sh by lia. rewrite cell_low by auto. auto.
Qed.
Lemma ctrl_group_ok (c : ctor V) occ pos : cmask c = B - 1 -> shape occ (cctrl c) -> pos < B ->
  exists bs, ctrl_group T c pos = ZOk bs /\ length bs = gw (tg T) /\ bytes_ok bs = true
  /\ Forall (fun x => x < 128 \/ x = EMPTY) bs /\ forall d x, nthN bs d = Some x <-> d < W /\ x = cell occ (pos + d).
Proof.
  intros Mk Sh Lp. destruct (shape_window occ (cctrl c) pos Sh Lp) as (bs & E & Rest). exists bs.
  unfold ctrl_group. rewrite Mk, E. replace (pos <? B - 1 + 1 + W) with true by (symmetry; apply N.ltb_lt; lia). auto.
Qed.
Lemma is_full_lt b : b < 256 -> is_full b = (b <? 128).
Proof. intros H. unfold is_full. apply (cont_bit_clear b H). Qed.
Lemma cellb_byte occ i : cellb occ i < 256.
Proof. destruct (cellb_or occ i); unfold EMPTY in *; lia. Qed.

Lemma fix_slot_ok (c : ctor V) occ q : cmask c = B - 1 -> shape occ (cctrl c) -> (exists e, e < B /\ occ e = None) ->
  cell occ q = EMPTY ->
  exists i, fix_insert_slot T c (q mod B) = ZOk i /\ i < B /\ occ i = None /\ (W <= B -> i = q mod B).
Proof.
  intros Mk Sh (e & Le & E) Cq. pose proof B_pos as BP. assert (Lm : q mod B < B) by (apply N.mod_lt; lia).
  unfold fix_insert_slot. rewrite Mk. replace (B - 1 <? q mod B) with false by (symmetry; apply N.ltb_ge; lia).
  rewrite (get_ctrl_ok c occ) by auto. cbn [zbind]. rewrite is_full_lt by apply cellb_byte.
  destruct (N.ltb_spec (cellb occ (q mod B)) 128) as [F|F].
  - unfold cell in Cq. destruct (gap q) eqn:Gq; [|rewrite Cq in F; unfold EMPTY in F; lia].
    apply gap_true in Gq. replace (W <=? B - 1) with false by (symmetry; apply N.leb_gt; lia).
    destruct (ctrl_group_ok c occ 0 Mk Sh ltac:(lia)) as (bs & R & Lb & Ob & Fb & Nb). rewrite R. cbn [zbind].
    pose proof (g_free _ G bs Lb Ob) as Fr.
    assert (Ne : nthN bs e = Some EMPTY).
    { apply Nb. split; [lia|]. rewrite N.add_0_l, cell_low by auto. unfold cellb. rewrite E. auto. }
    destruct (lowest_set_bit (gstride (tg T)) (gfree (tg T) bs)) as [i|].
    + destruct Fr as [(x & X & Lx) Fst]. exists i. change (nth_error bs (N.to_nat i)) with (nthN bs i) in X.
      apply Nb in X as [Li ->]. rewrite N.add_0_l in Lx.
      assert (i <= e).
      { destruct (N.le_gt_cases i e) as [|C]; auto. specialize (Fst e EMPTY C Ne). unfold EMPTY in Fst. lia. }
      rewrite cell_low in Lx by lia. apply cellb_empty in Lx. repeat split; auto; lia.
    + exfalso. rewrite Forall_forall in Fr. apply nth_error_In, Fr in Ne. unfold EMPTY in Ne. lia.
  - apply cellb_empty in F. eexists. split; [reflexivity|]. auto.
Qed.

Lemma slot_loop_ok (c : ctor V) occ p0 te : cmask c = B - 1 -> shape occ (cctrl c) -> (exists e, e < B /\ occ e = None) ->
  N.of_nat te * W <= B - 1 -> ~ wfull occ p0 te ->
  forall fuel t, (t <= te)%nat -> (te - t < fuel)%nat -> (forall s, (s < t)%nat -> wfull occ p0 s) ->
  exists i t', slot_loop fuel T c (ppos p0 t, N.of_nat t * W) = Some (ZOk i) /\ i < B /\ occ i = None
  /\ (t' <= te)%nat /\ (forall s, (s < t')%nat -> wfull occ p0 s) /\ wvisits p0 t' i.
Proof.
  intros Mk Sh Ex Lte Nte. induction fuel as [|fuel IH]; intros t Lt Lf Prev; [lia|].
  cbn [slot_loop]. destruct (ctrl_group_ok c occ (ppos p0 t) Mk Sh (ppos_lt p0 t)) as (bs & R & Lb & Ob & Fb & Nb).
  rewrite R. pose proof (g_free _ G bs Lb Ob) as Fr.
  destruct (lowest_set_bit (gstride (tg T)) (gfree (tg T) bs)) as [b|].
  - destruct Fr as [(x & X & Lx) _]. change (nth_error bs (N.to_nat b)) with (nthN bs b) in X. apply Nb in X as [Db ->].
    rewrite uadd_win by auto. cbn [zbind]. rewrite Mk, (land_mask_B B k) by auto.
    assert (Ce : cell occ (ppos p0 t + b) = EMPTY) by (destruct (cell_or occ (ppos p0 t + b)); auto; lia).
    destruct (fix_slot_ok c occ (ppos p0 t + b) Mk Sh Ex Ce) as (i & E & Li & Oi & Big). exists i, t. rewrite E.
    repeat split; auto. destruct (N.lt_ge_cases B W) as [S0|S0]; [apply small_visits; auto|].
    exists b. split; auto. split; [|symmetry; auto]. apply gap_false. pose proof (ppos_lt p0 t). lia.
  - assert (Wf : wfull occ p0 t).
    { intros d D C. rewrite Forall_forall in Fr. assert (nthN bs d = Some EMPTY) as X by (apply Nb; auto).
      apply nth_error_In, Fr in X. unfold EMPTY in X. lia. }
    assert (t <> te) by congruence. assert (N.of_nat t * W <= B - 1).
    { pose proof W_range. assert (N.of_nat t * W <= N.of_nat te * W) by (apply N.mul_le_mono_r; lia). lia. }
    rewrite Mk, move_next_ok by auto. apply IH; [lia|lia|].
    intros s Ls. destruct (Nat.eq_dec s t) as [->|]; auto. apply Prev. lia.
Qed.

Lemma fuel_enough te : N.of_nat te * W <= B - 1 -> (te - 0 < find_fuel (B - 1) W)%nat.
Proof.
  intros L. unfold find_fuel. pose proof W_range. assert (N.of_nat te <= (B - 1) / W) by (apply N.div_le_lower_bound; lia). lia.
Qed.
Lemma ppos0 h : ppos (h1 T h mod B) 0 = h1 T h mod B.
Proof. pose proof B_pos. unfold ppos. cbn [tri]. rewrite N.mul_0_r, N.add_0_r. apply N.mod_mod. lia. Qed.
Lemma probe_start h : probe_seq T (B - 1) h = (ppos (h1 T h mod B) 0, N.of_nat 0 * W).
Proof. unfold probe_seq. rewrite (land_mask_B B k) by auto. rewrite ppos0. auto. Qed.

Lemma wfull_upd occ i h v p0 s : i < B -> wfull occ p0 s -> wfull (occ_upd occ i h v) p0 s.
Proof.
  intros Li F d D. rewrite cell_upd by auto. destruct (_ && _); [pose proof (h2_lt T h); unfold EMPTY; lia|]. auto.
Qed.
Lemma reach_upd occ i h v j h' : i < B -> reach occ j h' -> reach (occ_upd occ i h v) j h'.
Proof.
  intros Li (t & L & F & X). exists t. split; auto. split; auto. intros s Ls. apply wfull_upd; auto.
Qed.

Lemma free_exists (occ : N -> option (N * V)) (il : list N) : N.of_nat (length il) < B ->
  (forall i, occ i <> None -> In i il) -> exists e, e < B /\ occ e = None.
Proof.
  intros L H. destruct (existsb (fun i => match occ i with None => true | Some _ => false end)
    (map N.of_nat (seq 0 (N.to_nat B)))) eqn:E.
  - apply existsb_exists in E as (x & X & N). apply in_map_iff in X as (y & <- & Y). apply in_seq in Y.
    exists (N.of_nat y). split; [lia|]. destruct (occ (N.of_nat y)); congruence.
  - exfalso. assert (I : incl (map N.of_nat (seq 0 (N.to_nat B))) il).
    { intros x X. apply H. intros O. assert (Y : existsb (fun i => match occ i with None => true | Some _ => false end)
        (map N.of_nat (seq 0 (N.to_nat B))) = true) by (apply existsb_exists; exists x; rewrite O; auto). congruence. }
    apply NoDup_incl_length in I.
    + rewrite map_length, seq_length in I. lia.
    + apply NoDup_map_inj; [apply seq_NoDup|]. intros x y _ _ X. lia.
Qed.

Lemma cap_lt : bucket_mask_to_capacity (B - 1) < B.
Proof.
  pose proof B_pos. unfold bucket_mask_to_capacity. destruct (N.ltb_spec (B - 1) 8); [lia|].
  replace (B - 1 + 1) with B by lia. pose proof (N.mul_div_le B 8 ltac:(lia)). assert (0 < B / 8) by (apply N.div_str_pos; lia). lia.
Qed.
Lemma inv_free c occ es : inv c occ es -> lenN es <= bucket_mask_to_capacity (B - 1) -> exists e, e < B /\ occ e = None.
Proof.
  intros I L. destruct (i_free _ _ _ I) as (il & Ll & H). apply (free_exists occ il); auto. pose proof cap_lt.
  unfold lenN in L. rewrite Ll. lia.
Qed.

Lemma insert_ok c occ es h v : inv c occ es -> lenN es < bucket_mask_to_capacity (B - 1) ->
  exists c' occ', insert T c h v = Some (ZOk c') /\ inv c' occ' (es ++ [(h, v)]).
Proof.
  intros I L. pose proof (inv_free c occ es I ltac:(lia)) as Ex. pose proof B_pos as BP.
  pose proof (i_mask _ _ _ I) as Mk. pose proof (i_shape _ _ _ I) as Sh. pose proof (i_growth _ _ _ I) as Gr.
  set (p0 := h1 T h mod B). destruct (empty_window occ p0 Ex) as (te & Lte & Nte).
  destruct (slot_loop_ok c occ p0 te Mk Sh Ex Lte Nte (find_fuel (B - 1) W) 0 ltac:(lia) (fuel_enough te Lte) ltac:(intros; lia))
    as (i & t & E & Li & Oi & Lt & Fu & Vis).
  unfold insert, find_insert_slot. rewrite Mk, probe_start. fold p0. rewrite E. cbn [zbind].
  rewrite (get_ctrl_ok c occ) by auto. cbn [zbind].
  assert (Ci : cellb occ i = EMPTY) by (unfold cellb; rewrite Oi; auto). rewrite Ci.
  replace (cgrowth c =? 0) with false by (symmetry; apply N.eqb_neq; lia).
  cbn [zbind]. change (special_is_empty EMPTY) with (@ZOk bool true). cbn [zbind andb].
  set (c1 := {| cctrl := cctrl c; cents := cents c; cmask := B - 1; cgrowth := cgrowth c - 1 |}).
  destruct (set_ctrl_ok c1 occ i h v eq_refl Sh Li Oi) as (c2 & E2 & M2 & Ce2 & G2 & Sh2). rewrite E2. cbn [zbind].
  rewrite M2, Ce2. cbn [cmask cents c1].
  replace ((B - 1 =? 0) || (B - 1 <? i)) with false.
  2:{ symmetry. apply orb_false_iff. rewrite N.eqb_neq, N.ltb_ge. lia. }
  rewrite (i_ents _ _ _ I). replace (i <? B) with true by (symmetry; apply N.ltb_lt; auto).
  eexists. exists (occ_upd occ i h v). split; [reflexivity|].
  constructor; cbn [cmask cctrl cents cgrowth].
  - auto.
  - auto.
  - rewrite upd_len by (rewrite (i_ents _ _ _ I); auto). apply (i_ents _ _ _ I).
  - intros j h' v'. unfold occ_upd. rewrite nth_upd by (rewrite (i_ents _ _ _ I); auto).
    destruct (N.eqb_spec j i) as [->|D].
    + intros X. inversion X; subst h' v'. split; auto. split; [apply in_or_app; cbn; auto|]. split; auto.
      exists t. split. { pose proof W_range. assert (N.of_nat t * W <= N.of_nat te * W) by (apply N.mul_le_mono_r; lia). lia. }
      split; [|exact Vis]. intros s Ls. apply wfull_upd; auto.
    + intros X. destruct (i_occ _ _ _ I j h' v' X) as (A1 & A2 & A3 & A4). split; auto. split; [apply in_or_app; auto|]. split; auto.
      apply reach_upd; auto.
  - intros h' v' X. apply in_app_or in X as [X|[X|[]]].
    + destruct (i_all _ _ _ I h' v' X) as (j & J). exists j. unfold occ_upd. destruct (N.eqb_spec j i) as [->|]; [congruence|auto].
    + inversion X; subst. exists i. unfold occ_upd. rewrite N.eqb_refl. auto.
  - destruct (i_free _ _ _ I) as (il & Ll & H). exists (i :: il). split; [rewrite app_length; cbn; lia|].
    intros j. unfold occ_upd. destruct (N.eqb_spec j i) as [->|]; [cbn; auto|]. intros X. right. auto.
  - rewrite G2. cbn [cgrowth c1]. rewrite lenN_app. unfold lenN in *. cbn [length]. lia.
Qed.

Lemma inserts_ok : forall es c occ done, inv c occ done -> lenN done + lenN es <= bucket_mask_to_capacity (B - 1) ->
  exists c' occ', inserts T c es = Some (ZOk c') /\ inv c' occ' (done ++ es).
Proof.
  induction es as [|[h v] es IH]; intros c occ done I L.
  - exists c, occ. rewrite app_nil_r. auto.
  - cbn [inserts]. rewrite lenN_cons in L. destruct (insert_ok c occ done h v I ltac:(lia)) as (c1 & occ1 & E1 & I1).
    rewrite E1. destruct (IH c1 occ1 (done ++ [(h, v)]) I1) as (c2 & occ2 & E2 & I2).
    { rewrite lenN_app. unfold lenN in *. cbn [length]. lia. }
    exists c2, occ2. split; auto. rewrite <- app_assoc in I2. auto.
Qed.

Lemma new_inv zero : inv (new_ctor T zero B) (fun _ => None) [].
Proof.
  pose proof B_pos. constructor; cbn [new_ctor cmask cctrl cents cgrowth].
  - auto.
  - split.
    + unfold lenN. rewrite repeat_length. lia.
    + intros q L. unfold nthN. rewrite nth_error_repeat by lia. unfold cell, cellb. destruct (gap q); auto.
  - unfold lenN. rewrite repeat_length. lia.
  - discriminate.
  - intros h v [].
  - exists []. split; [auto|]. intros i X. congruence.
  - unfold lenN. cbn. lia.
Qed.

(** A finished table *)
Record built (t : table V) (occ : N -> option (N * V)) (es : list (N * V)) : Prop := {
  b_mask : bmask t = B - 1;
  b_shape : shape occ (ctrl t);
  b_ents : lenN (ents t) = B;
  b_occ : forall i h v, occ i = Some (h, v) -> i < B /\ In (h, v) es /\ nthN (ents t) i = Some v /\ reach occ i h;
  b_all : forall h v, In (h, v) es -> exists i, occ i = Some (h, v);
  b_free : exists e, e < B /\ occ e = None;
  b_len : tlen t = B - 1 - (bucket_mask_to_capacity (B - 1) - lenN es)
}.
Lemma store_built zero es : capacity_to_buckets T (lenN es) = Some B -> lenN es <= bucket_mask_to_capacity (B - 1) ->
  exists t occ, store_raw T zero es = Some (ZOk t) /\ built t occ es.
Proof.
  intros C L. unfold store_raw. rewrite C. pose proof B_pos as BP.
  destruct (inserts_ok es (new_ctor T zero B) (fun _ => None) [] (new_inv zero)) as (c & occ & E & I).
  { unfold lenN in *. cbn. lia. }
  cbn [app] in I. rewrite E. cbn [zbind]. pose proof (i_mask _ _ _ I) as Mk. pose proof (i_growth _ _ _ I) as Gr.
  rewrite Mk. pose proof cap_lt. replace (B - 1 <? cgrowth c) with false by (symmetry; apply N.ltb_ge; lia).
  eexists. exists occ. split; [reflexivity|]. constructor; cbn [bmask ctrl ents tlen].
  - auto.
  - destruct (i_shape _ _ _ I) as [Ls Sh]. split.
    + unfold lenN in *. rewrite firstn_length. lia.
    + intros q Lq. rewrite <- (Sh q Lq). unfold nthN, lenN in *.
      rewrite <- (firstn_skipn (N.to_nat (B + W)) (cctrl c)) at 2. rewrite nth_error_app1; auto. rewrite firstn_length. lia.
  - apply (i_ents _ _ _ I).
  - apply (i_occ _ _ _ I).
  - apply (i_all _ _ _ I).
  - eapply inv_free; eauto.
  - lia.
Qed.

Lemma find_built t occ es h (p : V -> bool) : built t occ es ->
  exists r, table_find T t h (fun v => ZOk (p v)) = Some (ZOk r) /\
  match r with
  | Some v => p v = true /\ exists h', In (h', v) es
  | None => forall v, In (h, v) es -> p v = false
  end.
Proof.
  intros Bt. pose proof B_pos as BP. set (p0 := h1 T h mod B).
  destruct (empty_window occ p0 (b_free _ _ _ Bt)) as (te & Lte & Nte).
  unfold table_find, find, find_inner. rewrite (b_mask _ _ _ Bt), probe_start. fold p0.
  set (pb := fun i => match nthN (ents t) i with Some v => p v | None => false end).
  set (eqf := fun i => let+ v := raw_entry t i in ZOk (p v)).
  assert (Ef : forall i, i < B -> eqf i = ZOk (pb i)).
  { intros i Li. unfold eqf, pb, raw_entry. destruct (nthN_some (ents t) i) as [v E]; [rewrite (b_ents _ _ _ Bt); auto|].
    rewrite E. auto. }
  destruct (find_loop_spec occ (ctrl t) (h2 T h) p0 eqf pb te (b_shape _ _ _ Bt) (h2_lt T h) Ef Lte Nte
    (find_fuel (B - 1) W) 0 ltac:(lia) (fuel_enough te Lte) ltac:(intros; lia)) as (r & E & Hr).
  rewrite E. cbn [zbind]. destruct r as [i|].
  - destruct Hr as (Li & Oi & Pi). destruct (occ i) as [[h' v]|] eqn:O; [|congruence].
    destruct (b_occ _ _ _ Bt i h' v O) as (_ & In' & Nv & _). unfold raw_entry. rewrite Nv. cbn [zbind].
    exists (Some v). split; auto. unfold pb in Pi. rewrite Nv in Pi. eauto.
  - exists None. split; auto. intros v Iv. destruct (b_all _ _ _ Bt h v Iv) as (i & O).
    destruct (b_occ _ _ _ Bt i h v O) as (Li & _ & Nv & t1 & _ & Fu & Vis). fold p0 in Fu, Vis.
    destruct Hr as (t' & Nf & Seen). assert (t1 <= t')%nat.
    { destruct (Nat.le_gt_cases t1 t'); auto. exfalso. apply Nf, Fu. lia. }
    pose proof (Seen t1 ltac:(lia) i h v Vis O eq_refl) as Pf. unfold pb in Pf. rewrite Nv in Pf. auto.
Qed.
End Tab.

(** ** Sizes *)
Lemma next_pow2_spec n : 2 <= n -> exists k, next_pow2 n = 2 ^ k /\ n <= 2 ^ k < 2 * n.
Proof.
  intros L. unfold next_pow2. replace (n <=? 1) with false by (symmetry; apply N.leb_gt; lia).
  exists (N.size (n - 1)). split; auto. rewrite N.size_log2 by lia.
  pose proof (N.log2_spec (n - 1) ltac:(lia)) as [A1 A2]. rewrite N.pow_succ_r' in *. lia.
Qed.
Lemma buckets_ok T n : 8 <= tub T -> n * 8 < 2 ^ tub T ->
  exists k ub2, capacity_to_buckets T n = Some (2 ^ k) /\ 2 <= k /\ tub T = k + 2 + ub2
  /\ n <= bucket_mask_to_capacity (2 ^ k - 1) /\ (8 <= n -> 16 <= 2 ^ k).
Proof.
  intros U L. unfold capacity_to_buckets. destruct (N.ltb_spec n 8) as [S0|S0].
  - destruct (N.ltb_spec n 4).
    + exists 2, (tub T - 4). split; [auto|]. split; [lia|]. split; [lia|]. change (bucket_mask_to_capacity (2 ^ 2 - 1)) with 3. lia.
    + exists 3, (tub T - 5). split; [auto|]. split; [lia|]. split; [lia|]. change (bucket_mask_to_capacity (2 ^ 3 - 1)) with 7. lia.
  - replace (2 ^ tub T <=? n * 8) with false by (symmetry; apply N.leb_gt; lia).
    pose proof (N.div_mod (n * 8) 7 ltac:(lia)) as D. pose proof (N.mod_lt (n * 8) 7 ltac:(lia)) as D'.
    set (a := n * 8 / 7) in *. assert (9 <= a) as A by (assert (64 < 7 * a + 7) by lia; lia).
    destruct (next_pow2_spec a ltac:(lia)) as (k & E & R). rewrite E.
    assert (K3 : 3 < k).
    { destruct (N.lt_ge_cases 3 k) as [|C]; auto. assert (2 ^ k <= 2 ^ 3) by (apply N.pow_le_mono_r; lia). change (2 ^ 3) with 8 in *. lia. }
    assert (Ku : k + 2 <= tub T).
    { assert (7 * a < 2 ^ tub T) by lia. destruct (N.le_gt_cases (k + 2) (tub T)) as [|C]; auto. exfalso.
      assert (2 ^ tub T <= 2 ^ (k + 1)) by (apply N.pow_le_mono_r; lia). rewrite N.pow_add_r in *. change (2 ^ 1) with 2 in *. lia. }
    exists k, (tub T - k - 2). split; auto. split; [lia|]. split; [lia|].
    assert (P8 : 2 ^ k = 8 * 2 ^ (k - 3)). { replace k with (3 + (k - 3)) at 1 by lia. rewrite N.pow_add_r. auto. }
    assert (2 ^ (k - 3) <> 1). { intros X. rewrite X in P8. lia. }
    assert (0 < 2 ^ (k - 3)) by (apply N.neq_0_lt_0, N.pow_nonzero; lia). split; [|lia].
    unfold bucket_mask_to_capacity. replace (2 ^ k - 1 <? 8) with false by (symmetry; apply N.ltb_ge; lia).
    replace (2 ^ k - 1 + 1) with (2 ^ (k - 3) * 8) by lia. rewrite N.div_mul by lia. lia.
Qed.

Lemma target_ub T : swiss_target T -> 8 <= tub T.
Proof. intros [_ [E|[E|E]]]; unfold tub; rewrite E; lia. Qed.

Lemma store_ok {V} T (zero : V) es : swiss_target T -> lenN es * 8 < 2 ^ tub T ->
  exists t, store_raw T zero es = Some (ZOk t) /\
  exists k ub2 occ, capacity_to_buckets T (lenN es) = Some (2 ^ k) /\ 2 <= k /\ tub T = k + 2 + ub2 /\ built T (2 ^ k) t occ es
    /\ lenN es <= bucket_mask_to_capacity (2 ^ k - 1) /\ (8 <= lenN es -> 16 <= 2 ^ k).
Proof.
  intros Tg L. pose proof (target_ub T Tg) as U. destruct (buckets_ok T (lenN es) U L) as (k & ub2 & C & K2 & Hu & Cap & B16).
  destruct (store_built T (target_group T Tg) (2 ^ k) k ub2 eq_refl K2 Hu U zero es C Cap) as (t & occ & E & Bt).
  exists t. split; auto. exists k, ub2, occ. auto 10.
Qed.

(** ** Damaged tables *)
Lemma find_loop_total T ctl mask hh eq : 0 < tw T -> forall fuel pos t,
  mask / tw T + 2 <= N.of_nat fuel + N.of_nat t -> (0 < fuel)%nat ->
  find_loop fuel T ctl mask hh eq (pos, N.of_nat t * tw T) <> None.
Proof.
  intros W0. induction fuel as [|fuel IH]; intros pos t L F; [lia|].
  cbn [find_loop]. destruct (uadd (tub T) pos (tw T)); try discriminate.
  destruct (window ctl pos (gw (tg T))) as [bs|]; [|discriminate].
  destruct (try_bits _ _ _ _ _) as [[i|]| | |]; try discriminate.
  destruct (negb _); [discriminate|].
  unfold move_next. destruct (N.ltb_spec mask (N.of_nat t * tw T)) as [|M]; [discriminate|].
  unfold uadd at 1. destruct (_ <? _); cbn [zbind]; [|discriminate].
  unfold uadd. destruct (_ <? _); cbn [zbind]; [|discriminate].
  replace (N.of_nat t * tw T + tw T) with (N.of_nat (S t) * tw T) by lia.
  assert (N.of_nat t <= mask / tw T) by (apply N.div_le_lower_bound; lia). apply IH; lia.
Qed.
Lemma find_total {V} T ctl mask hash (entry : N -> zres V) eq : 0 < tw T -> find T ctl mask hash entry eq <> None.
Proof.
  intros W0. unfold find, find_inner. pose proof (find_loop_total T ctl mask (h2 T hash)
    (fun i => let+ v := entry i in eq v) W0 (find_fuel mask (tw T)) (N.land (h1 T hash) mask) 0) as H.
  unfold probe_seq. change (N.of_nat 0 * tw T) with 0 in H.
  destruct (find_loop _ _ _ _ _ _ _); [discriminate|]. exfalso. apply H; auto; unfold find_fuel; generalize (mask / tw T); intros; lia.
Qed.

Definition calm {A} (r : zres A) : Prop := exists a, r = ZOk a \/ r = ZErr.
Definition quiet {A} (r : zres A) : Prop := r <> ZPanic /\ r <> ZUb.
Lemma quiet_bind {A B} (r : zres A) (f : A -> zres B) : quiet r -> (forall a, r = ZOk a -> quiet (f a)) -> quiet (zbind r f).
Proof. intros [H1 H2] H. destruct r; cbn [zbind]; try congruence; auto. split; discriminate. Qed.
Lemma quiet_ok {A} (a : A) : quiet (ZOk a). Proof. split; discriminate. Qed.
Lemma quiet_err {A} : quiet (@ZErr A). Proof. split; discriminate. Qed.

Lemma land_le x m : N.land x m <= m.
Proof.
  destruct (N.le_gt_cases (N.land x m) m) as [|C]; auto. exfalso.
  assert (E : N.ldiff m (N.land x m) + N.land x m = m).
  { rewrite N.add_nocarry_lxor.
    - apply N.bits_inj. intros j. rewrite N.lxor_spec, N.ldiff_spec, N.land_spec.
      destruct (N.testbit x j), (N.testbit m j); auto.
    - apply N.bits_inj. intros j. rewrite N.land_spec, N.ldiff_spec, N.land_spec, N.bits_0.
      destruct (N.testbit x j), (N.testbit m j); auto. }
  lia.
Qed.
Lemma try_bits_quiet T mask pos eq : (forall i, quiet (eq i)) -> forall bits, (forall b, In b bits -> pos + b < 2 ^ tub T) ->
  quiet (try_bits T mask pos eq bits).
Proof.
  intros Q. induction bits as [|b bits IH]; intros H; [apply quiet_ok|]. cbn [try_bits].
  rewrite uadd_fits by (apply H; cbn; auto). cbn [zbind]. apply quiet_bind; auto. intros [] _; [apply quiet_ok|].
  apply IH. intros b' I. apply H. cbn. auto.
Qed.
Lemma bytes_ok_window ctl pos w bs : bytes_ok ctl = true -> window ctl pos w = Some bs -> bytes_ok bs = true /\ length bs = w.
Proof.
  unfold window. intros Ok. destruct (N.leb_spec (pos + N.of_nat w) (lenN ctl)) as [L|]; [|discriminate]. intros E. inversion E; subst. split.
  - apply Forall_bytes. apply bytes_Forall in Ok. rewrite Forall_forall in *. intros x X. apply Ok.
    rewrite <- (firstn_skipn (N.to_nat pos) ctl). apply in_or_app. right.
    rewrite <- (firstn_skipn w (skipn (N.to_nat pos) ctl)). apply in_or_app. auto.
  - unfold lenN in L. rewrite firstn_length, skipn_length. lia.
Qed.
Lemma find_loop_quiet T ctl mask hh eq : group_ok (tg T) -> bytes_ok ctl = true -> hh < 128 ->
  2 * mask + 2 * tw T < 2 ^ tub T -> (forall i, quiet (eq i)) -> forall fuel pos stride r, pos <= mask -> stride <= mask + tw T ->
  find_loop fuel T ctl mask hh eq (pos, stride) = Some r -> quiet r.
Proof.
  intros G Ok Hh L Q. induction fuel as [|fuel IH]; intros pos stride r P St E; [discriminate|].
  cbn [find_loop] in E. rewrite uadd_fits in E by lia.
  destruct (window ctl pos (gw (tg T))) as [bs|] eqn:Wn; [|inversion E; apply quiet_err].
  destruct (bytes_ok_window _ _ _ _ Ok Wn) as [Ob Lb].
  assert (Qt : quiet (try_bits T mask pos eq (gbits (tg T) bs hh))).
  { apply try_bits_quiet; auto. intros b I. destruct (g_in _ G bs hh b Lb Ob Hh I) as (x & X & _). apply nth_lt in X. unfold tw in L. lia. }
  unfold gbits in Qt. destruct Qt as [Q1 Q2].
  destruct (try_bits _ _ _ _ _) as [[i|]| | |]; try (inversion E; apply quiet_ok || apply quiet_err); try congruence.
  destruct (negb _); [inversion E; apply quiet_ok|].
  unfold move_next in E. destruct (N.ltb_spec mask stride) as [|M]; [inversion E; apply quiet_err|].
  rewrite uadd_fits in E by lia. cbn [zbind] in E. rewrite uadd_fits in E by lia. cbn [zbind] in E.
  eapply IH; [| |exact E]; [apply land_le|lia].
Qed.
Lemma find_quiet {V} T ctl mask hash (entry : N -> zres V) eq r : swiss_target T -> bytes_ok ctl = true ->
  2 * mask + 2 * tw T < 2 ^ tub T -> (forall i, quiet (entry i)) -> (forall v, quiet (eq v)) ->
  find T ctl mask hash entry eq = Some r -> quiet r.
Proof.
  intros Tg Ok L Q1 Q2. unfold find, find_inner, probe_seq.
  destruct (find_loop _ _ _ _ _ _ _) as [r0|] eqn:E; [|discriminate].
  apply find_loop_quiet in E; auto using target_group, h2_lt, land_le; [| |lia].
  - intros X. inversion X; subst. apply quiet_bind; auto. intros [i|] _; [|apply quiet_ok].
    apply quiet_bind; auto. intros; apply quiet_ok.
  - intros i. apply quiet_bind; auto.
Qed.
