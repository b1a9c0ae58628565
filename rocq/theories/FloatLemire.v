(** The Eisel-Lemire algorithm of dec2flt is exact, or says that it does not know. *)
From Verif Require Import Base BaseFacts FloatSpec Dec2fltTable Dec2flt FloatFacts FloatFast.
From Coq Require Import QArith Lqa Qpower.
From Coq Require Import Lia.
Local Open Scope N_scope.

(** ** The table of powers of five *)

(** [5 ^ q] as a number in [2 ^ 127 .. 2 ^ 128] *)
Definition fl (q : Z) : Z := (power q - 63 - q)%Z.
Definition tnum (q : Z) : N := (if (0 <=? q)%Z then 5 ^ Z.to_N q else 1) * 2 ^ Z.to_N (127 - fl q).
Definition tden (q : Z) : N := (if (0 <=? q)%Z then 1 else 5 ^ Z.to_N (- q)) * 2 ^ Z.to_N (fl q - 127).

Definition entry_ok (q : Z) (a b : N) : bool :=
  let T := a * 2 ^ 64 + b in
  (a <? 2 ^ 64) && (b <? 2 ^ 64) && (2 ^ 63 <=? a) && (2 ^ 127 * tden q <=? tnum q) && (tnum q <? 2 ^ 128 * tden q) &&
  (if (-27 <=? q)%Z && (q <? 0)%Z
   then (1 <=? b) && ((T - 1) * tden q <=? tnum q) && (tnum q <? T * tden q) && (128 <=? 127 - fl q)%Z
   else (T * tden q <=? tnum q) && (tnum q <? (T + 1) * tden q)) &&
  (if (0 <=? q)%Z && (q <=? 55)%Z then (T * tden q =? tnum q) else true).

Fixpoint inv_loop (n : nat) (a x : N) : N :=
  match n with O => x | S n => inv_loop n a ((x * (2 ^ 73 * 4 + 2 - (a * x) mod 2 ^ 73)) mod 2 ^ 73) end.
Definition inv73 (a : N) : N := inv_loop 7 a a.
(** No multiple of the entry, by less than [2 ^ 64], is 0 or 1 after a multiple of [2 ^ 73]. *)
Definition entry_tie (q : Z) (a : N) : bool :=
  if (-17 <=? q)%Z && (q <? 0)%Z
  then negb (a mod 2 ^ 10 =? 0) && (N.even a || ((a * inv73 a) mod 2 ^ 73 =? 1) && (2 ^ 64 <=? inv73 a))
  else true.
Definition entry_even (q : Z) (a b : N) : bool :=
  if (0 <=? q)%Z && (q <=? 23)%Z then (a mod 2 ^ 10 =? 0) && (b =? 0) else true.

Fixpoint table_check (q : Z) (l : list (N * N)) : bool :=
  match l with
  | [] => (q =? 309)%Z
  | (a, b) :: r => entry_ok q a b && entry_tie q a && entry_even q a b && table_check (q + 1) r
  end.
Lemma table_checked : table_check (-342) POWER_OF_FIVE_128 = true.
Proof. vm_compute. reflexivity. Qed.

Lemma table_check_nth l : forall q0, table_check q0 l = true -> forall i, (Z.of_nat i < 309 - q0)%Z ->
  exists a b, nth_error l i = Some (a, b) /\
    entry_ok (q0 + Z.of_nat i) a b = true /\ entry_tie (q0 + Z.of_nat i) a = true /\ entry_even (q0 + Z.of_nat i) a b = true.
Proof.
  induction l as [|[a b] l IH]; intros q0 H i L; cbn [table_check] in H.
  - apply Z.eqb_eq in H. lia.
  - rewrite !andb_true_iff in H. destruct H as [[[H1 H2] H3] H4]. destruct i as [|i].
    + exists a, b. replace (q0 + Z.of_nat 0)%Z with q0 by lia. auto.
    + destruct (IH _ H4 i) as (a' & b' & A & C); [lia|]. exists a', b'. split; [assumption|].
      replace (q0 + Z.of_nat (S i))%Z with (q0 + 1 + Z.of_nat i)%Z by lia. assumption.
Qed.

Lemma table_entry q : (-342 <= q <= 308)%Z ->
  exists a b, nth_error POWER_OF_FIVE_128 (Z.to_nat (q + 342)) = Some (a, b) /\
    entry_ok q a b = true /\ entry_tie q a = true /\ entry_even q a b = true.
Proof.
  intro H. destruct (table_check_nth _ _ table_checked (Z.to_nat (q + 342))) as (a & b & A); [lia|].
  exists a, b. replace (-342 + Z.of_nat (Z.to_nat (q + 342)))%Z with q in A by lia. assumption.
Qed.

Lemma tden_pos q : 0 < tden q.
Proof.
  unfold tden. pose proof (p2pos (Z.to_N (fl q - 127))). destruct (0 <=? q)%Z; [lia|].
  assert (0 < 5 ^ Z.to_N (- q)) by (apply N.neq_0_lt_0, N.pow_nonzero; lia). nia.
Qed.

Lemma tden_neg q : (q < 0)%Z -> (128 <= 127 - fl q)%Z -> tden q = 5 ^ Z.to_N (- q) /\ tnum q = 2 ^ 128 * 2 ^ Z.to_N (127 - fl q - 128).
Proof.
  intros H1 H2. unfold tden, tnum. replace (0 <=? q)%Z with false by (symmetry; apply Z.leb_gt; lia). split.
  - replace (Z.to_N (fl q - 127)) with 0 by lia. rewrite N.pow_0_r. lia.
  - rewrite <- N.pow_add_r. rewrite N.mul_1_l. f_equal. lia.
Qed.

Lemma odd_divide u n m : N.odd u = true -> (u | 2 ^ n * m) -> (u | m).
Proof.
  intro Hu. revert m. induction n as [|n IH] using N.peano_ind; intros m H; [rewrite N.pow_0_r, N.mul_1_l in H; assumption|].
  rewrite N.pow_succ_r', (N.mul_comm 2), <- N.mul_assoc in H. apply IH in H. destruct H as [k H].
  assert (E : N.even (k * u) = true) by (rewrite <- H, N.even_mul; reflexivity).
  rewrite N.even_mul, <- (N.negb_odd u), Hu, orb_false_r in E. apply N.even_spec in E. destruct E as [k' ->].
  exists k'. nia.
Qed.
Lemma divide_odd u n : N.odd u = true -> forall m, (2 ^ n | u * m) -> (2 ^ n | m).
Proof.
  intro Hu. induction n as [|n IH] using N.peano_ind; intros m H; [rewrite N.pow_0_r; apply N.divide_1_l|].
  rewrite N.pow_succ_r' in *. destruct H as [k H].
  assert (E : N.even (u * m) = true) by (rewrite H, !N.even_mul; cbn; apply orb_true_r).
  rewrite N.even_mul, <- (N.negb_odd u), Hu, orb_false_l in E. apply N.even_spec in E. destruct E as [m' ->].
  destruct (IH m') as [c Hc]; [exists k; nia|]. exists c. nia.
Qed.
Lemma odd_pow5 n : N.odd (5 ^ n) = true.
Proof. induction n as [|n IH] using N.peano_ind; [reflexivity|]. rewrite N.pow_succ_r', N.odd_mul, IH. reflexivity. Qed.

Lemma ones_low p r m : 0 < p -> 0 < r -> (p * r * m + (p * r - 1)) mod p = p - 1.
Proof.
  intros P R. symmetry. apply N.mod_unique with (r * m + r - 1); [lia|].
  replace r with (1 + (r - 1)) by lia. generalize (r - 1) as z. intro z.
  replace (1 + z - 1) with z by lia. replace p with (1 + (p - 1)) by lia. generalize (p - 1) as y. intro y.
  replace ((1 + z) * m + (1 + z) - 1) with ((1 + z) * m + z) by lia.
  replace ((1 + y) * (1 + z) - 1) with (y + z + y * z) by lia. lia.
Qed.

Lemma sub1_mul w t d : 1 <= t -> w * ((t - 1) * d) + w * d = w * t * d.
Proof. intro H. replace t with (t - 1 + 1) at 2 by lia. ring. Qed.

(** ** The product *)
Section Lemire.
Variables (q : Z) (W a b mb : N).
Hypothesis (Hmb : mb <= 60).
Hypothesis (HW1 : 2 ^ 63 <= W) (HW2 : W < 2 ^ 64).
Let T := a * 2 ^ 64 + b.
Let X := W * tnum q.
Let D := 2 ^ 128 * tden q.

Hypothesis (Ha : a < 2 ^ 64) (Hb : b < 2 ^ 64) (Ha2 : 2 ^ 63 <= a).
Hypothesis (Ht : if (-27 <=? q)%Z && (q <? 0)%Z
   then 1 <= b /\ (T - 1) * tden q <= tnum q /\ tnum q < T * tden q /\ (128 <= 127 - fl q)%Z
   else T * tden q <= tnum q /\ tnum q < (T + 1) * tden q).
Hypothesis (Hx : (0 <= q <= 55)%Z -> T * tden q = tnum q).

Definition first_ok (lo hi : N) : Prop := hi * 2 ^ 64 + lo = W * a /\ hi mod 2 ^ (61 - mb) <> 2 ^ (61 - mb) - 1.
Definition second_ok (lo hi : N) : Prop :=
  (W * a / 2 ^ 64) mod 2 ^ (61 - mb) = 2 ^ (61 - mb) - 1 /\
  (hi * 2 ^ 64 + lo) * 2 ^ 64 <= W * T < (hi * 2 ^ 64 + lo + 1) * 2 ^ 64.

Lemma first_bounds lo hi : lo < 2 ^ 64 -> first_ok lo hi -> hi * D <= X /\ X < (hi + 2) * D /\ (hi * 2 ^ 64 + lo) * 2 ^ 64 * tden q <= X.
Proof.
  intros Hlo [E _]. pose proof (tden_pos q) as Pd. subst X D.
  assert (L : a * 2 ^ 64 * tden q <= tnum q /\ tnum q < (a + 1) * 2 ^ 64 * tden q).
  { clear Hx E HW1 HW2. unfold T in Ht.
    destruct ((-27 <=? q)%Z && (q <? 0)%Z).
    - destruct Ht as (H1 & H2 & H3 & _). split; [|nia].
      eapply N.le_trans; [|exact H2]. apply N.mul_le_mono_r. lia.
    - destruct Ht as (H2 & H3). split; [|nia].
      eapply N.le_trans; [|exact H2]. apply N.mul_le_mono_r. lia. }
  destruct L as [L1 L2]. change (2 ^ 128) with (2 ^ 64 * 2 ^ 64) in *.
  set (p := 2 ^ 64) in *. clearbody p. set (d := tden q) in *. set (t := tnum q) in *. clearbody d t.
  assert (G1 : (hi * p + lo) * p * d <= W * t).
  { rewrite E. apply N.le_trans with (W * (a * p * d)); [nia|]. apply N.mul_le_mono_l, L1. }
  split; [|split; [|assumption]].
  - eapply N.le_trans; [|exact G1]. nia.
  - assert (G2 : W * t < W * ((a + 1) * p * d)) by (apply N.mul_lt_mono_pos_l; [lia|assumption]).
    eapply N.lt_le_trans; [exact G2|].
    replace (W * ((a + 1) * p * d)) with ((W * a + W) * (p * d)) by ring. rewrite <- E.
    replace ((hi + 2) * (p * p * d)) with ((hi * p + 2 * p) * (p * d)) by ring.
    apply N.mul_le_mono_r. lia.
Qed.

Lemma second_bounds lo hi :
  lo < 2 ^ 64 -> (lo <> 2 ^ 64 - 1 \/ (-27 <= q <= 55)%Z) -> second_ok lo hi -> hi * D <= X /\ X < (hi + 1) * D.
Proof.
  intros Hlo Hl [_ [E1 E2]]. pose proof (tden_pos q) as Pd. subst X D.
  destruct ((-27 <=? q)%Z && (q <? 0)%Z) eqn:C.
  - destruct Ht as (H1 & H2 & H3 & H4). apply andb_true_iff in C. rewrite Z.leb_le, Z.ltb_lt in C.
    destruct (tden_neg q ltac:(lia) H4) as [F1 F2].
    assert (P5 : tden q <= 5 ^ 27). { rewrite F1. apply N.pow_le_mono_r; lia. }
    assert (HT : 1 <= T) by (unfold T; lia).
    assert (C1 : 2 ^ 64 * 5 ^ 27 < 2 ^ 128) by (vm_compute; reflexivity).
    change (2 ^ 128) with (2 ^ 64 * 2 ^ 64) in *.
    set (p := 2 ^ 64) in *. clearbody p. set (p27 := 5 ^ 27) in *. clearbody p27. clearbody T.
    set (d := tden q) in *. set (t := tnum q) in *. set (c := 2 ^ Z.to_N (127 - fl q - 128)) in *. clearbody d t c.
    split.
    + destruct (N.le_gt_cases (hi * (p * p * d)) (W * t)) as [G|G]; [assumption|exfalso].
      assert (G1 : W * c < hi * d). { rewrite F2 in G. nia. }
      assert (G2 : W * t + p * p <= hi * (p * p * d)). { rewrite F2. nia. }
      assert (G3 : W * ((T - 1) * d) <= W * t) by (apply N.mul_le_mono_l; assumption).
      assert (G4 : W * ((T - 1) * d) + W * d = W * T * d) by (apply sub1_mul; assumption).
      assert (G5 : hi * p * p * d <= W * T * d) by (apply N.mul_le_mono_r; lia).
      assert (G6 : W * d < p * p). { apply N.le_lt_trans with (p * p27); [|assumption]. apply N.mul_le_mono; lia. }
      lia.
    + assert (G1 : W * t < W * (T * d)) by (apply N.mul_lt_mono_pos_l; lia).
      assert (G2 : W * T * d < (hi * p + lo + 1) * p * d) by (apply N.mul_lt_mono_pos_r; assumption).
      assert (G3 : (hi * p + lo + 1) * p * d <= (hi + 1) * (p * p * d)).
      { replace ((hi + 1) * (p * p * d)) with ((hi * p + p) * p * d) by ring.
        apply N.mul_le_mono_r, N.mul_le_mono_r. lia. }
      lia.
  - destruct Ht as (H2 & H3). apply andb_false_iff in C. rewrite Z.leb_gt, Z.ltb_ge in C.
    change (2 ^ 128) with (2 ^ 64 * 2 ^ 64) in *.
    assert (Hl2 : lo + 2 <= 2 ^ 64 \/ T * tden q = tnum q).
    { destruct Hl as [Hl|Hl]; [left; lia|right; apply Hx; lia]. }
    set (p := 2 ^ 64) in *. clearbody p. clearbody T.
    set (d := tden q) in *. set (t := tnum q) in *. clearbody d t.
    split.
    + assert (G1 : W * (T * d) <= W * t) by (apply N.mul_le_mono_l; assumption).
      assert (G2 : hi * p * p * d <= W * T * d) by (apply N.mul_le_mono_r; nia). lia.
    + destruct Hl2 as [Hl2|Hl2].
      * assert (G1 : W * t < W * ((T + 1) * d)) by (apply N.mul_lt_mono_pos_l; lia).
        assert (G2 : W * T + W <= (hi * p + lo + 2) * p) by lia.
        assert (G3 : (W * T + W) * d <= (hi * p + lo + 2) * p * d) by (apply N.mul_le_mono_r; assumption).
        assert (G4 : (hi * p + lo + 2) * p * d <= (hi * p + p) * p * d).
        { apply N.mul_le_mono_r, N.mul_le_mono_r. lia. }
        lia.
      * rewrite <- Hl2.
        assert (G2 : W * T * d < (hi * p + lo + 1) * p * d) by (apply N.mul_lt_mono_pos_r; assumption).
        assert (G3 : (hi * p + lo + 1) * p * d <= (hi * p + p) * p * d).
        { apply N.mul_le_mono_r, N.mul_le_mono_r. lia. }
        lia.
Qed.

(** The upper bits are exact. *)
Lemma top_bounds lo hi sh :
  lo < 2 ^ 64 -> (lo <> 2 ^ 64 - 1 \/ (-27 <= q <= 55)%Z) -> first_ok lo hi \/ second_ok lo hi -> 61 - mb <= sh ->
  hi / 2 ^ sh * 2 ^ sh * D <= X /\ X < (hi / 2 ^ sh + 1) * 2 ^ sh * D.
Proof.
  intros Hlo Hl Hor Hsh. pose proof (p2pos sh) as Ps.
  assert (Dv : hi = 2 ^ sh * (hi / 2 ^ sh) + hi mod 2 ^ sh) by (apply N.div_mod; lia).
  assert (Mv : hi mod 2 ^ sh < 2 ^ sh) by (apply N.mod_lt; lia).
  assert (G : hi * D <= X /\ (X < (hi + 1) * D \/ X < (hi + 2) * D /\ hi mod 2 ^ sh <> 2 ^ sh - 1)).
  { destruct Hor as [Hor|Hor].
    - pose proof (first_bounds lo hi Hlo Hor) as (G1 & G2 & _). split; [assumption|]. right. split; [assumption|].
      destruct Hor as [_ Hne]. intro Eq. apply Hne.
      assert (Es : 2 ^ sh = 2 ^ (61 - mb) * 2 ^ (sh - (61 - mb))). { rewrite <- N.pow_add_r. f_equal. clear - Hsh. lia. }
      pose proof (p2pos (61 - mb)) as Pp. pose proof (p2pos (sh - (61 - mb))) as Pr.
      rewrite Dv, Eq, Es. apply ones_low; assumption.
    - pose proof (second_bounds lo hi Hlo Hl Hor) as [G1 G2]. auto. }
  destruct G as [G1 G2]. set (m := hi / 2 ^ sh) in *. clearbody m X D. set (p := 2 ^ sh) in *. clearbody p.
  split.
  - eapply N.le_trans; [|exact G1]. apply N.mul_le_mono_r. nia.
  - destruct G2 as [G2|[G2 G3]]; (eapply N.lt_le_trans; [exact G2|]; apply N.mul_le_mono_r; nia).
Qed.

(** Ties *)
Hypothesis (He : (0 <= q <= 23)%Z -> a mod 2 ^ 10 = 0 /\ b = 0).
Hypothesis (Hi : (-17 <= q < 0)%Z -> a mod 2 ^ 10 <> 0 /\
  (N.even a = true \/ exists a', (a * a') mod 2 ^ 73 = 1 /\ 2 ^ 64 <= a' /\ a' < 2 ^ 73)).
Lemma no_tie_first m sh lo hi : first_ok lo hi -> lo <= 1 -> hi = m * 2 ^ sh -> 9 <= sh -> (-17 <= q < 0)%Z -> False.
Proof.
  intros [E _] L Eh Hs Hq. destruct (Hi Hq) as [H1 H2].
  assert (E2 : W * a = m * 2 ^ (sh - 9) * 2 ^ 73 + lo).
  { rewrite <- E, Eh. replace (2 ^ sh) with (2 ^ (sh - 9) * 2 ^ 9) by (rewrite <- N.pow_add_r; f_equal; lia).
    change (2 ^ 73) with (2 ^ 9 * 2 ^ 64). ring. }
  set (c := m * 2 ^ (sh - 9)) in *. clearbody c. clear Eh.
  assert (lo = 0 \/ lo = 1) as [-> | ->] by lia.
  - (* the power of two in a is at most 2 ^ 9 *)
    rewrite N.add_0_r in E2.
    assert (G : (2 ^ 73 | W * a)) by (exists c; lia).
    assert (V : exists k u, a = 2 ^ k * u /\ N.odd u = true /\ k < 10).
    { assert (A : forall n x, x mod 2 ^ N.of_nat n <> 0 -> exists k u, x = 2 ^ k * u /\ N.odd u = true /\ k < N.of_nat n).
      { induction n as [|n IH]; intros x Hx'. { rewrite N.mod_1_r in Hx'. congruence. }
        destruct (N.odd x) eqn:O.
        - exists 0, x. split; [rewrite N.pow_0_r; lia|]. split; [assumption|lia].
        - rewrite <- N.negb_even, negb_false_iff, N.even_spec in O. destruct O as [y ->].
          destruct (IH y) as (k & u & -> & Hu & Hk).
          { intro Z. apply Hx'. rewrite Nat2N.inj_succ, N.pow_succ_r', N.mul_mod_distr_l; [rewrite Z; reflexivity| |lia].
            apply N.pow_nonzero; lia. }
          exists (N.succ k), u. split; [rewrite N.pow_succ_r'; ring|]. split; [assumption|lia]. }
      destruct (A 10%nat a) as (k & u & A1 & A2 & A3); [exact H1|]. exists k, u. auto. }
    destruct V as (k & u & -> & Hu & Hk).
    replace (W * (2 ^ k * u)) with (u * (W * 2 ^ k)) in G by ring.
    apply divide_odd in G; [|assumption]. destruct G as [g Hg].
    assert (W * 2 ^ k < 2 ^ 64 * 2 ^ 9).
    { assert (Hk2 : 2 ^ k <= 2 ^ 9) by (apply N.pow_le_mono_r; lia). pose proof (p2pos k).
      apply N.lt_le_trans with (2 ^ 64 * 2 ^ k); [apply N.mul_lt_mono_pos_r; assumption|apply N.mul_le_mono_l; assumption]. }
    change (2 ^ 64 * 2 ^ 9) with (2 ^ 73) in H.
    assert (g = 0 \/ 1 <= g) as [->|G1] by lia; [|nia].
    pose proof (p2pos k). nia.
  - destruct H2 as [H2|(a' & A1 & A2 & A3)].
    + assert (O : N.even (W * a) = true) by (rewrite N.even_mul, H2; apply orb_true_r).
      rewrite E2, N.even_add, N.even_mul in O. change (N.even (2 ^ 73)) with true in O. change (N.even 1) with false in O.
      rewrite orb_true_r in O. discriminate.
    + assert (W mod 2 ^ 73 = a' mod 2 ^ 73).
      { transitivity ((W * ((a * a') mod 2 ^ 73)) mod 2 ^ 73); [rewrite A1, N.mul_1_r; reflexivity|].
        rewrite N.mul_mod_idemp_r by (apply N.pow_nonzero; lia). rewrite N.mul_assoc, E2.
        rewrite N.mul_add_distr_r, N.mul_1_l.
        replace (c * 2 ^ 73 * a') with (c * a' * 2 ^ 73) by ring.
        rewrite N.add_comm, N.mod_add by (apply N.pow_nonzero; lia). reflexivity. }
      rewrite !N.mod_small in H by (try assumption; eapply N.lt_trans; [exact HW2|vm_compute; reflexivity]). lia.
Qed.

Lemma tie_sound m sh lo hi :
  first_ok lo hi \/ second_ok lo hi -> lo <= 1 -> hi = m * 2 ^ sh -> 9 <= sh -> (-17 <= q <= 23)%Z -> X = m * 2 ^ sh * D.
Proof.
  intros Hor L Eh Hs Hq. pose proof (tden_pos q) as Pd.
  destruct (Z_lt_le_dec q 0) as [C|C].
  - destruct Hor as [Hor|Hor]. { exfalso. eapply no_tie_first; try eassumption; lia. }
    assert (Hlo : lo < 2 ^ 64) by (eapply N.le_lt_trans; [exact L|vm_compute; reflexivity]).
    destruct (second_bounds lo hi Hlo ltac:(lia) Hor) as [G1 _].
    destruct Hor as [_ [_ E2]].
    replace ((-27 <=? q)%Z && (q <? 0)%Z) with true in Ht.
    2: { symmetry. apply andb_true_iff. rewrite Z.leb_le, Z.ltb_lt. lia. }
    destruct Ht as (H1 & H2 & H3 & H4). destruct (tden_neg q C H4) as [F1 F2].
    assert (P5 : tden q <= 5 ^ 17). { rewrite F1. apply N.pow_le_mono_r; lia. }
    subst X D. rewrite <- Eh.
    assert (C1 : 2 ^ 65 * 5 ^ 17 < 2 ^ 128) by (vm_compute; reflexivity).
    change (2 ^ 65) with (2 * 2 ^ 64) in C1.
    rewrite F2 in *. set (p128 := 2 ^ 128) in *. assert (EP : p128 = 2 ^ 64 * 2 ^ 64) by reflexivity. clearbody p128.
    set (p := 2 ^ 64) in *. clearbody p. set (p17 := 5 ^ 17) in *. clearbody p17. clearbody T.
    set (d := tden q) in *. set (c := 2 ^ Z.to_N (127 - fl q - 128)) in *. clearbody d c.
    assert (G2 : W * (p128 * c) < W * (T * d)) by (apply N.mul_lt_mono_pos_l; lia).
    assert (G3 : W * T * d < (hi * p + lo + 1) * p * d) by (apply N.mul_lt_mono_pos_r; assumption).
    assert (G4 : (hi * p + lo + 1) * p * d <= hi * (p128 * d) + 2 * p * d).
    { subst p128. replace (hi * (p * p * d) + 2 * p * d) with ((hi * p + 2) * p * d) by ring.
      apply N.mul_le_mono_r, N.mul_le_mono_r. lia. }
    assert (G5 : 2 * p * d < p128). { eapply N.le_lt_trans; [|exact C1]. apply N.mul_le_mono_l, P5. }
    assert (G6 : W * c < hi * d + 1).
    { apply N.mul_lt_mono_pos_l with p128; [lia|]. lia. }
    assert (G7 : hi * d <= W * c).
    { apply N.mul_le_mono_pos_l with p128; [lia|]. lia. }
    assert (G8 : W * c = hi * d) by lia. replace (W * (p128 * c)) with (W * c * p128) by ring. rewrite G8. ring.
  - destruct (He ltac:(lia)) as [A1 A2]. pose proof (Hx ltac:(lia)) as A3.
    apply N.mod_divide in A1; [|lia]. destruct A1 as [a1 A1].
    assert (E0 : hi * 2 ^ 64 + lo = W * a).
    { destruct Hor as [[E _]|[_ [E1 E2]]]; [assumption|]. unfold T in E1, E2. rewrite A2, N.add_0_r in E1, E2.
      clear -E1 E2. set (p := 2 ^ 64) in *. assert (0 < p) by reflexivity. clearbody p. nia. }
    assert (lo = 0).
    { destruct (N.eq_dec lo 0) as [|NZ]; [assumption|exfalso]. assert (lo = 1) by lia. subst lo.
      rewrite A1 in E0. change (2 ^ 64) with (2 ^ 10 * 2 ^ 54) in E0.
      assert (M : (W * (a1 * 2 ^ 10)) mod 2 = (hi * (2 ^ 10 * 2 ^ 54) + 1) mod 2) by congruence.
      change (2 ^ 10) with (2 * 2 ^ 9) in M.
      replace (W * (a1 * (2 * 2 ^ 9))) with (W * a1 * 2 ^ 9 * 2) in M by ring.
      replace (hi * (2 * 2 ^ 9 * 2 ^ 54) + 1) with (1 + hi * 2 ^ 9 * 2 ^ 54 * 2) in M by ring.
      rewrite N.mod_mul, N.mod_add in M by lia. discriminate. }
    subst lo. rewrite N.add_0_r in E0. subst X D. rewrite <- A3. unfold T. rewrite A2, N.add_0_r, <- Eh.
    change (2 ^ 128) with (2 ^ 64 * 2 ^ 64).
    replace (W * (a * 2 ^ 64 * tden q)) with (W * a * 2 ^ 64 * tden q) by ring. rewrite <- E0. ring.
Qed.

(** If an odd multiple of a power of two is hit exactly, the power of five is small. *)
Lemma exact_small m n : N.odd m = true -> X = m * 2 ^ n * D ->
  ((0 <= q)%Z -> 5 ^ Z.to_N q <= m) /\ ((q < 0)%Z -> 5 ^ Z.to_N (- q) * m <= W).
Proof.
  intros Ho E. assert (0 < m) by (destruct m; [discriminate|lia]). subst X D. unfold tnum, tden in E. split; intro C.
  - replace (0 <=? q)%Z with true in E by (symmetry; apply Z.leb_le; lia).
    assert (Dv : (5 ^ Z.to_N q | m)).
    { assert (G : (5 ^ Z.to_N q | 2 ^ (n + 128 + Z.to_N (fl q - 127)) * m)).
      { exists (W * 2 ^ Z.to_N (127 - fl q)). rewrite !N.pow_add_r. lia. }
      apply odd_divide in G; [assumption|]. apply odd_pow5. }
    destruct Dv as [z Dv]. assert (0 < z) by (destruct z; [lia|lia]). nia.
  - replace (0 <=? q)%Z with false in E by (symmetry; apply Z.leb_gt; lia).
    assert (Dv : (5 ^ Z.to_N (- q) * m | W)).
    { assert (G : (5 ^ Z.to_N (- q) * m | 2 ^ Z.to_N (127 - fl q) * W)).
      { exists (2 ^ n * 2 ^ 128 * 2 ^ Z.to_N (fl q - 127)). lia. }
      apply odd_divide in G; [assumption|]. rewrite N.odd_mul, odd_pow5. assumption. }
    destruct Dv as [z Dv]. assert (0 < z); [|nia]. destruct z; [|lia]. rewrite N.mul_0_l in Dv. rewrite Dv in HW1.
    vm_compute in HW1. congruence.
Qed.

Lemma tie_complete m sh lo hi :
  lo < 2 ^ 64 -> first_ok lo hi \/ second_ok lo hi -> 61 - mb <= sh -> 9 <= sh -> (-27 <= q <= 23)%Z ->
  0 < m -> X = m * 2 ^ sh * D -> lo <= 1 /\ hi = m * 2 ^ sh.
Proof.
  intros Hlo Hor Hs1 Hs Hq Hm E. pose proof (tden_pos q) as Pd.
  destruct (Z_lt_le_dec q 0) as [C|C].
  - replace ((-27 <=? q)%Z && (q <? 0)%Z) with true in Ht.
    2: { symmetry. apply andb_true_iff. rewrite Z.leb_le, Z.ltb_lt. lia. }
    destruct Ht as (H1 & H2 & H3 & H4). destruct (tden_neg q C H4) as [F1 F2]. subst X D.
    destruct Hor as [Hor|Hor].
    + exfalso. destruct Hor as [E1 Hne]. apply Hne.
      (* a * 2^64 < t, so hi is one less than the multiple *)
      assert (L1 : a * 2 ^ 64 * tden q < tnum q).
      { (* t is not a whole number: 5 does not divide a power of two *)
        assert (L : a * 2 ^ 64 * tden q <= tnum q).
        { eapply N.le_trans; [|exact H2]. apply N.mul_le_mono_r. unfold T. clear - H1. lia. }
        destruct (N.eq_dec (a * 2 ^ 64 * tden q) (tnum q)) as [Eq|Nq]; [exfalso|clear - L Nq; lia].
        rewrite F1, F2 in Eq. replace (Z.to_N (- q)) with (N.succ (Z.to_N (- q) - 1)) in Eq by (clear - C; lia).
        rewrite N.pow_succ_r', <- N.pow_add_r in Eq.
        assert (Dv : (5 | 2 ^ (128 + Z.to_N (127 - fl q - 128)) * 1)).
        { exists (a * 2 ^ 64 * 5 ^ (Z.to_N (- q) - 1)). rewrite <- Eq. ring. }
        apply odd_divide in Dv; [|reflexivity].
        apply N.divide_1_r in Dv. discriminate. }
      assert (G3 : W * (a * 2 ^ 64 * tden q) < W * tnum q) by (apply N.mul_lt_mono_pos_l; [lia|assumption]).
      assert (G4 : W * tnum q < W * ((a + 1) * 2 ^ 64 * tden q)).
      { apply N.mul_lt_mono_pos_l; [lia|]. eapply N.lt_le_trans; [exact H3|]. apply N.mul_le_mono_r. unfold T. clear - Hb. lia. }
      rewrite E in G3, G4.
      assert (G5 : W * a < m * 2 ^ sh * 2 ^ 64).
      { apply N.mul_lt_mono_pos_r with (2 ^ 64 * tden q); [apply N.mul_pos_pos; [reflexivity|exact Pd]|].
        change (2 ^ 128) with (2 ^ 64 * 2 ^ 64) in G3. clear - G3. lia. }
      assert (G6 : m * 2 ^ sh * 2 ^ 64 < W * a + W).
      { apply N.mul_lt_mono_pos_r with (2 ^ 64 * tden q); [apply N.mul_pos_pos; [reflexivity|exact Pd]|].
        change (2 ^ 128) with (2 ^ 64 * 2 ^ 64) in G4. clear - G4. lia. }
      rewrite <- E1 in G5, G6.
      assert (G7 : hi + 1 = m * 2 ^ sh).
      { clear - G5 G6 Hlo HW2. set (p := 2 ^ 64) in *. assert (0 < p) by reflexivity. clearbody p.
        set (M := m * 2 ^ sh) in *. clearbody M.
        assert (hi < M) by nia. assert (M * p < (hi + 2) * p) by lia. assert (M < hi + 2) by nia. lia. }
      replace (2 ^ sh) with (2 ^ (sh - (61 - mb)) * 2 ^ (61 - mb)) in G7 by (rewrite <- N.pow_add_r; f_equal; clear - Hs1; lia).
      pose proof (p2pos (61 - mb)) as Pp. pose proof (p2pos (sh - (61 - mb))) as Pr.
      set (p := 2 ^ (61 - mb)) in *. set (r := 2 ^ (sh - (61 - mb))) in *. clearbody p r.
      assert (G8 : 0 < m * r) by (clear - Hm Pr; nia).
      replace hi with (p * (m * r) * 0 + (p * (m * r) - 1)) by (clear - G7; lia).
      apply ones_low; assumption.
    + destruct Hor as [_ [E1 E2]].
      (* W * T = W * t + less than 2^64 *)
      assert (HT : 1 <= T) by (unfold T; lia).
      change (2 ^ 128) with (2 ^ 64 * 2 ^ 64) in *.
      set (p := 2 ^ 64) in *. clearbody p. clearbody T. set (M := m * 2 ^ sh) in *. clearbody M.
      set (d := tden q) in *. set (t := tnum q) in *. clearbody d t.
      assert (G1 : W * t < W * (T * d)) by (apply N.mul_lt_mono_pos_l; lia).
      assert (G2 : W * ((T - 1) * d) <= W * t) by (apply N.mul_le_mono_l; assumption).
      assert (G4 : W * ((T - 1) * d) + W * d = W * T * d) by (apply sub1_mul; assumption).
      assert (G5 : M * p * p * d < W * T * d) by (clear - E G1; lia).
      assert (G6 : M * p * p < W * T) by (apply N.mul_lt_mono_pos_r with d; assumption).
      assert (G7 : W * T * d <= (M * p * p + W) * d) by (clear - E G2 G4; lia).
      assert (G8 : W * T <= M * p * p + W) by (apply N.mul_le_mono_pos_r with d; assumption).
      clear - E1 E2 G6 G8 HW2 Hlo.
      assert (G9 : M * p < hi * p + lo + 1).
      { apply N.mul_lt_mono_pos_r with p; lia. }
      assert (G10 : hi * p + lo < M * p + 1).
      { apply N.mul_lt_mono_pos_r with p; lia. }
      assert (G11 : hi * p + lo = M * p) by lia.
      assert (hi <= M) by (apply N.mul_le_mono_pos_r with p; lia).
      assert (M < hi + 1) by (apply N.mul_lt_mono_pos_r with p; lia).
      assert (hi = M) by lia. subst hi. split; [lia|reflexivity].
  - destruct (He ltac:(lia)) as [A1 A2]. pose proof (Hx ltac:(lia)) as A3.
    assert (E0 : hi * 2 ^ 64 + lo = W * a).
    { destruct Hor as [[E0 _]|[_ [E1 E2]]]; [assumption|]. unfold T in E1, E2. rewrite A2, N.add_0_r in E1, E2.
      clear -E1 E2. set (p := 2 ^ 64) in *. assert (0 < p) by reflexivity. clearbody p. nia. }
    subst X D. rewrite <- A3 in E. unfold T in E. rewrite A2, N.add_0_r in E.
    replace (W * (a * 2 ^ 64 * tden q)) with (W * a * 2 ^ 64 * tden q) in E by ring. rewrite <- E0 in E.
    change (2 ^ 128) with (2 ^ 64 * 2 ^ 64) in E. clear - E Hlo Pd.
    set (p := 2 ^ 64) in *. assert (0 < p) by reflexivity. clearbody p. set (M := m * 2 ^ sh) in *. clearbody M.
    set (d := tden q) in *. clearbody d.
    assert (G11 : hi * p + lo = M * p). { apply N.mul_cancel_r with (p * d); [|lia]. apply N.neq_0_lt_0, N.mul_pos_pos; assumption. }
    clear - Hlo G11.
    assert (hi <= M) by (apply N.mul_le_mono_pos_r with p; lia).
    assert (M < hi + 1) by (apply N.mul_lt_mono_pos_r with p; lia).
    assert (hi = M) by lia. subst hi. split; [lia|reflexivity].
Qed.
End Lemire.
