(** The result of the Eisel-Lemire algorithm *)
From Verif Require Import Base BaseFacts FloatSpec Dec2fltTable Dec2flt FloatFacts FloatFast FloatLemire.
From Coq Require Import QArith Lqa Qpower.
From Coq Require Import Lia.
Local Open Scope N_scope.

Definition sane (q : Z) (a b : N) : Prop :=
  let T := a * 2 ^ 64 + b in
  a < 2 ^ 64 /\ b < 2 ^ 64 /\ 2 ^ 63 <= a /\
  (if (-27 <=? q)%Z && (q <? 0)%Z
   then 1 <= b /\ (T - 1) * tden q <= tnum q /\ tnum q < T * tden q /\ (128 <= 127 - fl q)%Z
   else T * tden q <= tnum q /\ tnum q < (T + 1) * tden q) /\
  ((0 <= q <= 55)%Z -> T * tden q = tnum q) /\
  ((0 <= q <= 23)%Z -> a mod 2 ^ 10 = 0 /\ b = 0) /\
  ((-17 <= q < 0)%Z -> a mod 2 ^ 10 <> 0 /\
    (N.even a = true \/ exists a', (a * a') mod 2 ^ 73 = 1 /\ 2 ^ 64 <= a' /\ a' < 2 ^ 73)).

Lemma inv73_lt a : a < 2 ^ 64 -> inv73 a < 2 ^ 73.
Proof.
  intro H. unfold inv73. assert (G : forall n x, x < 2 ^ 73 -> inv_loop n a x < 2 ^ 73).
  { induction n as [|n IH]; intros x Hx; cbn [inv_loop]; [assumption|]. apply IH, N.mod_lt, N.pow_nonzero. lia. }
  apply G. eapply N.lt_trans; [exact H|reflexivity].
Qed.

Lemma table_sane q : (-342 <= q <= 308)%Z ->
  exists a b, nth_error POWER_OF_FIVE_128 (Z.to_nat (q + 342)) = Some (a, b) /\ sane q a b.
Proof.
  intro H. destruct (table_entry q H) as (a & b & E & H1 & H2 & H3). exists a, b. split; [assumption|].
  unfold entry_ok in H1. rewrite !andb_true_iff in H1. destruct H1 as [[[[[[A1 A2] A3] A4] A5] A6] A7].
  unfold sane.
  split; [apply N.ltb_lt, A1|]. split; [apply N.ltb_lt, A2|]. split; [apply N.leb_le, A3|].
  split; [|split; [|split]].
  - destruct ((-27 <=? q)%Z && (q <? 0)%Z).
    + rewrite !andb_true_iff, !N.leb_le, N.ltb_lt, Z.leb_le in A6. tauto.
    + rewrite !andb_true_iff, !N.leb_le, N.ltb_lt in A6. tauto.
  - intro C. replace ((0 <=? q)%Z && (q <=? 55)%Z) with true in A7.
    + apply N.eqb_eq, A7.
    + symmetry. rewrite andb_true_iff, !Z.leb_le. lia.
  - intro C. unfold entry_even in H3. replace ((0 <=? q)%Z && (q <=? 23)%Z) with true in H3.
    + rewrite andb_true_iff, !N.eqb_eq in H3. assumption.
    + symmetry. rewrite andb_true_iff, !Z.leb_le. lia.
  - intro C. unfold entry_tie in H2. replace ((-17 <=? q)%Z && (q <? 0)%Z) with true in H2.
    + rewrite andb_true_iff, orb_true_iff, andb_true_iff, negb_true_iff, N.eqb_neq, N.eqb_eq, N.leb_le in H2.
      destruct H2 as [B1 B2]. split; [assumption|]. destruct B2 as [B2|[B2 B3]]; [left; assumption|right].
      exists (inv73 a). split; [assumption|]. split; [assumption|]. apply inv73_lt, N.ltb_lt, A1.
    + symmetry. rewrite andb_true_iff, Z.leb_le, Z.ltb_lt. lia.
Qed.

Lemma mask_ones mb : mb <= 60 -> (if mb + 3 <? 64 then (2 ^ 64 - 1) / 2 ^ (mb + 3) else 2 ^ 64 - 1) = N.ones (61 - mb).
Proof.
  intro H. replace (mb + 3 <? 64) with true by (symmetry; apply N.ltb_lt; lia).
  rewrite <- N.pred_sub, <- N.ones_equiv, N.ones_div_pow2 by lia. f_equal. lia.
Qed.

Lemma product_ok q W mb :
  (-342 <= q <= 308)%Z -> mb <= 60 -> 2 ^ 63 <= W -> W < 2 ^ 64 ->
  exists lo hi a b, product_approx q W (mb + 3) = Ok (lo, hi) /\ sane q a b /\
    lo < 2 ^ 64 /\ 2 ^ 62 <= hi < 2 ^ 64 /\ (first_ok W a mb lo hi \/ second_ok W a b mb lo hi).
Proof.
  intros Hq Hmb W1 W2. destruct (table_sane q Hq) as (a & b & E & HS). unfold product_approx.
  replace (q <? -342)%Z with false by (symmetry; apply Z.ltb_ge; lia). rewrite E. clear E.
  rewrite mask_ones by assumption.
  rewrite N.land_ones, N.ones_equiv, N.pred_sub.
  pose proof HS as (Ha & Hb & Ha2 & _).
  assert (P : 0 < 2 ^ 64) by reflexivity. assert (E64 : 2 ^ 64 = 2 * 2 ^ 63) by reflexivity.
  assert (E126 : 2 ^ 63 * 2 ^ 63 = 2 ^ 62 * 2 ^ 64) by reflexivity.
  set (p := 2 ^ 64) in *. assert (Ep : 2 ^ 64 = p) by reflexivity.
  assert (Eu : forall n, u64 n = if n <? p then Ok n else Panic) by reflexivity.
  clearbody p.
  assert (Dv : W * a = p * (W * a / p) + (W * a) mod p) by (apply N.div_mod; lia).
  assert (Mv : (W * a) mod p < p) by (apply N.mod_lt; lia).
  assert (L1 : 2 ^ 63 * 2 ^ 63 <= W * a) by (apply N.mul_le_mono; assumption).
  assert (L2 : W * a < p * p) by (apply N.mul_lt_mono; assumption).
  set (hi := W * a / p) in *. set (lo := (W * a) mod p) in *.
  assert (R1 : 2 ^ 62 <= hi).
  { subst hi. apply N.div_le_lower_bound; [lia|]. lia. }
  assert (R2 : hi < p) by (subst hi; apply N.div_lt_upper_bound; lia).
  assert (Eh : W * a / p = hi) by reflexivity. clearbody hi lo. clear E126 L1.
  destruct (hi mod 2 ^ (61 - mb) =? 2 ^ (61 - mb) - 1) eqn:C.
  - apply N.eqb_eq in C.
    assert (Dv2 : W * b = p * (W * b / p) + (W * b) mod p) by (apply N.div_mod; lia).
    assert (Mv2 : (W * b) mod p < p) by (apply N.mod_lt; lia).
    set (s := W * b / p) in *. set (t := (W * b) mod p) in *.
    assert (Ls : s < p). { subst s. apply N.div_lt_upper_bound; [lia|]. apply N.mul_lt_mono; lia. }
    clearbody s t.
    assert (LT : W * (a * p + b) < p * (p * p)).
    { apply N.mul_lt_mono; [assumption|]. apply N.lt_le_trans with ((a + 1) * p); [lia|]. apply N.mul_le_mono_r. lia. }
    assert (ET : W * (a * p + b) = (hi * p + lo + s) * p + t) by (clear - Dv Dv2; lia).
    assert (SO : forall lo' hi', hi' * p + lo' = hi * p + lo + s -> second_ok W a b mb lo' hi').
    { intros lo' hi' E'. unfold second_ok. rewrite Ep, Eh. split; [assumption|]. rewrite ET, E'. clear - Mv2. lia. }
    destruct ((lo + s) mod p <? s) eqn:D; clear L2.
    + apply N.ltb_lt in D.
      assert (Ge : p <= lo + s). { destruct (N.le_gt_cases p (lo + s)) as [|G]; [assumption|]. rewrite N.mod_small in D by assumption. lia. }
      assert (Em : (lo + s) mod p = lo + s - p).
      { symmetry. clear - Ge Mv Ls. apply N.mod_unique with 1; lia. }
      assert (Hh : hi + 1 < p).
      { clear - ET LT Ge P. apply N.mul_lt_mono_pos_r with (p * p); [nia|].
        apply N.le_lt_trans with (W * (a * p + b)); [|lia]. rewrite ET.
        apply N.le_trans with ((hi * p + p) * p); [lia|]. apply N.le_trans with ((hi * p + (lo + s)) * p); [apply N.mul_le_mono_r; lia|]. lia. }
      rewrite Eu. replace (hi + 1 <? p) with true by (symmetry; apply N.ltb_lt; assumption). cbn [bind].
      exists ((lo + s) mod p), (hi + 1), a, b. split; [reflexivity|]. split; [assumption|].
      split; [apply N.mod_lt; clear - P; lia|]. split; [clear - R1 Hh; lia|]. right. apply SO. rewrite Em. clear - Ge. lia.
    + apply N.ltb_ge in D.
      assert (Lt : lo + s < p).
      { destruct (N.le_gt_cases p (lo + s)) as [G|]; [|assumption].
        assert (Em : (lo + s) mod p = lo + s - p) by (symmetry; clear - G Mv Ls; apply N.mod_unique with 1; lia).
        clear - D Em G Mv Ls. lia. }
      rewrite N.mod_small by assumption.
      exists (lo + s), hi, a, b. split; [reflexivity|]. split; [assumption|].
      split; [assumption|]. split; [lia|]. right. apply SO. lia.
  - apply N.eqb_neq in C. exists lo, hi, a, b. split; [reflexivity|]. split; [assumption|].
    split; [assumption|]. split; [lia|]. left. split; [|assumption]. rewrite Ep. lia.
Qed.

(** ** Bits *)
Lemma lor_add x y n : x < 2 ^ n -> N.lor x (y * 2 ^ n) = x + y * 2 ^ n.
Proof.
  intro H. assert (L : N.land x (y * 2 ^ n) = 0).
  { apply N.bits_inj_0. intro i. rewrite N.land_spec. destruct (N.lt_ge_cases i n) as [C|C].
    - rewrite N.mul_pow2_bits_low by assumption. apply andb_false_r.
    - replace (N.testbit x i) with false; [reflexivity|]. symmetry.
      destruct (N.eq_dec x 0) as [->|NZ]; [apply N.bits_0|]. apply N.bits_above_log2.
      apply N.log2_lt_pow2 in H; lia. }
  rewrite N.add_nocarry_lxor, N.lxor_lor by assumption. reflexivity.
Qed.
Lemma ldiff_sub m n : 2 ^ n <= m < 2 * 2 ^ n -> N.ldiff m (2 ^ n) = m - 2 ^ n.
Proof.
  intros [H1 H2]. symmetry. apply N.sub_nocarry_ldiff. apply N.bits_inj_0. intro i. rewrite N.ldiff_spec.
  rewrite N.pow2_bits_eqb. destruct (n =? i) eqn:E; [|reflexivity]. apply N.eqb_eq in E. subst i.
  assert (N.testbit m n = true); [|rewrite H; reflexivity].
  apply N.testbit_true. assert (E : m / 2 ^ n = 1); [|rewrite E; reflexivity].
  symmetry. apply N.div_unique with (m - 2 ^ n); lia.
Qed.

Lemma to_float_add B m e : m < 2 ^ mbits B -> (0 <= e)%Z -> (e < 2 ^ Z.of_N (ebits B))%Z ->
  to_float B {| bf := m; be := e |} = Z.to_N e * 2 ^ mbits B + m.
Proof.
  intros Hm He He2. unfold to_float. cbn [bf be]. rewrite lor_add by assumption.
  rewrite N.mod_small; [lia|]. rewrite <- N.add_assoc, N.pow_add_r, (N.pow_add_r 2 (ebits B)).
  assert (Z.to_N e < 2 ^ ebits B). { apply N2Z.inj_lt. rewrite N2Z.inj_pow, Z2N.id by lia. assumption. }
  pose proof (p2pos (mbits B)). rewrite N.pow_1_r. nia.
Qed.

(** ** The formats *)
Record facts (F : raw_float) : Prop := {
  f_ok : fmt_ok (r_bin F);
  f_mb : mbits (r_bin F) <= 52;
  f_min : r_min_exp F = (- bias (r_bin F))%Z;
  f_inf : r_inf F = (2 ^ Z.of_N (ebits (r_bin F)) - 1)%Z;
  f_bias : (127 <= bias (r_bin F))%Z;
  f_range : (-342 <= r_small F)%Z /\ (r_large F <= 308)%Z;
  f_even : (-17 <= r_min_even F <= 0)%Z /\ (0 <= r_max_even F <= 23)%Z;
  f_even_max : 4 * 2 ^ mbits (r_bin F) <= 5 ^ Z.to_N (r_max_even F + 1);
  f_even_min : 2 ^ 64 <= 5 ^ Z.to_N (1 - r_min_even F) * (2 * 2 ^ mbits (r_bin F));
  f_small : (iz (2 ^ 64) * 10 ^ (r_small F - 1) * 2 ^ K (r_bin F) < 1)%Q;
  f_large : (iz (2 ^ 2 ^ ebits (r_bin F)) <= 10 ^ (r_large F + 1) * 2 ^ bias (r_bin F))%Q
}.
Lemma std_facts F : std F -> facts F.
Proof.
  intros [->| ->].
  - constructor.
    + apply fmt32.
    + vm_compute. discriminate.
    + reflexivity.
    + reflexivity.
    + vm_compute. discriminate.
    + split; vm_compute; discriminate.
    + split; split; vm_compute; discriminate.
    + vm_compute. discriminate.
    + vm_compute. discriminate.
    + vm_compute. reflexivity.
    + vm_compute. discriminate.
  - constructor.
    + apply fmt64.
    + vm_compute. discriminate.
    + reflexivity.
    + reflexivity.
    + vm_compute. discriminate.
    + split; vm_compute; discriminate.
    + split; split; vm_compute; discriminate.
    + vm_compute. discriminate.
    + vm_compute. discriminate.
    + vm_compute. reflexivity.
    + vm_compute. discriminate.
Qed.

Lemma infinity_to_float F : facts F -> to_float (r_bin F) {| bf := 0; be := r_inf F |} = infinity (r_bin F).
Proof.
  intro H. rewrite to_float_add; rewrite ?(f_inf F H).
  - unfold infinity. rewrite N.add_0_r. f_equal. rewrite Z2N.inj_sub by lia.
    f_equal. rewrite Z2N.inj_pow by lia. rewrite N2Z.id. reflexivity.
  - apply p2pos.
  - assert (0 < 2 ^ Z.of_N (ebits (r_bin F)))%Z by (apply Z.pow_pos_nonneg; lia). lia.
  - lia.
Qed.
