(** Facts about the operations of the hardware and the fast path of dec2flt. *)
From Verif Require Import Base BaseFacts FloatSpec Dec2flt FloatFacts.
From Coq Require Import QArith Lqa Qpower.
From Coq Require Import Lia.
Local Open Scope N_scope.

Lemma bias_pos B : fmt_ok B -> (1 <= bias B)%Z.
Proof.
  intros [_ H]. unfold bias. assert ((2 ^ 1 <= 2 ^ (Z.of_N (ebits B) - 1))%Z) by (apply Z.pow_le_mono_r; lia). lia.
Qed.

Lemma K_N B : fmt_ok B -> 2 * 2 ^ Z.to_N (bias B - 1 + Z.of_N (mbits B)) = 2 ^ Z.to_N (K B).
Proof.
  intro H. pose proof (bias_pos B H). rewrite <- N.pow_succ_r'. f_equal. unfold K. lia.
Qed.

Lemma rnd_ok B num den : fmt_ok B -> 0 < den -> rounds_to B (iz num / iz den) (rnd B num den).
Proof.
  intros H Hd. apply rounds_to2. unfold rnd.
  set (x := 2 * num * 2 ^ Z.to_N (bias B - 1 + Z.of_N (mbits B))).
  set (q := x / den). set (s := if q <? 2 ^ (mbits B + 2) then 0 else N.log2 q - (mbits B + 1)).
  pose proof (p2pos (mbits B)) as P. pose proof (p2pos s) as Ps.
  assert (Y : (iz num / iz den * 2 ^ K B == iz x / iz den)%Q).
  { unfold x. replace (2 * num * 2 ^ Z.to_N (bias B - 1 + Z.of_N (mbits B))) with (num * 2 ^ Z.to_N (K B)).
    - rewrite iz_mul, iz_2pow. rewrite Z2N.id. { field. pose proof (iz_pos den Hd). lra. }
      pose proof (bias_pos B H). unfold K. lia.
    - rewrite <- K_N by assumption. ring. }
  assert (Dq : x = den * q + x mod den) by (apply N.div_mod; lia).
  assert (Mq : x mod den < den) by (apply N.mod_lt; lia).
  assert (Dm : q = 2 ^ s * (q / 2 ^ s) + q mod 2 ^ s) by (apply N.div_mod; lia).
  assert (Mm : q mod 2 ^ s < 2 ^ s) by (apply N.mod_lt; lia).
  set (m := q / 2 ^ s) in *.
  pose proof (iz_pos den Hd) as Qd.
  assert (S2 : s = 0 \/ 2 * 2 ^ mbits B <= m).
  { subst s. destruct (q <? 2 ^ (mbits B + 2)) eqn:E; [left; reflexivity|right]. apply N.ltb_ge in E.
    assert (L1 : mbits B + 2 <= N.log2 q). { apply N.log2_le_pow2; [pose proof (p2pos (mbits B + 2)); lia|assumption]. }
    subst m. apply N.div_le_lower_bound; [lia|].
    replace (2 * 2 ^ mbits B) with (2 ^ (mbits B + 1)); [|rewrite N.pow_add_r; lia].
    rewrite <- N.pow_add_r. replace (N.log2 q - (mbits B + 1) + (mbits B + 1)) with (N.log2 q) by lia.
    apply N.log2_spec. pose proof (p2pos (mbits B + 2)); lia. }
  assert (S4 : m < 4 * 2 ^ mbits B).
  { replace (4 * 2 ^ mbits B) with (2 ^ (mbits B + 2)); [|rewrite N.pow_add_r; lia].
    subst s. destruct (q <? 2 ^ (mbits B + 2)) eqn:E.
    - apply N.ltb_lt in E. subst m. rewrite N.pow_0_r, N.div_1_r. assumption.
    - apply N.ltb_ge in E.
      assert (L1 : mbits B + 2 <= N.log2 q). { apply N.log2_le_pow2; [pose proof (p2pos (mbits B + 2)); lia|assumption]. }
      subst m. apply N.div_lt_upper_bound; [lia|]. rewrite <- N.pow_add_r.
      replace (N.log2 q - (mbits B + 1) + (mbits B + 2)) with (N.succ (N.log2 q)) by lia.
      apply N.log2_spec. pose proof (p2pos (mbits B + 2)); lia. }
  apply round_criterion; try assumption.
  - rewrite Y. apply Qle_shift_div_l; [assumption|]. rewrite <- iz_mul. apply iz_le. nia.
  - rewrite Y. apply Qlt_shift_div_r; [assumption|]. rewrite <- iz_mul. apply iz_lt. nia.
  - rewrite Y, andb_true_iff, !N.eqb_eq. split.
    + intros [E1 E2]. rewrite E1 in Dq. rewrite E2 in Dm.
      replace x with (m * 2 ^ s * den) by nia. rewrite (iz_mul (m * 2 ^ s)). field. lra.
    + intro E.
      assert (F : x = m * 2 ^ s * den).
      { apply iz_eq. rewrite iz_mul, <- E. field. lra. }
      assert (x mod den = 0) by nia. split; [assumption|]. nia.
Qed.

(** A number is rounded to itself. *)
Lemma rounds_self B b : fmt_ok B -> b <= infinity B -> rounds_to B (float_value B b) b.
Proof.
  intros H L. apply rounds_to2.
  assert (V : (float_value B b * 2 ^ K B == iz (2 * units B b))%Q).
  { unfold float_value. fold (iz (units B b)). rewrite iz_mul.
    setoid_replace (iz (units B b) * least B * 2 ^ K B)%Q with (iz (units B b) * (least B * 2 ^ K B))%Q by ring.
    rewrite least_K. change (iz 2) with 2%Q. ring. }
  split; [assumption|]. split; intro C; left; rewrite V; apply iz_lt; unfold mid2.
  - pose proof (units_succ B (b - 1) H). replace (b - 1 + 1) with b in * by lia. lia.
  - pose proof (units_succ B b H). lia.
Qed.

Lemma rnd_exact B num den b :
  fmt_ok B -> 0 < den -> b <= infinity B -> (iz num / iz den == float_value B b)%Q -> rnd B num den = b.
Proof.
  intros H Hd L E. apply (rounds_to_unique B (iz num / iz den)); [assumption|apply rnd_ok; assumption|].
  apply rounds_to_Qeq with (float_value B b); [symmetry; assumption|]. apply rounds_self; assumption.
Qed.

Lemma rounds_exact B x b c : fmt_ok B -> c <= infinity B -> (x == float_value B c)%Q -> rounds_to B x b -> b = c.
Proof.
  intros H L E R. apply (rounds_to_unique B x); [assumption|assumption|].
  apply rounds_to_Qeq with (float_value B c); [symmetry; assumption|]. apply rounds_self; assumption.
Qed.

(** Whole numbers that have room in the mantissa are exact. *)
Definition U (B : binary) : Z := (bias B - 1 + Z.of_N (mbits B))%Z.
Lemma least_U B : (least B * 2 ^ U B == 1)%Q.
Proof.
  unfold least, U. rewrite <- q2plus.
  replace (1 - bias B - Z.of_N (mbits B) + (bias B - 1 + Z.of_N (mbits B)))%Z with 0%Z by lia. reflexivity.
Qed.
Lemma U_nonneg B : fmt_ok B -> (Z.of_N (mbits B) <= U B)%Z.
Proof. intro H. pose proof (bias_pos B H). unfold U. lia. Qed.

Definition wide (B : binary) : Prop := mbits B + 2 <= 2 ^ (ebits B - 1).

Lemma from_u64_units B v :
  fmt_ok B -> wide B -> v <= 2 * 2 ^ mbits B -> units B (from_u64 B v) = v * 2 ^ Z.to_N (U B).
Proof.
  intros H Hw L. pose proof (p2pos (mbits B)) as P. pose proof (U_nonneg B H) as HU.
  destruct (N.eq_dec v 0) as [->|NZ].
  { unfold from_u64. rewrite (rnd_exact B 0 1 0); [|assumption|lia|lia|].
    - unfold units. replace (0 <? 2 ^ mbits B) with true by (symmetry; apply N.ltb_lt; lia). lia.
    - unfold float_value, units. replace (0 <? 2 ^ mbits B) with true by (symmetry; apply N.ltb_lt; lia).
      change (iz 0) with 0%Q. change (iz 1) with 1%Q. cbn [Z.of_N]. unfold Qdiv. change (inject_Z 0) with 0%Q. ring. }
  set (j := mbits B - N.log2 v).
  assert (V : (j = 0 \/ 2 ^ N.log2 v * 2 ^ j = 2 ^ mbits B) /\ 2 ^ mbits B <= v * 2 ^ j <= 2 * 2 ^ mbits B).
  { pose proof (N.log2_spec v ltac:(lia)) as [L1 L2]. subst j.
    destruct (N.le_gt_cases (N.log2 v) (mbits B)) as [C|C].
    - assert (E : 2 ^ N.log2 v * 2 ^ (mbits B - N.log2 v) = 2 ^ mbits B).
      { rewrite <- N.pow_add_r. f_equal. lia. }
      split; [right; assumption|]. rewrite <- E. rewrite N.pow_succ_r' in L2. pose proof (p2pos (mbits B - N.log2 v)). nia.
    - replace (mbits B - N.log2 v) with 0 by lia. rewrite N.pow_0_r. split; [left; reflexivity|].
      assert (2 ^ mbits B <= 2 ^ N.log2 v) by (apply N.pow_le_mono_r; lia). lia. }
  destruct V as [_ [V1 V2]].
  set (r := v * 2 ^ j) in *. set (s := Z.to_N (U B) - j).
  assert (Hj : j <= Z.to_N (U B)) by (subst j; lia).
  assert (E : units B (s * 2 ^ mbits B + r) = v * 2 ^ Z.to_N (U B)).
  { rewrite units_enc by (auto; lia). subst r s. rewrite <- N.mul_assoc, <- N.pow_add_r. do 2 f_equal. lia. }
  assert (I : s * 2 ^ mbits B + r <= infinity B).
  { unfold infinity. assert (s + 2 <= 2 ^ ebits B - 1); [|nia].
    subst s. unfold wide in Hw. destruct H as [_ He].
    replace (2 ^ ebits B) with (2 * 2 ^ (ebits B - 1)); [|rewrite <- N.pow_succ_r'; f_equal; lia].
    assert (Eb : Z.to_N (U B) = 2 ^ (ebits B - 1) - 2 + mbits B).
    { unfold U, bias. assert (Hp : (Z.of_N (2 ^ (ebits B - 1)) = 2 ^ (Z.of_N (ebits B) - 1))%Z).
      { rewrite N2Z.inj_pow. f_equal. lia. }
      assert (2 ^ 1 <= 2 ^ (ebits B - 1)) by (apply N.pow_le_mono_r; lia). rewrite N.pow_1_r in *. lia. }
    assert (2 ^ 1 <= 2 ^ (ebits B - 1)) by (apply N.pow_le_mono_r; lia). rewrite N.pow_1_r in *. lia. }
  unfold from_u64. rewrite (rnd_exact B v 1 (s * 2 ^ mbits B + r)); [assumption|assumption|lia|assumption|].
  unfold float_value. rewrite E. fold (iz (v * 2 ^ Z.to_N (U B))). rewrite iz_mul, iz_2pow, Z2N.id by lia.
  setoid_replace (iz v * 2 ^ U B * least B)%Q with (iz v * (least B * 2 ^ U B))%Q by ring. rewrite least_U.
  change (iz 1) with 1%Q. field.
Qed.

Lemma fmul_ok B a b x y :
  fmt_ok B -> units B a = x * 2 ^ Z.to_N (U B) -> units B b = y * 2 ^ Z.to_N (U B) ->
  rounds_to B (iz x * iz y) (fmul B a b).
Proof.
  intros H E1 E2. unfold fmul. rewrite E1, E2. fold (U B).
  eapply rounds_to_Qeq; [|apply rnd_ok; [assumption|apply p2pos]].
  rewrite !iz_mul. replace (2 * Z.to_N (U B)) with (Z.to_N (U B) + Z.to_N (U B)) by lia.
  rewrite N.pow_add_r, iz_mul. pose proof (iz_pos _ (p2pos (Z.to_N (U B)))) as P. field. lra.
Qed.
Lemma fdiv_ok B a b x y :
  fmt_ok B -> 0 < y -> units B a = x * 2 ^ Z.to_N (U B) -> units B b = y * 2 ^ Z.to_N (U B) ->
  rounds_to B (iz x / iz y) (fdiv B a b).
Proof.
  intros H Hy E1 E2. unfold fdiv. rewrite E1, E2. pose proof (p2pos (Z.to_N (U B))) as P2.
  eapply rounds_to_Qeq; [|apply rnd_ok; [assumption|nia]].
  rewrite !iz_mul. pose proof (iz_pos _ P2) as P. pose proof (iz_pos _ Hy). field. split; lra.
Qed.

(** ** The formats of the code *)
Definition std (F : raw_float) : Prop := F = F32 \/ F = F64.
Lemma std_ok F : std F -> fmt_ok (r_bin F).
Proof. intros [->| ->]; [apply fmt32|apply fmt64]. Qed.
Lemma std_wide F : std F -> wide (r_bin F).
Proof. intros [->| ->]; vm_compute; discriminate. Qed.

Lemma pow10_units F i :
  std F -> (Z.of_N i <= r_max_fast F)%Z -> units (r_bin F) (pow10_fast F i) = 10 ^ i * 2 ^ Z.to_N (U (r_bin F)).
Proof.
  assert (A : forall F, std F -> forallb (fun i => units (r_bin F) (pow10_fast F i) =? 10 ^ i * 2 ^ Z.to_N (U (r_bin F)))
    (map N.of_nat (seq 0 (Z.to_nat (r_max_fast F + 1)))) = true).
  { intros G [->| ->]; vm_compute; reflexivity. }
  intros H L. specialize (A F H). rewrite forallb_forall in A. apply N.eqb_eq, A.
  rewrite in_map_iff. exists (N.to_nat i). split; [lia|]. apply in_seq. lia.
Qed.

Lemma decimal_nonneg v e : (0 <= e)%Z -> (iz v * 10 ^ e == iz v * iz (10 ^ Z.to_N e))%Q.
Proof. intro H. rewrite iz_10pow, Z2N.id by lia. reflexivity. Qed.
Lemma decimal_neg v e : (e <= 0)%Z -> (iz v * 10 ^ e == iz v / iz (10 ^ Z.to_N (- e)))%Q.
Proof.
  intro H. rewrite iz_10pow, Z2N.id by lia. pose proof (q10pos (- e)) as P.
  assert (E : (10 ^ e * 10 ^ (- e) == 1)%Q). { rewrite <- q10plus. replace (e + - e)%Z with 0%Z by lia. reflexivity. }
  setoid_replace (10 ^ e)%Q with (/ 10 ^ (- e))%Q; [reflexivity|].
  apply Qmult_inj_r with (10 ^ (- e))%Q; [lra|]. rewrite E. field. lra.
Qed.

Theorem fast_path_ok F n :
  std F ->
  exists x, try_fast_path F n = Ok x /\
    forall b, x = Some b -> n_many n = false /\ rounds_to (r_bin F) (iz (n_man n) * 10 ^ n_exp n) b.
Proof.
  intro H. pose proof (std_ok F H) as HB. pose proof (std_wide F H) as HW. unfold try_fast_path.
  destruct ((r_min_fast F <=? n_exp n)%Z && (n_exp n <=? r_max_disg F)%Z && (n_man n <=? 2 * 2 ^ meb F) && negb (n_many n)) eqn:E.
  2: { eexists; split; [reflexivity|]. discriminate. }
  rewrite !andb_true_iff, !Z.leb_le, N.leb_le, negb_true_iff in E. destruct E as [[[E1 E2] E3] E4].
  unfold meb in *.
  destruct (n_exp n <=? r_max_fast F)%Z eqn:C.
  - apply Z.leb_le in C. destruct (n_exp n <? 0)%Z eqn:D.
    + apply Z.ltb_lt in D. eexists; split; [reflexivity|]. intros b [= <-]. split; [assumption|].
      eapply rounds_to_Qeq; [symmetry; apply decimal_neg; lia|].
      apply fdiv_ok; [assumption| |apply from_u64_units; assumption|apply pow10_units; [assumption|]].
      * apply N.neq_0_lt_0, N.pow_nonzero; lia.
      * assert (r_min_fast F = (- r_max_fast F)%Z) by (destruct H as [->| ->]; reflexivity). lia.
    + apply Z.ltb_ge in D. eexists; split; [reflexivity|]. intros b [= <-]. split; [assumption|].
      eapply rounds_to_Qeq; [symmetry; apply decimal_nonneg; lia|].
      apply fmul_ok; [assumption|apply from_u64_units; assumption|apply pow10_units; [assumption|lia]].
  - apply Z.leb_gt in C.
    assert (SH : Z.to_N (n_exp n - r_max_fast F) < 16).
    { destruct H as [->| ->]; cbn in *; lia. }
    replace (16 <=? Z.to_N (n_exp n - r_max_fast F)) with false by (symmetry; apply N.leb_gt; lia).
    destruct (2 ^ 64 <=? n_man n * 10 ^ Z.to_N (n_exp n - r_max_fast F)). { eexists; split; [reflexivity|discriminate]. }
    destruct (2 * 2 ^ mbits (r_bin F) <? n_man n * 10 ^ Z.to_N (n_exp n - r_max_fast F)) eqn:D.
    { eexists; split; [reflexivity|discriminate]. }
    apply N.ltb_ge in D. eexists; split; [reflexivity|]. intros b [= <-]. split; [assumption|].
    assert (0 <= r_max_fast F)%Z by (destruct H as [->| ->]; cbn; lia).
    eapply rounds_to_Qeq; [|apply fmul_ok; [assumption|apply from_u64_units; assumption|apply pow10_units; [assumption|lia]]].
    rewrite iz_mul, !iz_10pow, !Z2N.id by lia.
    rewrite <- Qmult_assoc, <- q10plus.
    replace (n_exp n - r_max_fast F + r_max_fast F)%Z with (n_exp n) by lia. reflexivity.
Qed.
