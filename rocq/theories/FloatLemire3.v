(** The Eisel-Lemire algorithm rounds correctly. *)
From Verif Require Import Base BaseFacts FloatSpec Dec2fltTable Dec2flt FloatFacts FloatFast FloatLemire FloatLemire2.
From Coq Require Import QArith Lqa Qpower.
From Coq Require Import Lia.
Local Open Scope N_scope.

Lemma mid2_0 B : fmt_ok B -> mid2 B 0 = 1.
Proof.
  intros [H _]. unfold mid2, units. assert (2 ^ 1 <= 2 ^ mbits B) by (apply N.pow_le_mono_r; lia).
  rewrite N.pow_1_r in *.
  replace (0 <? 2 ^ mbits B) with true by (symmetry; apply N.ltb_lt; lia).
  replace (0 + 1 <? 2 ^ mbits B) with true by (symmetry; apply N.ltb_lt; lia). reflexivity.
Qed.
Lemma rounds_zero B x : fmt_ok B -> (x * 2 ^ K B < 1)%Q -> rounds_to B x 0.
Proof.
  intros H L. apply rounds_to2. split; [lia|]. split; [lia|]. intros _. left. rewrite mid2_0 by assumption. assumption.
Qed.

Lemma infinity_units B : fmt_ok B -> 2 * units B (infinity B) = 2 ^ mbits B * 2 ^ (2 ^ ebits B - 1).
Proof.
  intro H. pose proof H as [_ He].
  assert (E4 : 2 ^ 2 <= 2 ^ ebits B) by (apply N.pow_le_mono_r; lia). change (2 ^ 2) with 4 in E4.
  replace (infinity B) with ((2 ^ ebits B - 2) * 2 ^ mbits B + 2 ^ mbits B).
  - rewrite units_enc by (auto; lia).
    replace (2 ^ ebits B - 1) with (N.succ (2 ^ ebits B - 2)) by lia. rewrite N.pow_succ_r'. ring.
  - unfold infinity. pose proof (p2pos (mbits B)). nia.
Qed.
Lemma rounds_inf B x : fmt_ok B -> (iz (2 ^ 2 ^ ebits B) <= x * 2 ^ bias B)%Q -> rounds_to B x (infinity B).
Proof.
  intros H L. apply rounds_to2. split; [lia|]. split; [|intro; lia]. intro P. left.
  assert (M : mid2 B (infinity B - 1) < 2 * units B (infinity B)).
  { unfold mid2. replace (infinity B - 1 + 1) with (infinity B) by lia.
    pose proof (units_mono B (infinity B - 1) (infinity B) H). lia. }
  apply iz_lt in M. rewrite infinity_units in M by assumption. eapply Qlt_le_trans; [exact M|].
  unfold K. rewrite q2plus, Qmult_assoc. rewrite (N.mul_comm (2 ^ mbits B)), iz_mul. rewrite (iz_2pow (mbits B)).
  apply Qmult_le_compat_r; [|apply Qlt_le_weak, q2pos]. eapply Qle_trans; [|exact L]. apply iz_le, N.pow_le_mono_r; lia.
Qed.

Lemma q5_10 q : (10 ^ q == 5 ^ q * 2 ^ q)%Q.
Proof. rewrite <- Qmult_power. reflexivity. Qed.
Lemma q5pos q : (0 < 5 ^ q)%Q. Proof. apply Qpower_0_lt. reflexivity. Qed.

Lemma t_val q : (iz (tnum q) == iz (tden q) * (5 ^ q * 2 ^ (127 - fl q)))%Q.
Proof.
  unfold tnum, tden. rewrite !iz_mul, !iz_2pow.
  assert (G : (2 ^ Z.of_N (Z.to_N (127 - fl q)) == 2 ^ Z.of_N (Z.to_N (fl q - 127)) * 2 ^ (127 - fl q))%Q).
  { rewrite <- q2plus. replace (Z.of_N (Z.to_N (fl q - 127)) + (127 - fl q))%Z with (Z.of_N (Z.to_N (127 - fl q))) by lia. reflexivity. }
  rewrite G. clear G. generalize (2 ^ Z.of_N (Z.to_N (fl q - 127)))%Q (2 ^ (127 - fl q))%Q. intros u v.
  destruct (0 <=? q)%Z eqn:E.
  - apply Z.leb_le in E. rewrite iz_pow, Z2N.id by lia. change (iz 5) with 5%Q. change (iz 1) with 1%Q. ring.
  - apply Z.leb_gt in E. rewrite iz_pow, Z2N.id by lia. change (iz 5) with 5%Q. change (iz 1) with 1%Q.
    assert (X : (5 ^ (- q) * 5 ^ q == 1)%Q).
    { rewrite <- Qpower_plus by discriminate. replace (- q + q)%Z with 0%Z by lia. reflexivity. }
    setoid_replace (5 ^ (- q) * u * (5 ^ q * v))%Q with (5 ^ (- q) * 5 ^ q * (u * v))%Q by ring. rewrite X. reflexivity.
Qed.

(** The number, in half units, as a fraction of integers *)
Lemma y_form q w lz n1 n2 n3 kb :
  (Z.of_N n1 - Z.of_N n2 - Z.of_N n3 = power q - Z.of_N lz + kb - 62)%Z ->
  (iz w * 10 ^ q * 2 ^ kb == iz (w * 2 ^ lz * tnum q * 2 ^ n1) / iz (2 ^ n2 * 2 ^ n3 * (2 ^ 128 * tden q)))%Q.
Proof.
  intro E. pose proof (tden_pos q) as Pd. apply iz_pos in Pd.
  rewrite !iz_mul, t_val, !iz_2pow, q5_10.
  assert (G : (2 ^ Z.of_N lz * 2 ^ (127 - fl q) * 2 ^ Z.of_N n1 == 2 ^ Z.of_N n2 * 2 ^ Z.of_N n3 * 2 ^ Z.of_N 128 * 2 ^ q * 2 ^ kb)%Q).
  { rewrite <- !q2plus.
    replace (Z.of_N lz + (127 - fl q) + Z.of_N n1)%Z with (Z.of_N n2 + Z.of_N n3 + Z.of_N 128 + q + kb)%Z; [reflexivity|].
    unfold fl. lia. }
  pose proof (q2pos (Z.of_N n2)). pose proof (q2pos (Z.of_N n3)). pose proof (q2pos (Z.of_N 128)).
  set (d := iz (tden q)) in *. clearbody d. set (t5 := (5 ^ q)%Q). set (wq := iz w).
  set (u1 := (2 ^ Z.of_N lz)%Q) in *. set (u2 := (2 ^ (127 - fl q))%Q) in *. set (u3 := (2 ^ Z.of_N n1)%Q) in *.
  set (v1 := (2 ^ Z.of_N n2)%Q) in *. set (v2 := (2 ^ Z.of_N n3)%Q) in *. set (v3 := (2 ^ Z.of_N 128)%Q) in *.
  set (z1 := (2 ^ q)%Q) in *. set (z2 := (2 ^ kb)%Q) in *. clearbody u1 u2 u3 v1 v2 v3 z1 z2 t5 wq.
  setoid_replace (wq * u1 * (d * (t5 * u2)) * u3)%Q with (wq * d * t5 * (u1 * u2 * u3))%Q by ring.
  rewrite G. field. repeat split; lra.
Qed.

Lemma mod2_half m : (m + m mod 2) / 2 = (m + 1) / 2.
Proof.
  pose proof (N.div_mod m 2 ltac:(lia)) as D. pose proof (N.mod_lt m 2 ltac:(lia)) as M.
  set (x := m / 2) in *. set (c := m mod 2) in *. clearbody x c. subst m.
  assert (c = 0 \/ c = 1) as [->| ->] by lia.
  - transitivity x; [symmetry; apply N.div_unique with 0; lia|apply N.div_unique with 1; lia].
  - reflexivity.
Qed.
Lemma mod4_odd m : m mod 4 = 1 -> N.odd m = true /\ (m - m mod 2) / 2 = m / 2 /\ (m - m mod 2) mod 2 = 0.
Proof.
  intro H. pose proof (N.div_mod m 4 ltac:(lia)) as D. rewrite H in D. set (x := m / 4) in *. clearbody x. subst m.
  assert (E : (4 * x + 1) mod 2 = 1) by (symmetry; apply N.mod_unique with (2 * x); lia).
  split; [|split].
  - replace (4 * x + 1) with (2 * (2 * x) + 1) by lia. apply N.odd_spec. exists (2 * x). reflexivity.
  - rewrite E. transitivity (2 * x); [symmetry; apply N.div_unique with 0; lia|apply N.div_unique with 1; lia].
  - rewrite E. symmetry. apply N.mod_unique with (2 * x); lia.
Qed.

Lemma hi_shift hi mb : 2 ^ 62 <= hi < 2 ^ 64 -> mb <= 52 ->
  let ub := hi / 2 ^ 63 in
  ub <= 1 /\ 2 * 2 ^ mb <= hi / 2 ^ (ub + 64 - mb - 3) < 4 * 2 ^ mb.
Proof.
  intros [H1 H2] Hm ub.
  assert (P63 : 2 ^ 64 = 2 * 2 ^ 63) by reflexivity. assert (P62 : 2 ^ 63 = 2 * 2 ^ 62) by reflexivity.
  assert (U : ub = 0 /\ hi < 2 ^ 63 \/ ub = 1 /\ 2 ^ 63 <= hi).
  { destruct (N.lt_ge_cases hi (2 ^ 63)) as [C|C]; [left|right]; (split; [|assumption]); subst ub.
    - apply N.div_small. assumption.
    - symmetry. apply N.div_unique with (hi - 2 ^ 63); lia. }
  clearbody ub. split; [lia|].
  assert (E1 : 2 ^ (ub + 64 - mb - 3) * (2 * 2 ^ mb) = 2 ^ (ub + 62)).
  { rewrite <- N.pow_succ_r', <- N.pow_add_r. f_equal. lia. }
  assert (E2 : 2 ^ (ub + 64 - mb - 3) * (4 * 2 ^ mb) = 2 ^ (ub + 63)).
  { change 4 with (2 ^ 2). rewrite <- !N.pow_add_r. f_equal. lia. }
  pose proof (p2pos (ub + 64 - mb - 3)) as P.
  split.
  - apply N.div_le_lower_bound; [lia|]. rewrite E1. destruct U as [[-> _]|[-> U]]; assumption.
  - apply N.div_lt_upper_bound; [lia|]. rewrite E2. destruct U as [[-> U]|[-> U]]; assumption.
Qed.

Lemma power_27 q : (-27 <= q)%Z -> (-27 <= power q)%Z.
Proof.
  intro H. unfold power. assert ((-27 * (152170 + 65536)) / 2 ^ 16 <= q * (152170 + 65536) / 2 ^ 16)%Z.
  { apply Z.div_le_mono; lia. }
  change ((-27 * (152170 + 65536)) / 2 ^ 16)%Z with (-90)%Z in H0. lia.
Qed.

(** ** The theorem *)
Theorem lemire_ok F q w :
  facts F -> w < 2 ^ 64 ->
  exists fp, compute_float F q w = Ok fp /\
    (be fp = (-1)%Z \/ (0 <= be fp)%Z /\ rounds_to (r_bin F) (iz w * 10 ^ q) (to_float (r_bin F) fp)).
Proof.
  intros HF Hw. pose proof (f_ok F HF) as HB. pose proof (f_mb F HF) as Hmb. pose proof (p2pos (mbits (r_bin F))) as Pm.
  assert (Z0 : to_float (r_bin F) {| bf := 0; be := 0 |} = 0).
  { rewrite to_float_add; [reflexivity|assumption|lia|]. apply Z.pow_pos_nonneg; lia. }
  unfold compute_float.
  destruct ((w =? 0) || (q <? r_small F)%Z) eqn:C1.
  { eexists; split; [reflexivity|right]. cbn [be]. split; [lia|]. rewrite Z0. apply rounds_zero; [assumption|].
    apply orb_true_iff in C1. destruct C1 as [C1|C1].
    - apply N.eqb_eq in C1. subst w. change (iz 0) with 0%Q. rewrite !Qmult_0_l. reflexivity.
    - apply Z.ltb_lt in C1. eapply Qle_lt_trans; [|exact (f_small F HF)].
      apply Qmult_le_compat_r; [|apply Qlt_le_weak, q2pos].
      apply Qle_trans with (iz (2 ^ 64) * 10 ^ q)%Q.
      + apply Qmult_le_compat_r; [apply iz_le, N.lt_le_incl, Hw|apply Qlt_le_weak, q10pos].
      + rewrite !(Qmult_comm (iz (2 ^ 64))). apply Qmult_le_compat_r; [|apply iz_nonneg].
        apply Qpower_le_compat_l; [lia|discriminate]. }
  apply orb_false_iff in C1. destruct C1 as [C1 C2]. apply N.eqb_neq in C1. apply Z.ltb_ge in C2.
  destruct (r_large F <? q)%Z eqn:C3.
  { apply Z.ltb_lt in C3. eexists; split; [reflexivity|right]. cbn [be]. split.
    - rewrite (f_inf F HF). assert (0 < 2 ^ Z.of_N (ebits (r_bin F)))%Z by (apply Z.pow_pos_nonneg; lia). lia.
    - rewrite infinity_to_float by assumption. apply rounds_inf; [assumption|].
      eapply Qle_trans; [exact (f_large F HF)|]. apply Qmult_le_compat_r; [|apply Qlt_le_weak, q2pos].
      apply Qle_trans with (1 * 10 ^ q)%Q.
      + rewrite Qmult_1_l. apply Qpower_le_compat_l; [lia|discriminate].
      + apply Qmult_le_compat_r; [|apply Qlt_le_weak, q10pos]. change 1%Q with (iz 1). apply iz_le. lia. }
  apply Z.ltb_ge in C3. cbv zeta.
  (* normalization *)
  pose proof (N.log2_spec w ltac:(lia)) as [L1 L2].
  assert (L3 : N.log2 w <= 63). { destruct (N.le_gt_cases (N.log2 w) 63) as [|G]; [assumption|]. apply N.log2_lt_pow2 in Hw; lia. }
  set (lz := 63 - N.log2 w) in *.
  assert (W1 : 2 ^ 63 <= w * 2 ^ lz).
  { replace (2 ^ 63) with (2 ^ N.log2 w * 2 ^ lz); [apply N.mul_le_mono_r; assumption|]. rewrite <- N.pow_add_r. f_equal. lia. }
  assert (W2 : w * 2 ^ lz < 2 ^ 64).
  { replace (2 ^ 64) with (2 ^ N.succ (N.log2 w) * 2 ^ lz); [apply N.mul_lt_mono_pos_r; [apply p2pos|assumption]|].
    rewrite <- N.pow_add_r. f_equal. lia. }
  assert (Hlz : lz <= 63) by (subst lz; lia). clearbody lz. clear L1 L2 L3.
  pose proof (f_range F HF) as [R1 R2].
  destruct (product_ok q (w * 2 ^ lz) (mbits (r_bin F)) ltac:(lia) ltac:(lia) W1 W2) as (lo & hi & a & b & E & HS & Hlo & Hhi & Hor).
  unfold meb. rewrite E. cbn [bind].
  destruct ((lo =? 2 ^ 64 - 1) && negb ((-27 <=? q)%Z && (q <=? 55)%Z)) eqn:C4.
  { eexists; split; [reflexivity|]. left. reflexivity. }
  assert (Hl : lo <> 2 ^ 64 - 1 \/ (-27 <= q <= 55)%Z).
  { apply andb_false_iff in C4. destruct C4 as [C4|C4]; [left; apply N.eqb_neq, C4|right].
    rewrite negb_false_iff, andb_true_iff, !Z.leb_le in C4. assumption. }
  clear C4 E.
  destruct HS as (Sa & Sb & Sa2 & St & Sx & Se & Si).
  pose proof (hi_shift hi (mbits (r_bin F)) Hhi Hmb) as HH. cbv zeta in HH.
  set (ub := hi / 2 ^ 63) in *. destruct HH as [Hub Hm].
  set (mb := mbits (r_bin F)) in *.
  assert (Hsh : 61 - mb <= ub + 64 - mb - 3 /\ 9 <= ub + 64 - mb - 3 /\ Z.of_N (ub + 64 - mb - 3) = (Z.of_N ub + 61 - Z.of_N mb)%Z) by (clear - Hub Hmb; lia).
  assert (H60 : mb <= 60) by (clear - Hmb; lia).
  set (sh := ub + 64 - mb - 3) in *. destruct Hsh as (Hsh & Hsh9 & Esh).
  destruct (top_bounds q (w * 2 ^ lz) a b mb H60 W1 W2 Sa Sb Sa2 St Sx lo hi sh Hlo Hl Hor Hsh) as [T1 T2].
  clearbody ub.
  set (m := hi / 2 ^ sh) in *.
  assert (Hmsh : m * 2 ^ sh <= hi).
  { subst m. rewrite N.mul_comm. apply N.mul_div_le. pose proof (p2pos sh). lia. }
  pose proof (tden_pos q) as Pd.
  set (W := w * 2 ^ lz) in *.
  assert (TS : lo <= 1 -> hi = m * 2 ^ sh -> (-17 <= q <= 23)%Z -> W * tnum q = m * 2 ^ sh * (2 ^ 128 * tden q)).
  { intros A1 A2 A3. exact (tie_sound q W a b mb H60 W1 W2 Sa Sb Sa2 St Sx Se Si m sh lo hi Hor A1 A2 Hsh9 A3). }
  assert (TC : (-27 <= q <= 23)%Z -> W * tnum q = m * 2 ^ sh * (2 ^ 128 * tden q) -> lo <= 1 /\ hi = m * 2 ^ sh).
  { intros A1 A2. assert (Pm' : 0 < m) by (clear - Hm Pm; lia).
    exact (tie_complete q W a b mb H60 W1 W2 Sa Sb Sa2 St Sx Se Si m sh lo hi Hlo Hor Hsh Hsh9 A1 Pm' A2). }
  assert (ES : forall m' n, N.odd m' = true -> W * tnum q = m' * 2 ^ n * (2 ^ 128 * tden q) ->
    ((0 <= q)%Z -> 5 ^ Z.to_N q <= m') /\ ((q < 0)%Z -> 5 ^ Z.to_N (- q) * m' <= W)).
  { intros m' n. exact (exact_small q W a b mb H60 W1 W2 Sa Sb Sa2 Sx Se Si m' n). }
  clear Hor St Sx Se Si Sa Sb Sa2 Hl.
  rewrite (f_min F HF).
  set (p2 := (power q + Z.of_N ub - Z.of_N lz - - bias (r_bin F))%Z).
  assert (Yf : forall n1 n2, (Z.of_N n1 - Z.of_N n2 = p2 - 1)%Z ->
     (iz w * 10 ^ q * 2 ^ K (r_bin F) == iz (W * tnum q * 2 ^ n1) / iz (2 ^ n2 * 2 ^ sh * (2 ^ 128 * tden q)))%Q).
  { intros n1 n2 E. apply y_form. unfold K, p2 in *. fold mb. lia. }
  set (D := 2 ^ 128 * tden q) in *.
  assert (PD : 0 < D) by (subst D; apply N.mul_pos_pos; [reflexivity|assumption]).
  pose proof (p2pos sh) as Psh.
  assert (Mlt : m * 2 ^ sh < 2 ^ 64) by (eapply N.le_lt_trans; [exact Hmsh|apply Hhi]).
  set (X := W * tnum q) in *.
  destruct (p2 <=? 0)%Z eqn:C5.
  - (* subnormal numbers *)
    apply Z.leb_le in C5.
    assert (NT : forall m' n, N.odd m' = true -> X = m' * 2 ^ n * D -> False).
    { intros m' n Ho E. destruct (ES m' n Ho E) as [E1 E2].
      assert (G : (-27 <= power q)%Z).
      { apply power_27. destruct (Z_lt_le_dec q 0) as [C|C]; [|lia]. specialize (E2 C).
        assert (Q5 : 5 ^ Z.to_N (- q) < 5 ^ 28).
        { apply N.le_lt_trans with W; [|eapply N.lt_trans; [exact W2|reflexivity]].
          eapply N.le_trans; [|exact E2]. destruct m'; [discriminate|]. clear. nia. }
        apply N.pow_lt_mono_r_iff in Q5; [|lia]. lia. }
      pose proof (f_bias F HF). unfold p2 in C5. lia. }
    set (j := Z.to_N (- p2 + 1)).
    specialize (Yf 0 j). rewrite N.pow_0_r, N.mul_1_r in Yf.
    assert (Ej : (Z.of_N 0 - Z.of_N j = p2 - 1)%Z) by (subst j; lia). specialize (Yf Ej).
    pose proof (p2pos j) as Pj.
    assert (PD2 : 0 < 2 ^ j * 2 ^ sh * D) by (apply N.mul_pos_pos; [apply N.mul_pos_pos|]; assumption).
    pose proof (iz_pos _ PD2) as QD.
    assert (Dv : m = 2 ^ j * (m / 2 ^ j) + m mod 2 ^ j) by (apply N.div_mod; lia).
    assert (Mv : m mod 2 ^ j < 2 ^ j) by (apply N.mod_lt; lia).
    assert (J2 : 2 <= 2 ^ j). { change 2 with (2 ^ 1) at 1. apply N.pow_le_mono_r; [lia|]. subst j. lia. }
    set (m1 := m / 2 ^ j) in *.
    assert (Lm1 : m1 < 2 * 2 ^ mb).
    { subst m1. apply N.div_lt_upper_bound; [lia|]. apply N.lt_le_trans with (4 * 2 ^ mb); [lia|]. clear - J2. nia. }
    assert (RC : rounds2 (r_bin F) (iz w * 10 ^ q * 2 ^ K (r_bin F)) ((m1 + 1) / 2)).
    { pose proof (round_criterion (r_bin F) (iz w * 10 ^ q * 2 ^ K (r_bin F)) 0 m1 (X =? m1 * (2 ^ j * 2 ^ sh * D)) HB) as RC.
      rewrite N.pow_0_r, N.mul_0_l, N.add_0_l, !N.mul_1_r in RC.
      replace ((X =? m1 * (2 ^ j * 2 ^ sh * D)) && (m1 mod 4 =? 1)) with false in RC.
      - rewrite N.min_l in RC.
        + apply RC; [| | |left; reflexivity|].
          * rewrite Yf. apply Qle_shift_div_l; [assumption|]. rewrite <- iz_mul. apply iz_le.
            eapply N.le_trans; [|exact T1]. replace (m1 * (2 ^ j * 2 ^ sh * D)) with (m1 * 2 ^ j * (2 ^ sh * D)) by ring.
            rewrite <- (N.mul_assoc m). apply N.mul_le_mono_r. clear - Dv. lia.
          * rewrite Yf. apply Qlt_shift_div_r; [assumption|]. rewrite <- iz_mul. apply iz_lt.
            eapply N.lt_le_trans; [exact T2|]. replace ((m1 + 1) * (2 ^ j * 2 ^ sh * D)) with ((m1 + 1) * 2 ^ j * (2 ^ sh * D)) by ring.
            rewrite <- (N.mul_assoc (m + 1)). apply N.mul_le_mono_r. clear - Dv Mv. lia.
          * rewrite Yf, N.eqb_eq. split; intro E.
            -- rewrite E, (iz_mul m1). field. lra.
            -- apply iz_eq. rewrite iz_mul, <- E. field. lra.
          * fold mb. clear - Lm1. lia.
        + unfold infinity. fold mb. assert (2 ^ 2 <= 2 ^ ebits (r_bin F)) by (apply N.pow_le_mono_r; [lia|apply HB]).
          change (2 ^ 2) with 4 in *. apply N.div_le_upper_bound; [lia|]. clear - Lm1 H Pm. nia.
      - symmetry. apply andb_false_iff. destruct (m1 mod 4 =? 1) eqn:C; [left|right; reflexivity].
        apply N.eqb_eq in C. apply N.eqb_neq. intro E. apply (NT m1 (j + sh)); [apply mod4_odd, C|].
        rewrite N.pow_add_r. clear - E. lia. }
    apply rounds_to2 in RC.
    destruct (64 <=? - p2 + 1)%Z eqn:C6.
    + apply Z.leb_le in C6. eexists; split; [reflexivity|right]. cbn [be]. split; [lia|]. rewrite Z0.
      assert (m1 = 0).
      { subst m1. apply N.div_small. apply N.lt_le_trans with (2 ^ 64); [|apply N.pow_le_mono_r; subst j; lia].
        apply N.lt_le_trans with (4 * 2 ^ mb); [lia|]. change 4 with (2 ^ 2). rewrite <- N.pow_add_r. apply N.pow_le_mono_r; lia. }
      rewrite H in RC. assumption.
    + rewrite mod2_half.
      assert (Lr : (m1 + 1) / 2 <= 2 ^ mb). { apply N.div_le_upper_bound; lia. }
      eexists; split; [reflexivity|right]. cbn [be]. split; [destruct (2 ^ mb <=? (m1 + 1) / 2); lia|].
      destruct (2 ^ mb <=? (m1 + 1) / 2) eqn:C7.
      * apply N.leb_le in C7. assert (Er : (m1 + 1) / 2 = 2 ^ mb) by lia. rewrite Er in *.
        unfold to_float. cbn [bf be]. change (Z.to_N 1) with 1. rewrite N.mul_1_l. fold mb.
        rewrite N.lor_diag, N.mod_small; [assumption|].
        apply N.pow_lt_mono_r; lia.
      * apply N.leb_gt in C7. rewrite to_float_add; [|assumption|lia|apply Z.pow_pos_nonneg; lia].
        change (Z.to_N 0) with 0. rewrite (N.mul_0_l (2 ^ _)), N.add_0_l. assumption.
  - (* normal numbers *)
    apply Z.leb_gt in C5. rewrite (N.mod_small (m * 2 ^ sh)) by assumption.
    set (s := Z.to_N (p2 - 1)).
    specialize (Yf s 0). rewrite N.pow_0_r, N.mul_1_l in Yf.
    assert (Es : (Z.of_N s - Z.of_N 0 = p2 - 1)%Z) by (subst s; lia). specialize (Yf Es).
    pose proof (p2pos s) as Ps.
    assert (PD2 : 0 < 2 ^ sh * D) by (apply N.mul_pos_pos; assumption).
    pose proof (iz_pos _ PD2) as QD.
    pose proof (round_criterion (r_bin F) (iz w * 10 ^ q * 2 ^ K (r_bin F)) s m (X =? m * 2 ^ sh * D) HB) as RC.
    assert (CE : (lo <=? 1) && (r_min_even F <=? q)%Z && (q <=? r_max_even F)%Z && (m mod 4 =? 1) && (m * 2 ^ sh =? hi) =
                 (X =? m * 2 ^ sh * D) && (m mod 4 =? 1)).
    { apply eq_true_iff_eq. rewrite !andb_true_iff, !Z.leb_le, N.leb_le, !N.eqb_eq.
      pose proof (f_even F HF) as [Ev1 Ev2]. split.
      - intros [[[[A1 A2] A3] A4] A5]. split; [|assumption]. apply TS; [assumption|symmetry; assumption|lia].
      - intros [A1 A2]. destruct (mod4_odd m A2) as [Ho _]. destruct (ES m sh Ho A1) as [E1 E2].
        assert (Q : (r_min_even F <= q <= r_max_even F)%Z).
        { destruct (Z_lt_le_dec q 0) as [C|C].
          - split; [|lia]. specialize (E2 C).
            assert (Q5 : 5 ^ Z.to_N (- q) < 5 ^ Z.to_N (1 - r_min_even F)).
            { apply N.mul_lt_mono_pos_r with (2 * 2 ^ mb); [lia|].
              eapply N.lt_le_trans; [|exact (f_even_min F HF)].
              apply N.le_lt_trans with W; [|assumption]. eapply N.le_trans; [|exact E2]. apply N.mul_le_mono_l. lia. }
            apply N.pow_lt_mono_r_iff in Q5; lia.
          - split; [lia|]. specialize (E1 C).
            assert (Q5 : 5 ^ Z.to_N q < 5 ^ Z.to_N (r_max_even F + 1)).
            { eapply N.lt_le_trans; [|exact (f_even_max F HF)]. fold mb. lia. }
            apply N.pow_lt_mono_r_iff in Q5; lia. }
        destruct (TC ltac:(lia) A1) as [B1 B2]. repeat split; try assumption; try lia. }
    rewrite CE. clear CE TS TC ES.
    set (c := (X =? m * 2 ^ sh * D) && (m mod 4 =? 1)) in *.
    assert (Er : ((if c then m - m mod 2 else m) + (if c then m - m mod 2 else m) mod 2) / 2 = if c then m / 2 else (m + 1) / 2).
    { destruct c eqn:C; [|apply mod2_half]. subst c. apply andb_true_iff in C. destruct C as [_ C]. apply N.eqb_eq in C.
      destruct (mod4_odd m C) as (_ & O1 & O2). rewrite O2, N.add_0_r. assumption. }
    rewrite Er. clear Er. set (r := if c then m / 2 else (m + 1) / 2) in *.
    assert (Hr : 2 ^ mb <= r <= 2 * 2 ^ mb).
    { subst r. destruct c; split.
      - apply N.div_le_lower_bound; lia.
      - apply N.div_le_upper_bound; lia.
      - apply N.div_le_lower_bound; lia.
      - apply N.div_le_upper_bound; lia. }
    assert (RR : rounds_to (r_bin F) (iz w * 10 ^ q) (N.min (s * 2 ^ mb + r) (infinity (r_bin F)))).
    { apply rounds_to2, RC; clear RC.
      - rewrite Yf. apply Qle_shift_div_l; [assumption|]. rewrite <- iz_mul. apply iz_le.
        replace (m * 2 ^ s * (2 ^ sh * D)) with (m * 2 ^ sh * D * 2 ^ s) by ring. apply N.mul_le_mono_r. assumption.
      - rewrite Yf. apply Qlt_shift_div_r; [assumption|]. rewrite <- iz_mul. apply iz_lt.
        replace ((m + 1) * 2 ^ s * (2 ^ sh * D)) with ((m + 1) * 2 ^ sh * D * 2 ^ s) by ring. apply N.mul_lt_mono_pos_r; assumption.
      - rewrite Yf, N.eqb_eq. split; intro E.
        + rewrite E. replace (m * 2 ^ sh * D * 2 ^ s) with (m * 2 ^ s * (2 ^ sh * D)) by ring. rewrite (iz_mul (m * 2 ^ s)). field. lra.
        + apply N.mul_cancel_r with (2 ^ s); [lia|]. apply iz_eq.
          replace (m * 2 ^ sh * D * 2 ^ s) with (m * 2 ^ s * (2 ^ sh * D)) by ring. rewrite (iz_mul (m * 2 ^ s)), <- E. field. lra.
      - right. fold mb. lia.
      - fold mb. lia. }
    clear RC. clearbody r.
    assert (Einf : infinity (r_bin F) = Z.to_N (r_inf F) * 2 ^ mb).
    { unfold infinity. fold mb. rewrite (f_inf F HF). f_equal. rewrite Z2N.inj_sub by lia. rewrite Z2N.inj_pow by lia.
      rewrite N2Z.id. reflexivity. }
    assert (Pinf : (0 < r_inf F < 2 ^ Z.of_N (ebits (r_bin F)))%Z).
    { rewrite (f_inf F HF). assert (2 ^ 1 < 2 ^ Z.of_N (ebits (r_bin F)))%Z by (apply Z.pow_lt_mono_r; destruct HB; lia).
      change (2 ^ 1)%Z with 2%Z in *. lia. }
    destruct (2 * 2 ^ mb <=? r) eqn:C7.
    + apply N.leb_le in C7. assert (r = 2 * 2 ^ mb) by lia. subst r.
      rewrite ldiff_sub by lia. rewrite N.sub_diag.
      destruct (r_inf F <=? p2 + 1)%Z eqn:C8.
      * apply Z.leb_le in C8. eexists; split; [reflexivity|right]. cbn [be]. split; [lia|].
        rewrite infinity_to_float by assumption. rewrite N.min_r in RR; [assumption|]. rewrite Einf.
        rewrite <- N.mul_add_distr_r. apply N.mul_le_mono_r. lia.
      * apply Z.leb_gt in C8. eexists; split; [reflexivity|right]. cbn [be]. split; [lia|].
        rewrite to_float_add by (try assumption; lia). fold mb. rewrite N.add_0_r.
        rewrite N.min_l in RR; [|rewrite Einf, <- N.mul_add_distr_r; apply N.mul_le_mono_r; lia].
        rewrite <- N.mul_add_distr_r in RR. replace (Z.to_N (p2 + 1)) with (s + 2) by lia. assumption.
    + apply N.leb_gt in C7. rewrite ldiff_sub by lia.
      destruct (r_inf F <=? p2)%Z eqn:C8.
      * apply Z.leb_le in C8. eexists; split; [reflexivity|right]. cbn [be]. split; [lia|].
        rewrite infinity_to_float by assumption. rewrite N.min_r in RR; [assumption|]. rewrite Einf.
        apply N.le_trans with ((s + 1) * 2 ^ mb); [apply N.mul_le_mono_r; lia|lia].
      * apply Z.leb_gt in C8. eexists; split; [reflexivity|right]. cbn [be]. split; [lia|].
        rewrite to_float_add by (fold mb; lia). fold mb.
        replace (Z.to_N p2) with (s + 1) by lia.
        replace ((s + 1) * 2 ^ mb + (r - 2 ^ mb)) with (s * 2 ^ mb + r) by lia.
        rewrite N.min_l in RR; [assumption|]. rewrite Einf.
        apply N.le_trans with ((s + 2) * 2 ^ mb); [lia|]. apply N.mul_le_mono_r. lia.
Qed.
