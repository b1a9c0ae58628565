(** The slow path of dec2flt: what is lost when digits beyond the 768th are dropped does not matter. *)
From Coq Require Import QArith Lqa Qpower.
From Coq Require Import Lia.
From Verif Require Import Base BaseFacts FloatSpec Dec2fltTable Dec2flt FloatFacts FloatFast FloatLemire3 FloatDigits.
Local Open Scope N_scope.

(** ** Powers of two and of ten *)
Lemma q2le a b : (a <= b)%Z -> (2 ^ a <= 2 ^ b)%Q. Proof. intro. apply Qpower_le_compat_l; [assumption|discriminate]. Qed.
Lemma q10le a b : (a <= b)%Z -> (10 ^ a <= 10 ^ b)%Q. Proof. intro. apply Qpower_le_compat_l; [assumption|discriminate]. Qed.
Lemma q2lt a b : (2 ^ a < 2 ^ b)%Q -> (a < b)%Z.
Proof. intro H. destruct (Z_lt_le_dec a b) as [|C]; [assumption|]. apply q2le in C. lra. Qed.
Lemma q10lt a b : (10 ^ a < 10 ^ b)%Q -> (a < b)%Z.
Proof. intro H. destruct (Z_lt_le_dec a b) as [|C]; [assumption|]. apply q10le in C. lra. Qed.
Lemma q2inv a : (2 ^ a * 2 ^ (- a) == 1)%Q.
Proof. rewrite <- q2plus. replace (a + - a)%Z with 0%Z by lia. reflexivity. Qed.
Lemma q10inv a : (10 ^ a * 10 ^ (- a) == 1)%Q.
Proof. rewrite <- q10plus. replace (a + - a)%Z with 0%Z by lia. reflexivity. Qed.

Lemma pow_cmp a u : (2 ^ a < 10 ^ u)%Q -> (0 <= u /\ 31 * a < 103 * u)%Z \/ (u < 0 /\ a < 3 * u)%Z.
Proof.
  intro H. destruct (Z_lt_le_dec u 0) as [C|C]; [right|left]; (split; [assumption|]).
  - destruct (Z_lt_le_dec a (3 * u)) as [|D]; [assumption|exfalso]. apply q2le in D.
    assert (G : (10 ^ u <= 2 ^ (3 * u))%Q); [|lra].
    rewrite Qpower_mult. change (2 ^ 3)%Q with 8%Q.
    assert (L : (8 ^ (- u) <= 10 ^ (- u))%Q). { assert (G8 : (8 ^ (- u) <= 10 ^ (- u))%Z) by (apply Z.pow_le_mono_l; lia); rewrite Zle_Qle in G8; rewrite !Zpower_Qpower in G8 by lia; exact G8. }
    pose proof (q10pos u). pose proof (q10inv u) as I1. assert (I2 : (8 ^ u * 8 ^ (- u) == 1)%Q).
    { rewrite <- Qpower_plus by discriminate. replace (u + - u)%Z with 0%Z by lia. reflexivity. }
    assert (P8 : (0 < 8 ^ u)%Q) by (apply Qpower_0_lt; reflexivity).
    assert (P8' : (0 < 8 ^ (- u))%Q) by (apply Qpower_0_lt; reflexivity).
    set (x := (10 ^ u)%Q) in *. set (y := (10 ^ (- u))%Q) in *. set (z := (8 ^ u)%Q) in *. set (w := (8 ^ (- u))%Q) in *. clearbody x y z w.
    nra.
  - destruct (Z_lt_le_dec (31 * a) (103 * u)) as [|D]; [assumption|exfalso].
    assert (Ha : (0 <= a)%Z) by lia.
    assert (G : (10 ^ u <= 2 ^ a)%Z).
    { destruct (Z_le_gt_dec (10 ^ u) (2 ^ a)) as [|G]; [assumption|exfalso].
      assert (G2 : ((2 ^ a) ^ 31 < (10 ^ u) ^ 31)%Z). { apply Z.pow_lt_mono_l; [lia|]. split; [apply Z.pow_nonneg; lia|lia]. }
      rewrite <- !Z.pow_mul_r in G2 by lia. rewrite (Z.mul_comm u), (Z.pow_mul_r 10 31 u) in G2 by lia.
      assert (G3 : ((10 ^ 31) ^ u <= (2 ^ 103) ^ u)%Z). { apply Z.pow_le_mono_l. split; [apply Z.pow_nonneg; lia|vm_compute; discriminate]. }
      rewrite <- (Z.pow_mul_r 2 103 u) in G3 by lia.
      assert (G4 : (2 ^ (103 * u) <= 2 ^ (a * 31))%Z) by (apply Z.pow_le_mono_r; lia). lia. }
    rewrite Zle_Qle in G. rewrite !Zpower_Qpower in G by lia. change (inject_Z 10) with 10%Q in G. change (inject_Z 2) with 2%Q in G. lra.
Qed.

(** ** Cutting digits off *)
Lemma cut_val out p t : digits_ok out -> hd_ok out ->
  digits_ok (b_digits (cut out p t)) /\ hd_ok (b_digits (cut out p t)) /\
  (bval (cut out p t) <= dval out p)%Q /\
  (existsb (fun x => 0 <? x) (skipn MAX_DIGITS out) = false -> (bval (cut out p t) == dval out p)%Q) /\
  (existsb (fun x => 0 <? x) (skipn MAX_DIGITS out) = true -> (bval (cut out p t) < dval out p)%Q) /\
  (dval out p < bval (cut out p t) + 10 ^ (p - 768))%Q /\
  (10 ^ (p - 1) <= bval (cut out p t))%Q.
Proof.
  intros H1 H2. unfold bval, cut. cbn [b_digits b_point].
  rewrite <- (firstn_skipn MAX_DIGITS out) in H1. apply digits_app in H1. destruct H1 as [H1 H3].
  assert (H4 : hd_ok (firstn MAX_DIGITS out)) by (destruct out; [contradiction|assumption]).
  pose proof (dval_ge _ p (trim_hd _ H4)) as G. rewrite !dval_trim in *.
  assert (E : (dval out p == dval (firstn MAX_DIGITS out) p + dval (skipn MAX_DIGITS out) (p - Z.of_nat (length (firstn MAX_DIGITS out))))%Q).
  { rewrite <- dval_app, firstn_skipn. reflexivity. }
  split; [apply trim_digits; assumption|]. split; [apply trim_hd; assumption|].
  set (q := (p - Z.of_nat (length (firstn MAX_DIGITS out)))%Z) in *.
  split; [rewrite E; pose proof (dval_nonneg (skipn MAX_DIGITS out) q); lra|].
  split; [|split; [|split; [|assumption]]].
  - intro C. rewrite E. unfold dval at 3. rewrite (num_zero _ C). change (iz 0) with 0%Q. ring.
  - intro C. rewrite E. assert (0 < dval (skipn MAX_DIGITS out) q)%Q; [|lra].
    unfold dval. apply Qmult_lt_0_compat; [|apply q10pos]. apply iz_pos, num_nonzero, C.
  - rewrite E. assert (dval (skipn MAX_DIGITS out) q < 10 ^ (p - 768))%Q; [|lra].
    destruct (Nat.le_gt_cases (length out) MAX_DIGITS) as [C|C].
    + rewrite skipn_all2 by assumption. unfold dval, num. cbn [fold_left]. change (iz 0) with 0%Q.
      rewrite Qmult_0_l. apply q10pos.
    + replace (p - 768)%Z with q; [apply dval_lt; assumption|]. unfold q. rewrite firstn_length, Nat.min_l by lia. reflexivity.
Qed.

Lemma cut_kept out p t k (j : Z) : digits_ok out -> hd_ok out -> (p <= 768)%Z -> (j <= 768 - p)%Z ->
  (iz k * 2 ^ (- j) <= dval out p)%Q -> (iz k * 2 ^ (- j) <= bval (cut out p t))%Q.
Proof.
  intros H1 H2 Hp Hj L. pose proof (cut_val out p t H1 H2) as (_ & _ & _ & C1 & _ & C2 & _).
  destruct (Nat.le_gt_cases (length out) MAX_DIGITS) as [C|C].
  { rewrite C1; [assumption|]. rewrite skipn_all2 by assumption. reflexivity. }
  unfold bval, cut in *. cbn [b_digits b_point] in *. rewrite dval_trim in *.
  unfold dval in C2 at 2. unfold dval.
  assert (El : Z.of_nat (length (firstn MAX_DIGITS out)) = 768%Z) by (rewrite firstn_length, Nat.min_l by lia; reflexivity).
  rewrite El in *. set (M := num (firstn MAX_DIGITS out)) in *.
  set (N' := k * (5 ^ Z.to_N (768 - p) * 2 ^ Z.to_N (768 - p - j))).
  assert (E : (iz k * 2 ^ (- j) == iz N' * 10 ^ (p - 768))%Q).
  { unfold N'. rewrite !iz_mul, iz_2pow, iz_pow, !Z2N.id by lia. change (iz 5) with 5%Q.
    rewrite q5_10. assert (X5 : (5 ^ (768 - p) * 5 ^ (p - 768) == 1)%Q).
    { rewrite <- Qpower_plus by discriminate. replace (768 - p + (p - 768))%Z with 0%Z by lia. reflexivity. }
    assert (X2 : (2 ^ (768 - p - j) * 2 ^ (p - 768) == 2 ^ (- j))%Q).
    { rewrite <- q2plus. replace (768 - p - j + (p - 768))%Z with (- j)%Z by lia. reflexivity. }
    rewrite <- X2.
    setoid_replace (iz k * (5 ^ (768 - p) * 2 ^ (768 - p - j)) * (5 ^ (p - 768) * 2 ^ (p - 768)))%Q
      with (iz k * (5 ^ (768 - p) * 5 ^ (p - 768)) * (2 ^ (768 - p - j) * 2 ^ (p - 768)))%Q by ring.
    rewrite X5. ring. }
  rewrite E in *. apply Qmult_le_compat_r; [|apply Qlt_le_weak, q10pos].
  apply iz_le. assert (N' < M + 1); [|lia]. apply iz_lt. rewrite iz_add. change (iz 1) with 1%Q.
  apply Qmult_lt_r with (10 ^ (p - 768))%Q; [apply q10pos|]. rewrite Qmult_plus_distr_l, Qmult_1_l. lra.
Qed.

(** ** The invariant *)
Record inv (v : Q) (e : Z) (d : big) : Prop := {
  i_dig : digits_ok (b_digits d);
  i_hd : hd_ok (b_digits d);
  i_eq : b_trunc d = false -> (bval d * 2 ^ e == v)%Q;
  i_lt : b_trunc d = true -> (bval d * 2 ^ e < v)%Q
}.
Definition kept (v : Q) (e : Z) (d : big) (A : Z) : Prop :=
  forall k, (iz k * 2 ^ (- A) <= v)%Q -> (iz k * 2 ^ (- A) <= bval d * 2 ^ e)%Q.
Lemma inv_le v e d : inv v e d -> (bval d * 2 ^ e <= v)%Q.
Proof. intros [_ _ H1 H2]. destruct (b_trunc d); [specialize (H2 eq_refl); lra|specialize (H1 eq_refl); lra]. Qed.

Lemma inv_step v e d e' out p :
  inv v e d -> digits_ok out -> hd_ok out -> (dval out p * 2 ^ e' == bval d * 2 ^ e)%Q -> inv v e' (cut out p (b_trunc d)).
Proof.
  intros [I1 I2 I3 I4] H1 H2 E. pose proof (cut_val out p (b_trunc d) H1 H2) as (C1 & C2 & C3 & C4 & C5 & _).
  pose proof (q2pos e') as P. set (c := cut out p (b_trunc d)) in *.
  assert (T : b_trunc c = b_trunc d || existsb (fun x => 0 <? x) (skipn MAX_DIGITS out)) by reflexivity. clearbody c.
  constructor; [assumption|assumption| |]; intro G; rewrite T in G.
  - apply orb_false_iff in G. destruct G as [G1 G2]. rewrite (C4 G2), E. auto.
  - apply orb_true_iff in G. destruct G as [G|G].
    + eapply Qle_lt_trans; [|exact (I4 G)]. rewrite <- E. apply Qmult_le_compat_r; [assumption|lra].
    + specialize (C5 G). apply Qlt_le_trans with (dval out p * 2 ^ e')%Q; [apply Qmult_lt_r; assumption|]. rewrite E.
      apply inv_le. constructor; assumption.
Qed.
Lemma kept_step v e d e' out p A :
  kept v e d A -> digits_ok out -> hd_ok out -> (dval out p * 2 ^ e' == bval d * 2 ^ e)%Q -> (p <= 768)%Z -> (A + e' <= 768 - p)%Z ->
  kept v e' (cut out p (b_trunc d)) A.
Proof.
  intros Hk H1 H2 E Hp Hj k L. specialize (Hk k L). rewrite <- E in Hk.
  assert (X : (iz k * 2 ^ (- A) == iz k * 2 ^ (- (A + e')) * 2 ^ e')%Q).
  { rewrite <- Qmult_assoc, <- q2plus. replace (- (A + e') + e')%Z with (- A)%Z by lia. reflexivity. }
  rewrite X in *. apply Qmult_le_r in Hk; [|apply q2pos]. apply Qmult_le_compat_r; [|apply Qlt_le_weak, q2pos].
  apply cut_kept; assumption.
Qed.

Section Slow.
Variables (v : Q) (E A : Z).
Hypothesis (HE1 : (2 ^ E <= v)%Q) (HE2 : (v < 2 ^ (E + 1))%Q).
Hypothesis (HA1 : (A + E <= 53)%Z) (HA2 : (A <= 1075)%Z).
Hypothesis (HE : (-1080 <= E)%Z).

Record st (e : Z) (d : big) : Prop := { s_inv : inv v e d; s_A : kept v e d A; s_E : kept v e d (- E) }.

Lemma st_low e d : st e d -> (2 ^ (E - e) <= bval d)%Q.
Proof.
  intros [_ _ H]. specialize (H 1). change (iz 1) with 1%Q in H. rewrite Qmult_1_l, Z.opp_involutive in H. specialize (H HE1).
  apply Qmult_le_r with (2 ^ e)%Q; [apply q2pos|]. rewrite <- q2plus. replace (E - e + e)%Z with E by lia. assumption.
Qed.
Lemma st_high e d : st e d -> (bval d < 2 ^ (E + 1 - e))%Q.
Proof.
  intros [H _ _]. apply inv_le in H. apply Qmult_lt_r with (2 ^ e)%Q; [apply q2pos|]. rewrite <- q2plus.
  replace (E + 1 - e + e)%Z with (E + 1)%Z by lia. lra.
Qed.

Lemma st_step e d e' out p :
  st e d -> digits_ok out -> hd_ok out -> (dval out p * 2 ^ e' == bval d * 2 ^ e)%Q ->
  (-324 <= p <= 768)%Z -> (e' <= 0 \/ -306 <= p)%Z -> st e' (cut out p (b_trunc d)).
Proof.
  intros [H1 H2 H3] D1 D2 X Hp He.
  assert (C : (2 ^ (e' - E - 1) < 10 ^ (1 - p))%Q).
  { pose proof (inv_le v e d H1) as L. rewrite <- X in L. pose proof (dval_ge out p D2) as G.
    pose proof (q2pos e') as P. assert (L2 : (10 ^ (p - 1) * 2 ^ e' < 2 ^ (E + 1))%Q).
    { eapply Qle_lt_trans; [|eapply Qle_lt_trans; [exact L|exact HE2]]. apply Qmult_le_compat_r; [assumption|lra]. }
    apply Qmult_lt_r with (2 ^ (E + 1))%Q; [apply q2pos|]. rewrite <- q2plus. replace (e' - E - 1 + (E + 1))%Z with e' by lia.
    apply Qmult_lt_l with (10 ^ (p - 1))%Q; [apply q10pos|]. rewrite Qmult_assoc, <- q10plus.
    replace (p - 1 + (1 - p))%Z with 0%Z by lia. change (10 ^ 0)%Q with 1%Q. lra. }
  apply pow_cmp in C.
  constructor; [eapply inv_step; eassumption| |]; (eapply kept_step; [eassumption|assumption|assumption|eassumption|lia|lia]).
Qed.

Lemma get_shift_ok n : (1 <= n)%Z -> 3 <= get_shift (Z.to_N n) <= 60 /\ (2 ^ Z.of_N (get_shift (Z.to_N n)) <= 10 ^ n)%Q.
Proof.
  intro H. assert (G : 3 <= get_shift (Z.to_N n) <= 60 /\ 2 ^ get_shift (Z.to_N n) <= 10 ^ Z.to_N n).
  { unfold get_shift. rewrite Z_N_nat. destruct (Z_lt_le_dec n 19) as [C|C].
    - assert (n = 1 \/ n = 2 \/ n = 3 \/ n = 4 \/ n = 5 \/ n = 6 \/ n = 7 \/ n = 8 \/ n = 9 \/ n = 10 \/ n = 11 \/ n = 12 \/ n = 13 \/ n = 14 \/
              n = 15 \/ n = 16 \/ n = 17 \/ n = 18)%Z as O by lia.
      repeat (destruct O as [->|O]; [split; [split|]; vm_compute; discriminate|]). subst n. split; [split|]; vm_compute; discriminate.
    - rewrite nth_overflow by (cbn; lia). split; [lia|].
      apply N.le_trans with (10 ^ 19); [vm_compute; discriminate|]. apply N.pow_le_mono_r; lia. }
  destruct G as [G1 G2]. split; [assumption|]. apply iz_le in G2. rewrite iz_2pow, iz_10pow, Z2N.id in G2 by lia. assumption.
Qed.

Lemma val_point d : digits_ok (b_digits d) -> hd_ok (b_digits d) -> (10 ^ (b_point d - 1) <= bval d < 10 ^ b_point d)%Q.
Proof. intros H1 H2. split; [apply dval_ge|apply dval_lt]; assumption. Qed.

(** The first loop *)
Lemma shrink_ok : forall f d e,
  st e d -> (bval d < 2 ^ Z.of_nat f)%Q -> (-324 <= b_point d <= 400)%Z -> (e <= 0 \/ -306 <= b_point d)%Z ->
  exists d' e', shrink (S f) d e = Ok (Some (d', e')) /\ st e' d' /\ (-324 <= b_point d' <= 0)%Z /\ (e' <= 0 \/ -306 <= b_point d')%Z.
Proof.
  induction f as [|f IH]; intros d e S L Hp He.
  - cbn [shrink]. destruct (val_point d (i_dig _ _ _ (s_inv _ _ S)) (i_hd _ _ _ (s_inv _ _ S))) as [V1 _].
    assert (P0 : (b_point d - 1 < 0)%Z). { apply q10lt. change (10 ^ 0)%Q with 1%Q. change (2 ^ Z.of_nat 0)%Q with 1%Q in L. lra. }
    replace (0 <? b_point d)%Z with false by (symmetry; apply Z.ltb_ge; lia). exists d, e. repeat split; try assumption; try lia; apply S.
  - change (shrink (Datatypes.S (Datatypes.S f)) d e) with
      (if (0 <? b_point d)%Z then
        let shift := get_shift (Z.to_N (b_point d)) in
        let* d' := right_shift d shift in
        if (b_point d' <? -2047)%Z then Ok None else shrink (Datatypes.S f) d' (e + Z.of_N shift)%Z
      else Ok (Some (d, e))).
    destruct (0 <? b_point d)%Z eqn:C.
    2: { apply Z.ltb_ge in C. exists d, e. repeat split; try assumption; try lia; apply S. }
    apply Z.ltb_lt in C. cbv zeta. destruct (get_shift_ok (b_point d) ltac:(lia)) as [Hs _].
    set (shift := get_shift (Z.to_N (b_point d))) in *. clearbody shift.
    pose proof (i_dig _ _ _ (s_inv _ _ S)) as D1. pose proof (i_hd _ _ _ (s_inv _ _ S)) as D2.
    destruct (right_shift_ok d shift D1 D2 ltac:(lia)) as (out & p & R1 & R2 & R3 & R4).
    destruct (val_point d D1 D2) as [V1 V2].
    pose proof (dval_ge out p R3) as W1. pose proof (dval_lt out p R2) as W2. rewrite R4 in W1, W2.
    assert (Q1 : (2 ^ (- Z.of_N shift) <= 1 # 8)%Q). { change (1 # 8)%Q with (2 ^ (-3))%Q. apply q2le. lia. }
    assert (Q2 : (2 ^ (-60) <= 2 ^ (- Z.of_N shift))%Q) by (apply q2le; lia).
    pose proof (q2pos (- Z.of_N shift)) as Q3.
    assert (B1 : (1 <= bval d)%Q). { eapply Qle_trans; [|exact V1]. change 1%Q with (10 ^ 0)%Q. apply q10le. lia. }
    assert (Hp1 : (-20 < p)%Z).
    { apply q10lt. eapply Qle_lt_trans; [|exact W2]. apply Qle_trans with (1 * 2 ^ (-60))%Q; [vm_compute; discriminate|].
      apply Qmult_le_compat_nonneg; (split; [|assumption]); [discriminate|apply Qlt_le_weak, q2pos]. }
    assert (Hp2 : (p - 1 < b_point d)%Z).
    { apply q10lt. eapply Qle_lt_trans; [exact W1|]. eapply Qle_lt_trans; [|exact V2].
      rewrite <- (Qmult_1_r (bval d)) at 2. apply Qmult_le_l; [lra|]. lra. }
    rewrite R1 by lia. cbn [bind]. change (b_point (cut out p (b_trunc d))) with p.
    replace (p <? -2047)%Z with false by (symmetry; apply Z.ltb_ge; lia).
    assert (S' : st (e + Z.of_N shift) (cut out p (b_trunc d))).
    { apply (st_step e d); [assumption|assumption|assumption| |lia|lia].
      rewrite R4, q2plus. setoid_replace (bval d * 2 ^ (- Z.of_N shift) * (2 ^ e * 2 ^ Z.of_N shift))%Q
        with (bval d * 2 ^ e * (2 ^ Z.of_N shift * 2 ^ (- Z.of_N shift)))%Q by ring. rewrite q2inv. ring. }
    apply IH; [assumption| |cbn; lia|cbn; lia].
    eapply Qle_lt_trans; [apply (cut_val out p (b_trunc d) R2 R3)|]. rewrite R4.
    rewrite Nat2Z.inj_succ in L. unfold Z.succ in L. rewrite q2plus in L. change (2 ^ 1)%Q with 2%Q in L.
    apply Qle_lt_trans with (bval d * (1 # 8))%Q; [apply Qmult_le_l; lra|]. pose proof (q2pos (Z.of_nat f)). lra.
Qed.

(** The second loop *)
Lemma val_head d x r : b_digits d = x :: r -> digits_ok (b_digits d) ->
  (iz x * 10 ^ (b_point d - 1) <= bval d < iz (x + 1) * 10 ^ (b_point d - 1))%Q.
Proof.
  intros Eq H. unfold bval. rewrite Eq in *. inversion H as [|? ? H1 H2]; subst.
  change (x :: r) with ([x] ++ r). rewrite dval_app. cbn [length]. change (Z.of_nat 1) with 1%Z.
  assert (X : (dval [x] (b_point d) == iz x * 10 ^ (b_point d - 1))%Q).
  { unfold dval. rewrite num_cons. change (num []) with 0. change (lenN []) with 0. cbn [length]. change (Z.of_nat 1) with 1%Z.
    rewrite N.pow_0_r. replace (x * 1 + 0) with x by lia. reflexivity. }
  rewrite X. pose proof (dval_nonneg r (b_point d - 1)). pose proof (dval_lt r (b_point d - 1) H2).
  rewrite iz_add. change (iz 1) with 1%Q. split; lra.
Qed.

Lemma grow_ok : forall f d e,
  st e d -> ((2 # 3) ^ Z.of_nat f <= bval d)%Q -> (-324 <= b_point d <= 0)%Z -> (e <= 0 \/ -306 <= b_point d)%Z ->
  exists d' e', grow (S f) d e = Ok (Some (d', e')) /\ st e' d' /\ ((1 # 2) <= bval d' < 1)%Q.
Proof.
  induction f as [|f IH]; intros d e S L Hp He.
  - exfalso. pose proof (i_dig _ _ _ (s_inv _ _ S)) as D1. pose proof (i_hd _ _ _ (s_inv _ _ S)) as D2.
    destruct (val_point d D1 D2) as [_ V2]. change ((2 # 3) ^ Z.of_nat 0)%Q with 1%Q in L.
    assert (10 ^ b_point d <= 1)%Q by (change 1%Q with (10 ^ 0)%Q; apply q10le; lia). lra.
  - change (grow (Datatypes.S (Datatypes.S f)) d e) with
      (if (b_point d <=? 0)%Z then
        let* shift :=
          if (b_point d =? 0)%Z then
            match b_digits d with
            | [] => Panic
            | x :: _ => Ok (if 5 <=? x then 0 else if x <=? 1 then 2 else 1)
            end
          else Ok (get_shift (Z.to_N (- b_point d))) in
        if (shift =? 0) && (b_point d =? 0)%Z then Ok (Some (d, e))
        else
          let* d' := left_shift d shift in
          if (2047 <? b_point d')%Z then Ok None else grow (Datatypes.S f) d' (e - Z.of_N shift)%Z
      else Ok (Some (d, e))).
    replace (b_point d <=? 0)%Z with true by (symmetry; apply Z.leb_le; lia).
    pose proof (i_dig _ _ _ (s_inv _ _ S)) as D1. pose proof (i_hd _ _ _ (s_inv _ _ S)) as D2.
    destruct (val_point d D1 D2) as [V1 V2].
    assert (G : exists shift, (if (b_point d =? 0)%Z then
            match b_digits d with
            | [] => Panic
            | x :: _ => Ok (if 5 <=? x then 0 else if x <=? 1 then 2 else 1)
            end
          else Ok (get_shift (Z.to_N (- b_point d)))) = Ok shift /\
      (shift = 0 /\ b_point d = 0%Z /\ ((1 # 2) <= bval d < 1)%Q \/
       1 <= shift <= 60 /\ (bval d * 2 ^ Z.of_N shift < 1)%Q)).
    { destruct (b_point d =? 0)%Z eqn:C.
      - apply Z.eqb_eq in C. destruct (b_digits d) as [|x r] eqn:Ed; [contradiction|].
        rewrite <- Ed in D1. destruct (val_head d x r Ed D1) as [X1 X2]. rewrite C in *. change (10 ^ (0 - 1))%Q with (1 # 10)%Q in *.
        change (10 ^ 0)%Q with 1%Q in V2.
        eexists. split; [reflexivity|]. destruct (5 <=? x) eqn:C1.
        + apply N.leb_le in C1. left. split; [reflexivity|]. split; [reflexivity|]. split; [|assumption].
          apply iz_le in C1. change (iz 5) with 5%Q in C1. lra.
        + apply N.leb_gt in C1. right. destruct (x <=? 1) eqn:C2.
          * apply N.leb_le in C2. split; [lia|]. change (2 ^ Z.of_N 2)%Q with 4%Q.
            assert (C3 : x + 1 <= 2) by lia. apply iz_le in C3. change (iz 2) with 2%Q in C3. lra.
          * split; [lia|]. change (2 ^ Z.of_N 1)%Q with 2%Q.
            assert (C3 : x + 1 <= 5) by lia. apply iz_le in C3. change (iz 5) with 5%Q in C3. lra.
      - apply Z.eqb_neq in C. eexists. split; [reflexivity|]. right.
        destruct (get_shift_ok (- b_point d) ltac:(lia)) as [G1 G2]. split; [lia|].
        pose proof (q2pos (Z.of_N (get_shift (Z.to_N (- b_point d))))) as P.
        apply Qlt_le_trans with (10 ^ b_point d * 2 ^ Z.of_N (get_shift (Z.to_N (- b_point d))))%Q; [apply Qmult_lt_r; assumption|].
        rewrite <- (q10inv (b_point d)). apply Qmult_le_l; [apply q10pos|assumption]. }
    destruct G as (shift & G1 & G2). rewrite G1. cbn [bind]. destruct G2 as [(-> & G2 & G3)|[G2 G3]].
    + rewrite G2. cbn [Z.eqb N.eqb andb]. exists d, e. auto.
    + replace (shift =? 0) with false by (symmetry; apply N.eqb_neq; lia). cbn [andb].
      destruct (left_shift_ok d shift D1 D2 G2) as (out & p & R1 & R2 & R3 & R4). rewrite R1. cbn [bind].
      change (b_point (cut out p (b_trunc d))) with p.
      pose proof (dval_ge out p R3) as W1. pose proof (dval_lt out p R2) as W2. rewrite R4 in W1, W2.
      assert (Q1 : (2 <= 2 ^ Z.of_N shift)%Q). { change 2%Q with (2 ^ 1)%Q at 1. apply q2le. lia. }
      assert (B0 : (0 < bval d)%Q) by (apply dval_pos; assumption).
      assert (B2 : (bval d * 2 <= bval d * 2 ^ Z.of_N shift)%Q) by (apply Qmult_le_l; assumption).
      assert (Hp1 : (p - 1 < 0)%Z). { apply q10lt. change (10 ^ 0)%Q with 1%Q. lra. }
      assert (Hp2 : (b_point d - 1 < p)%Z). { apply q10lt. lra. }
      replace (2047 <? p)%Z with false by (symmetry; apply Z.ltb_ge; lia).
      apply IH; [| |cbn; lia|cbn; lia].
      * apply (st_step e d); [assumption|assumption|assumption| |lia|lia].
        rewrite R4. unfold Z.sub. rewrite q2plus.
        setoid_replace (bval d * 2 ^ Z.of_N shift * (2 ^ e * 2 ^ (- Z.of_N shift)))%Q
          with (bval d * 2 ^ e * (2 ^ Z.of_N shift * 2 ^ (- Z.of_N shift)))%Q by ring. rewrite q2inv. ring.
      * pose proof (cut_val out p (b_trunc d) R2 R3) as (_ & _ & _ & _ & _ & C1 & C2). rewrite R4 in C1.
        rewrite Nat2Z.inj_succ in L. unfold Z.succ in L. rewrite Qpower_plus in L by discriminate. change ((2 # 3) ^ 1)%Q with (2 # 3)%Q in L.
        assert (C3 : (10 ^ (p - 768) <= (1 # 3) * 10 ^ (p - 1))%Q).
        { replace (p - 768)%Z with (-767 + (p - 1))%Z by lia. rewrite q10plus. apply Qmult_le_compat_r; [|apply Qlt_le_weak, q10pos].
          apply Qle_trans with (10 ^ (-1))%Q; [apply q10le; lia|vm_compute; discriminate]. }
        lra.
Qed.

(** The third loop *)
Lemma subnormal_ok least : (-1022 <= least <= -126)%Z -> forall f d x,
  st (x + 1) d -> (E <= x)%Z -> (x <= E \/ x <= least)%Z -> (least - x <= Z.of_nat f)%Z ->
  exists d', subnormal (S f) least d x = Ok (d', Z.max x least) /\ st (Z.max x least + 1) d'.
Proof.
  intros Hl. induction f as [|f IH]; intros d x S Hx Hx2 Hf.
  - cbn [subnormal]. replace (x <? least)%Z with false by (symmetry; apply Z.ltb_ge; lia).
    exists d. rewrite Z.max_l by lia. auto.
  - change (subnormal (Datatypes.S (Datatypes.S f)) least d x) with
      (if (x <? least)%Z then
        let n := Z.min 60 (least - x) in
        let* d' := right_shift d (Z.to_N n) in
        subnormal (Datatypes.S f) least d' (x + n)%Z
      else Ok (d, x)).
    destruct (x <? least)%Z eqn:C.
    2: { apply Z.ltb_ge in C. exists d. rewrite Z.max_l by lia. auto. }
    apply Z.ltb_lt in C. cbv zeta. set (n := Z.min 60 (least - x)).
    assert (Hn : (1 <= n <= 60)%Z /\ (x + n <= least)%Z) by (subst n; lia). clearbody n.
    pose proof (i_dig _ _ _ (s_inv _ _ S)) as D1. pose proof (i_hd _ _ _ (s_inv _ _ S)) as D2.
    destruct (right_shift_ok d (Z.to_N n) D1 D2 ltac:(lia)) as (out & p & R1 & R2 & R3 & R4). rewrite Z2N.id in R4 by lia.
    pose proof (dval_ge out p R3) as W1. pose proof (dval_lt out p R2) as W2. rewrite R4 in W1, W2.
    pose proof (st_low _ _ S) as L1. pose proof (st_high _ _ S) as L2.
    pose proof (q2pos (- n)) as Pn.
    assert (Hp1 : (-300 < p)%Z).
    { apply q10lt. eapply Qle_lt_trans; [|exact W2].
      apply Qle_trans with (2 ^ (E - (x + 1)) * 2 ^ (- n))%Q; [|apply Qmult_le_compat_r; [assumption|lra]].
      rewrite <- q2plus. apply Qle_trans with (2 ^ (-956))%Q; [vm_compute; discriminate|]. apply q2le. lia. }
    assert (Hp2 : (p - 1 < 1)%Z).
    { apply q10lt. eapply Qle_lt_trans; [exact W1|].
      apply Qlt_le_trans with (2 ^ (E + 1 - (x + 1)) * 2 ^ (- n))%Q; [apply Qmult_lt_r; assumption|].
      rewrite <- q2plus. apply Qle_trans with (2 ^ 0)%Q; [apply q2le; lia|vm_compute; discriminate]. }
    rewrite R1 by lia. cbn [bind].
    assert (S' : st (x + n + 1) (cut out p (b_trunc d))).
    { apply (st_step (x + 1) d); [assumption|assumption|assumption| |lia|lia].
      rewrite R4. replace (x + n + 1)%Z with (x + 1 + n)%Z by lia. rewrite (q2plus (x + 1)).
      setoid_replace (bval d * 2 ^ (- n) * (2 ^ (x + 1) * 2 ^ n))%Q with (bval d * 2 ^ (x + 1) * (2 ^ n * 2 ^ (- n)))%Q by ring.
      rewrite q2inv. ring. }
    destruct (IH _ (x + n)%Z S') as (d' & I1 & I2); [lia|lia|lia|].
    exists d'. rewrite I1. replace (Z.max (x + n) least) with (Z.max x least) in * by lia. auto.
Qed.
End Slow.
