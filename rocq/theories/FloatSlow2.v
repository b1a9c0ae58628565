(** The slow path of dec2flt rounds correctly: from the digits to the bits. *)
From Coq Require Import QArith Qround Lqa Qpower.
From Coq Require Import Lia.
From Verif Require Import Base BaseFacts FloatSpec Dec2fltTable Dec2flt FloatFacts FloatFast FloatLemire2 FloatLemire3 FloatDigits FloatSlow FloatRound.
Local Open Scope N_scope.

Lemma rounds_inf' B x : fmt_ok B -> (iz (2 ^ (2 ^ ebits B - 1)) <= x * 2 ^ bias B)%Q -> rounds_to B x (infinity B).
Proof.
  intros H L. apply rounds_to2. split; [lia|]. split; [|intro; lia]. intro P. left.
  assert (M : mid2 B (infinity B - 1) < 2 * units B (infinity B)).
  { unfold mid2. replace (infinity B - 1 + 1) with (infinity B) by lia.
    pose proof (units_mono B (infinity B - 1) (infinity B) H). lia. }
  apply iz_lt in M. rewrite infinity_units in M by assumption. eapply Qlt_le_trans; [exact M|].
  unfold K. rewrite q2plus, Qmult_assoc. rewrite (N.mul_comm (2 ^ mbits B)), iz_mul. rewrite (iz_2pow (mbits B)).
  apply Qmult_le_compat_r; [|apply Qlt_le_weak, q2pos]. exact L.
Qed.

Lemma floor_ex (x : Q) : (0 <= x)%Q -> exists m, (iz m <= x)%Q /\ (x < iz (m + 1))%Q.
Proof.
  intro H. exists (Z.to_N (Qfloor x)). assert (Z0 : (0 <= Qfloor x)%Z) by (change 0%Z with (Qfloor 0); apply Qfloor_resp_le; assumption).
  unfold iz. rewrite N2Z.inj_add, Z2N.id by assumption. split; [apply Qfloor_le|]. apply (Qlt_floor x).
Qed.

(** The numbers of the two formats that matter *)
Record nums (F : raw_float) : Prop := {
  u_ok : facts F;
  u_mb : 1 <= meb F <= 52;
  u_bias : (127 <= bias (r_bin F) <= 1023)%Z;
  u_bm : (bias (r_bin F) + Z.of_N (meb F) <= 1075)%Z;
  u_inf : r_inf F = (2 * bias (r_bin F) + 1)%Z;
  u_min : r_min_exp F = (- bias (r_bin F))%Z;
  u_e : 2 ^ ebits (r_bin F) - 1 = Z.to_N (r_inf F)
}.
Lemma std_nums F : std F -> nums F.
Proof.
  intro H. pose proof (std_facts F H). destruct H as [->| ->]; constructor; try assumption; try reflexivity; cbn; lia.
Qed.

(** What is left to do after the first two loops *)
Definition tail (F : raw_float) (d : big) (exp2 : Z) : res biased :=
  let inf := {| bf := 0; be := r_inf F |} in
            let* (d, exp2) := subnormal 2000 (r_min_exp F + 1) d (exp2 - 1) in
            if (r_inf F <=? exp2 - r_min_exp F)%Z then Ok inf
            else
              let* d := left_shift d (meb F + 1) in
              let* m := round d in
              let finish (m : N) (exp2 : Z) :=
                let power2 := (exp2 - r_min_exp F)%Z in
                let power2 := if m <? 2 ^ meb F then (power2 - 1)%Z else power2 in
                Ok {| bf := m mod 2 ^ meb F; be := power2 |} in
              if 2 ^ (meb F + 1) <=? m then
                let* d := right_shift d 1 in
                let exp2 := (exp2 + 1)%Z in
                let* m := round d in
                if (r_inf F <=? exp2 - r_min_exp F)%Z then Ok inf else finish m exp2
              else finish m exp2.

Lemma inf_ok F v : nums F -> rounds_to (r_bin F) v (infinity (r_bin F)) ->
  exists fp, Ok {| bf := 0; be := r_inf F |} = Ok fp /\ (0 <= be fp)%Z /\ rounds_to (r_bin F) v (to_float (r_bin F) fp).
Proof.
  intros U H. eexists. split; [reflexivity|]. pose proof (u_bias F U). split; [cbn [be]; rewrite (u_inf F U); lia|].
  rewrite infinity_to_float; [assumption|apply U].
Qed.

Lemma half_range m (c : bool) : m / 2 <= (if c then m / 2 else (m + 1) / 2) <= (m + 1) / 2.
Proof.
  assert (m / 2 <= (m + 1) / 2) by (apply N.div_le_mono; lia). destruct c; lia.
Qed.

Section End.
Variables (F : raw_float) (v : Q) (E : Z).
Hypothesis (U : nums F) (HE1 : (2 ^ E <= v)%Q) (HE2 : (v < 2 ^ (E + 1))%Q) (HE : (-1080 <= E)%Z).
Let mb := meb F.
Let bs := bias (r_bin F).
Let x := Z.max E (1 - bs).
Let A := (Z.of_N mb + 1 - x)%Z.
Let HA1 : (A + E <= 53)%Z. Proof. pose proof (u_mb F U). subst A x mb bs. lia. Qed.
Let HA2 : (A <= 1075)%Z. Proof. pose proof (u_mb F U). pose proof (u_bm F U). subst A x mb bs. lia. Qed.

Notation ST := (st v E A).

(** Rounding in a state whose exponent leaves integers *)
Lemma st_round d e m exact : ST e d -> last (b_digits d) 0 <> 0 -> (e <= 1 + x - Z.of_N mb)%Z -> (x - Z.of_N mb <= e)%Z ->
  (iz m <= 2 * (v * 2 ^ (- e)))%Q -> (2 * (v * 2 ^ (- e)) < iz (m + 1))%Q -> (exact = true <-> (2 * (v * 2 ^ (- e)) == iz m)%Q) ->
  round d = Ok (if exact && (m mod 4 =? 1) then m / 2 else (m + 1) / 2).
Proof.
  intros S L He1 He2 M1 M2 Ex. pose proof (s_inv _ _ _ _ _ S) as [I1 I2 I3 I4]. pose proof (s_A _ _ _ _ _ S) as KA.
  pose proof (q2inv e) as Ie. pose proof (q2pos e) as Pe. pose proof (q2pos (- e)) as Pe'.
  assert (Vz : (bval d == (bval d * 2 ^ e) * 2 ^ (- e))%Q).
  { rewrite <- Qmult_assoc, Ie. ring. }
  apply (round_ok d (v * 2 ^ (- e))%Q m exact); try assumption.
  - intro T. rewrite Vz, (I3 T). reflexivity.
  - intro T. rewrite Vz. apply Qmult_lt_r; [assumption|]. apply I4, T.
  - intros k Lk. set (j := (e + A - 1)%Z). assert (Hj : (0 <= j)%Z) by (subst j A; lia).
    specialize (KA (k * 2 ^ Z.to_N j)). rewrite iz_mul, iz_2pow, Z2N.id in KA by assumption.
    assert (Ej : (iz k * 2 ^ j * 2 ^ (- A) == iz k * 2 ^ (e - 1))%Q).
    { rewrite <- Qmult_assoc, <- q2plus. replace (j + - A)%Z with (e - 1)%Z by (subst j; lia). reflexivity. }
    rewrite Ej in KA. unfold Z.sub in KA. rewrite q2plus in KA. change (2 ^ (- (1)))%Q with (1 # 2)%Q in KA.
    assert (G : (iz k * (2 ^ e * (1 # 2)) <= v)%Q).
    { apply Qmult_le_r with (2 ^ (- e))%Q; [assumption|].
      setoid_replace (iz k * (2 ^ e * (1 # 2)) * 2 ^ (- e))%Q with (iz k * (1 # 2) * (2 ^ e * 2 ^ (- e)))%Q by ring. rewrite Ie. lra. }
    specialize (KA G). apply Qmult_le_r with (2 ^ e)%Q; [assumption|]. lra.
  - pose proof (u_mb F U). eapply Qlt_le_trans; [apply Qmult_lt_r; [exact Pe'|exact HE2]|]. rewrite <- q2plus.
    apply Qle_trans with (2 ^ 53)%Q; [apply q2le; subst x mb; lia|vm_compute; discriminate].
Qed.

Lemma cut_last out p t : digits_ok out -> hd_ok out -> last (b_digits (cut out p t)) 0 <> 0.
Proof.
  intros H1 H2. unfold cut. cbn [b_digits]. apply trim_last. pose proof (cut_val out p t H1 H2) as (_ & H & _). unfold cut in H. cbn [b_digits] in H.
  destruct (trim (firstn MAX_DIGITS out)); [contradiction|discriminate].
Qed.

Lemma tail_ok d : ST (E + 1) d ->
  exists fp, tail F d (E + 1) = Ok fp /\ (0 <= be fp)%Z /\ rounds_to (r_bin F) v (to_float (r_bin F) fp).
Proof.
  intro S. pose proof (u_mb F U) as Umb. pose proof (u_bias F U) as Ub. fold mb in Umb. fold bs in Ub.
  pose proof (f_ok F (u_ok F U)) as FO.
  unfold tail. rewrite (u_min F U). fold bs. replace (E + 1 - 1)%Z with E by lia. replace (- bs + 1)%Z with (1 - bs)%Z by lia.
  destruct (subnormal_ok v E A HE1 HE2 HA1 HA2 HE (1 - bs) ltac:(lia) 1999 d E S ltac:(lia) ltac:(lia) ltac:(lia)) as (d1 & Sb & S1).
  rewrite Sb. clear Sb d S. fold x in S1. cbn [bind]. fold x.
  replace (x - - bs)%Z with (x + bs)%Z by lia. rewrite (u_inf F U). fold bs.
  destruct (2 * bs + 1 <=? x + bs)%Z eqn:C1.
  { apply Z.leb_le in C1. assert (Ex : x = E) by (subst x; lia). rewrite Ex in C1.
    replace (2 * bs + 1)%Z with (r_inf F) by apply (u_inf F U). apply inf_ok; [assumption|]. apply rounds_inf'; [assumption|].
    rewrite (u_e F U), iz_2pow, (u_inf F U), Z2N.id by (fold bs; lia). fold bs.
    apply Qle_trans with (2 ^ (bs + 1) * 2 ^ bs)%Q; [rewrite <- q2plus; apply q2le; lia|].
    apply Qmult_le_compat_r; [|apply Qlt_le_weak, q2pos]. eapply Qle_trans; [|exact HE1]. apply q2le. lia. }
  apply Z.leb_gt in C1.
  pose proof (i_dig _ _ _ (s_inv _ _ _ _ _ S1)) as D1. pose proof (i_hd _ _ _ (s_inv _ _ _ _ _ S1)) as D2.
  destruct (left_shift_ok d1 (mb + 1) D1 D2 ltac:(lia)) as (out & p & R1 & R2 & R3 & R4). fold mb. rewrite R1. cbn [bind]. clear R1.
  replace (Z.of_N (mb + 1)) with (Z.of_N mb + 1)%Z in R4 by lia.
  set (e := (x - Z.of_N mb)%Z).
  assert (Eq : (dval out p * 2 ^ e == bval d1 * 2 ^ (x + 1))%Q).
  { rewrite R4. rewrite <- Qmult_assoc, <- q2plus. replace (Z.of_N mb + 1 + e)%Z with (x + 1)%Z by (subst e; lia). reflexivity. }
  pose proof (st_low v E A HE1 _ _ S1) as L1. pose proof (st_high v E A HE2 _ _ S1) as L2.
  assert (Hp : (-300 < p < 18)%Z).
  { pose proof (dval_ge out p R3) as W1. pose proof (dval_lt out p R2) as W2. rewrite R4 in W1, W2.
    pose proof (q2pos (Z.of_N mb + 1)) as Pm. split.
    - apply q10lt. eapply Qle_lt_trans; [|exact W2].
      apply Qle_trans with (2 ^ (E - (x + 1)) * 2 ^ (Z.of_N mb + 1))%Q; [|apply Qmult_le_compat_r; [assumption|lra]].
      rewrite <- q2plus. apply Qle_trans with (2 ^ (-960))%Q; [vm_compute; discriminate|]. apply q2le. subst x. lia.
    - assert (p - 1 < 16)%Z; [|lia]. apply q10lt. eapply Qle_lt_trans; [exact W1|].
      apply Qlt_le_trans with (2 ^ (E + 1 - (x + 1)) * 2 ^ (Z.of_N mb + 1))%Q; [apply Qmult_lt_r; assumption|].
      rewrite <- q2plus. apply Qle_trans with (2 ^ 53)%Q; [apply q2le; subst x; lia|vm_compute; discriminate]. }
  assert (S2 : ST e (cut out p (b_trunc d1))).
  { apply (st_step v E A HE2 HA1 HA2 (x + 1) d1); [assumption|assumption|assumption|assumption|lia|lia]. }
  pose proof (cut_last out p (b_trunc d1) R2 R3) as Ld. set (d2 := cut out p (b_trunc d1)) in *. clearbody d2. clear out p R2 R3 R4 Eq Hp.
  assert (Ev : (0 <= v * 2 ^ (- e))%Q). { apply Qmult_le_0_compat; [|apply Qlt_le_weak, q2pos]. pose proof (q2pos E). lra. }
  destruct (floor_ex (2 * (v * 2 ^ (- e)))%Q ltac:(lra)) as (m & M1 & M2).
  set (exact := Qeq_bool (2 * (v * 2 ^ (- e)))%Q (iz m)).
  assert (Ex : exact = true <-> (2 * (v * 2 ^ (- e)) == iz m)%Q) by apply Qeq_bool_iff.
  rewrite (st_round d2 e m exact S2 Ld ltac:(subst e; lia) ltac:(subst e; lia) M1 M2 Ex). cbn [bind].
  set (r := if exact && (m mod 4 =? 1) then m / 2 else (m + 1) / 2).
  (* the criterion *)
  set (s := Z.to_N (bs - 1 + x)). assert (Hs : Z.of_N s = (bs - 1 + x)%Z) by (subst s x; lia).
  assert (Ke : (v * 2 ^ K (r_bin F) == 2 * (v * 2 ^ (- e)) * iz (2 ^ s))%Q).
  { unfold K. fold bs. change (mbits (r_bin F)) with mb. rewrite iz_2pow, Hs.
    setoid_replace (2 * (v * 2 ^ (- e)) * 2 ^ (bs - 1 + x))%Q with (v * (2 ^ 1 * 2 ^ (- e) * 2 ^ (bs - 1 + x)))%Q by (change (2 ^ 1)%Q with 2%Q; ring).
    rewrite <- !q2plus. replace (1 + - e + (bs - 1 + x))%Z with (bs + Z.of_N mb)%Z by (subst e; lia). reflexivity. }
  assert (Ps : (0 < iz (2 ^ s))%Q) by apply iz_pos, p2pos.
  assert (Cm : m < 4 * 2 ^ mb).
  { apply iz_lt. rewrite iz_mul, iz_2pow. change (iz 4) with (2 ^ 2)%Q. rewrite <- q2plus.
    eapply Qle_lt_trans; [exact M1|]. apply Qlt_le_trans with (2 ^ 1 * (2 ^ (E + 1) * 2 ^ (- e)))%Q.
    - change (2 ^ 1)%Q with 2%Q. apply Qmult_lt_l; [reflexivity|]. apply Qmult_lt_r; [apply q2pos|assumption].
    - rewrite <- !q2plus. apply q2le. subst e x. lia. }
  assert (Cm2 : s = 0 \/ 2 * 2 ^ mb <= m).
  { destruct (Z_lt_le_dec E (1 - bs)) as [C|C]; [left; subst s x; lia|right]. assert (Ex' : x = E) by (subst x; lia).
    assert (2 * 2 ^ mb < m + 1); [|lia]. apply iz_lt. eapply Qle_lt_trans; [|exact M2].
    rewrite iz_mul, iz_2pow. change (iz 2) with (2 ^ 1)%Q. rewrite <- q2plus.
    apply Qle_trans with (2 ^ 1 * (2 ^ E * 2 ^ (- e)))%Q; [rewrite <- !q2plus; apply q2le; subst e; lia|].
    change (2 ^ 1)%Q with 2%Q. apply Qmult_le_l; [reflexivity|]. apply Qmult_le_compat_r; [assumption|apply Qlt_le_weak, q2pos]. }
  assert (RC : rounds_to (r_bin F) v (N.min (s * 2 ^ mb + r) (infinity (r_bin F)))).
  { apply rounds_to2. apply round_criterion; [assumption| | | |exact Cm2|exact Cm].
    - rewrite Ke, iz_mul. apply Qmult_le_compat_r; [assumption|lra].
    - rewrite Ke, iz_mul. apply Qmult_lt_r; assumption.
    - rewrite Ex, Ke, iz_mul. split; intro H; [rewrite H; reflexivity|]. apply Qmult_inj_r in H; [assumption|lra]. }
  assert (Inf : infinity (r_bin F) = Z.to_N (2 * bs + 1) * 2 ^ mb).
  { unfold infinity. rewrite (u_e F U), (u_inf F U). reflexivity. }
  pose proof (p2pos mb) as Pm.
  assert (Rm : m / 2 <= r <= (m + 1) / 2) by apply half_range.
  pose proof (N.div_mod m 2 ltac:(lia)) as Dm. pose proof (N.mod_lt m 2 ltac:(lia)) as Dm'.
  pose proof (N.div_mod (m + 1) 2 ltac:(lia)) as Dm1. pose proof (N.mod_lt (m + 1) 2 ltac:(lia)) as Dm1'.
  assert (P2 : 2 ^ (mb + 1) = 2 * 2 ^ mb) by (rewrite N.add_1_r, N.pow_succ_r'; reflexivity).
  assert (fin : forall r' y, (0 <= y + bs)%Z -> (y + bs < 2 * bs + 1)%Z -> 2 ^ mb <= r' < 2 * 2 ^ mb \/ (r' < 2 ^ mb /\ y = (1 - bs)%Z) ->
    (forall b, b = Z.to_N (y + bs - 1) * 2 ^ mb + r' -> (1 <= y + bs)%Z -> rounds_to (r_bin F) v b) -> (1 <= y + bs)%Z ->
    exists fp, Ok {| bf := r' mod 2 ^ mb; be := if r' <? 2 ^ mb then (y + bs - 1)%Z else (y + bs)%Z |} = Ok fp /\ (0 <= be fp)%Z /\
      rounds_to (r_bin F) v (to_float (r_bin F) fp)).
  { intros r' y Y1 Y2 Y3 RR Y4. eexists. split; [reflexivity|]. cbn [be].
    assert (EB : (2 * bs + 1 < 2 ^ Z.of_N (ebits (r_bin F)))%Z).
    { pose proof (f_inf F (u_ok F U)) as G. rewrite (u_inf F U) in G. fold bs in G. lia. }
    split; [destruct (r' <? 2 ^ mb); lia|].
    rewrite to_float_add; [|apply N.mod_lt; change (mbits (r_bin F)) with mb; lia|destruct (r' <? 2 ^ mb); lia|destruct (r' <? 2 ^ mb); lia].
    change (mbits (r_bin F)) with mb. apply RR; [|assumption]. destruct Y3 as [Y3|[Y3 Y5]].
    - replace (r' <? 2 ^ mb) with false by (symmetry; apply N.ltb_ge; lia).
      replace (r' mod 2 ^ mb) with (r' - 2 ^ mb); [|apply N.mod_unique with 1; lia].
      replace (Z.to_N (y + bs)) with (Z.to_N (y + bs - 1) + 1) by lia. rewrite N.mul_add_distr_r. lia.
    - replace (r' <? 2 ^ mb) with true by (symmetry; apply N.ltb_lt; lia). rewrite N.mod_small by assumption. reflexivity. }
  destruct (2 ^ (mb + 1) <=? r) eqn:C2.
  - (* overflow of the mantissa *)
    apply N.leb_le in C2. rewrite P2 in C2.
    assert (Em : m = 4 * 2 ^ mb - 1).
    { clear - Cm C2 Rm Dm1 Dm1' Pm. set (P := 2 ^ mb) in *. clearbody P. lia. }
    assert (Er : r = 2 * 2 ^ mb).
    { clear - Cm C2 Rm Dm1 Dm1' Pm. set (P := 2 ^ mb) in *. clearbody P. lia. }
    pose proof (i_dig _ _ _ (s_inv _ _ _ _ _ S2)) as D3. pose proof (i_hd _ _ _ (s_inv _ _ _ _ _ S2)) as D4.
    destruct (right_shift_ok d2 1 D3 D4 ltac:(lia)) as (out & p & R1 & R2 & R3 & R4). change (- Z.of_N 1)%Z with (-1)%Z in R4.
    assert (Hp : (-300 < p < 18)%Z).
    { pose proof (dval_ge out p R3) as W1. pose proof (dval_lt out p R2) as W2. rewrite R4 in W1, W2.
      change (2 ^ (-1))%Q with (1 # 2)%Q in *.
      pose proof (st_low v E A HE1 _ _ S2) as L3. pose proof (st_high v E A HE2 _ _ S2) as L4. split.
      - apply q10lt. apply Qle_lt_trans with (2 ^ (-960) * (1 # 2))%Q; [vm_compute; discriminate|]. 
        assert (2 ^ (-960) <= 2 ^ (E - e))%Q by (apply q2le; subst e x; lia). lra.
      - assert (p - 1 < 17)%Z; [|lia]. apply q10lt.
        assert (2 ^ (E + 1 - e) <= 2 ^ 53)%Q by (apply q2le; subst e x; lia).
        assert (2 ^ 53 <= 10 ^ 17)%Q by (vm_compute; discriminate). pose proof (q10pos 17). lra. }
    rewrite R1 by lia. clear R1. cbn [bind].
    assert (S3 : ST (e + 1) (cut out p (b_trunc d2))).
    { apply (st_step v E A HE2 HA1 HA2 e d2); [assumption|assumption|assumption| |lia|lia].
      rewrite R4, (q2plus e). change (2 ^ (-1))%Q with (1 # 2)%Q. change (2 ^ 1)%Q with 2%Q. ring. }
    pose proof (cut_last out p (b_trunc d2) R2 R3) as Ld3. set (d3 := cut out p (b_trunc d2)) in *. clearbody d3.
    assert (Hh : (2 * (v * 2 ^ (- (e + 1))) == (1 # 2) * (2 * (v * 2 ^ (- e))))%Q).
    { replace (- (e + 1))%Z with (- e + -1)%Z by lia. rewrite q2plus. change (2 ^ (-1))%Q with (1 # 2)%Q. ring. }
    assert (Rd : round d3 = Ok (2 ^ mb)).
    { rewrite (st_round d3 (e + 1) (2 * 2 ^ mb - 1) false S3 Ld3 ltac:(subst e; lia) ltac:(subst e; lia)).
      - cbn [andb]. f_equal. symmetry. apply N.div_unique with 0; lia.
      - rewrite Hh. assert (Q1 : (2 * iz (2 * 2 ^ mb - 1) <= iz m)%Q) by (rewrite <- iz_even; apply iz_le; lia). lra.
      - rewrite Hh. assert (Q1 : (iz (m + 1) <= 2 * iz (2 * 2 ^ mb - 1 + 1))%Q) by (rewrite <- iz_even; apply iz_le; lia). lra.
      - split; [discriminate|]. intro H. exfalso. rewrite Hh in H.
        assert (Q1 : (2 * iz (2 * 2 ^ mb - 1) < iz m)%Q) by (rewrite <- iz_even; apply iz_lt; lia). lra. }
    rewrite Rd. cbn [bind]. replace (x + 1 - - bs)%Z with (x + 1 + bs)%Z by lia.
    assert (Es : Z.to_N (x + 1 + bs) * 2 ^ mb = s * 2 ^ mb + r).
    { rewrite Er. replace (Z.to_N (x + 1 + bs)) with (s + 2); [lia|]. subst x. lia. }
    destruct (2 * bs + 1 <=? x + 1 + bs)%Z eqn:C3.
    + apply Z.leb_le in C3. replace (2 * bs + 1)%Z with (r_inf F) by apply (u_inf F U). apply inf_ok; [assumption|].
      rewrite N.min_r in RC; [assumption|]. rewrite Inf, <- Es. apply N.mul_le_mono_r. lia.
    + apply Z.leb_gt in C3. apply fin; [subst x; lia|lia|left; lia| |subst x; lia].
      intros b Hb _. subst b. rewrite N.min_l in RC.
      * replace (Z.to_N (x + 1 + bs - 1) * 2 ^ mb + 2 ^ mb) with (s * 2 ^ mb + r); [assumption|]. rewrite <- Es.
        replace (Z.to_N (x + 1 + bs)) with (Z.to_N (x + 1 + bs - 1) + 1) by (subst x; lia). lia.
      * rewrite Inf, <- Es. apply N.mul_le_mono_r. lia.
  - apply N.leb_gt in C2. rewrite P2 in C2. replace (x - - bs)%Z with (x + bs)%Z by lia.
    apply fin; [subst x; lia|lia| | |subst x; lia].
    + destruct Cm2 as [Cs|Cm2].
      * destruct (N.lt_ge_cases r (2 ^ mb)); [right; split; [assumption|subst s x; lia]|left; lia].
      * left. split; [|assumption]. apply N.le_trans with (m / 2); [|lia]. apply N.div_le_lower_bound; lia.
    + intros b Hb _. subst b. replace (Z.to_N (x + bs - 1)) with s by (subst s; f_equal; lia). rewrite N.min_l in RC; [assumption|].
      rewrite Inf. apply N.le_trans with ((s + 2) * 2 ^ mb); [lia|]. apply N.mul_le_mono_r. lia.
Qed.
End End.
