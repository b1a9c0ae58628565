(** Facts about the text of floating point numbers *)
From Coq Require Import QArith Qabs Lqa Qpower.
From Coq Require Import Lia.
From Verif Require Import Base BaseFacts Utf8 JsonSpec FloatSpec FloatTextSpec Dec2flt NumText FloatFacts FloatFast FloatDigits FloatParse FloatTop FloatNear ItoaFacts.
Local Open Scope N_scope.

Definition U (B : binary) : Z := (bias B - 1 + Z.of_N (mbits B))%Z.

Lemma fv_zero B : (float_value B 0 == 0)%Q.
Proof.
  unfold float_value, units. destruct (0 <? 2 ^ mbits B) eqn:E; [change (inject_Z (Z.of_N 0)) with 0%Q; ring|].
  apply N.ltb_ge in E. pose proof (N.pow_nonzero 2 (mbits B)). lia.
Qed.
Lemma q10split k : (10 ^ k == iz (10 ^ Z.to_N k) / iz (10 ^ Z.to_N (- k)))%Q.
Proof.
  rewrite !iz_10pow. destruct (Z_le_gt_dec 0 k) as [H|H].
  - rewrite !Z2N.id by lia. replace (Z.to_N (- k)) with 0 by lia. change (10 ^ Z.of_N 0)%Q with 1%Q. field.
  - replace (Z.to_N k) with 0 by lia. rewrite Z2N.id by lia. change (10 ^ Z.of_N 0)%Q with 1%Q.
    assert (E : (10 ^ k * 10 ^ (- k) == 1)%Q) by (rewrite <- q10plus; replace (k + - k)%Z with 0%Z by lia; reflexivity).
    pose proof (q10pos (- k)) as P. rewrite <- E. field. lra.
Qed.
Lemma p10pos n : 0 < 10 ^ n.
Proof. apply N.neq_0_lt_0, N.pow_nonzero. discriminate. Qed.

Lemma rounds_back_ok B b m k : fmt_ok B -> rounds_back B b m k = true -> rounds_to B (iz m * 10 ^ k) b.
Proof.
  intros HB H. apply N.eqb_eq in H. subst b. eapply rounds_to_Qeq; [|apply rnd_ok; [assumption|apply p10pos]].
  rewrite iz_mul, (q10split k). unfold Qdiv. ring.
Qed.

Lemma least_U B : (least B == / iz (2 ^ Z.to_N (U B)))%Q \/ (U B < 0)%Z.
Proof.
  destruct (Z_lt_le_dec (U B) 0) as [H|H]; [now right|left]. rewrite iz_2pow, Z2N.id by assumption. unfold least.
  replace (1 - bias B - Z.of_N (mbits B))%Z with (- U B)%Z by (unfold U; lia).
  assert (E : (2 ^ U B * 2 ^ (- U B) == 1)%Q) by (rewrite <- q2plus; replace (U B + - U B)%Z with 0%Z by lia; reflexivity).
  pose proof (q2pos (U B)) as P. rewrite <- (Qmult_1_l (/ _)), <- E. field. lra.
Qed.

Lemma shortest_ok B b : fmt_ok B -> (0 <= U B)%Z -> 0 < b -> b < infinity B -> forall fuel k,
  (k - Z.of_nat fuel = - U B)%Z ->
  let '(m, k') := shortest fuel B b k in
  rounds_to B (iz m * 10 ^ k') b /\ (- U B <= k' <= k)%Z /\ m <= units B b * 10 ^ Z.to_N (- k') + 1.
Proof.
  intros HB HU H0 Hi. induction fuel as [|f IH]; intros k Hk; cbn [shortest];
    fold (U B); set (num := units B b * 10 ^ Z.to_N (- k)); set (den := 2 ^ Z.to_N (U B) * 10 ^ Z.to_N k);
    assert (Dp : 0 < den) by (unfold den; apply N.mul_pos_pos; [apply N.neq_0_lt_0, N.pow_nonzero; discriminate|apply p10pos]);
    assert (Ml : num / den <= num) by (apply N.div_le_upper_bound; nia).
  - assert (Ek : k = (- U B)%Z) by lia. split; [|split; [lia|fold num; lia]].
    eapply rounds_to_Qeq; [|apply (rounds_self B b HB); lia].
    assert (En : num = units B b * 5 ^ Z.to_N (U B) * den).
    { unfold num, den. rewrite Ek, Z.opp_involutive. replace (Z.to_N (- U B)) with 0 by lia. change (10 ^ 0) with 1.
      change 10 with (5 * 2). rewrite N.pow_mul_l. lia. }
    rewrite En, N.div_mul by lia. rewrite iz_mul. rewrite Ek.
    unfold float_value. fold (iz (units B b)). destruct (least_U B) as [L|L]; [|lia]. rewrite L.
    rewrite (q10split (- U B)). replace (Z.to_N (- U B)) with 0 by lia. rewrite Z.opp_involutive. change 10 with (5 * 2).
    change (iz ((5 * 2) ^ 0)) with 1%Q. rewrite N.pow_mul_l, iz_mul.
    assert (0 < iz (5 ^ Z.to_N (U B)))%Q by (apply iz_pos, N.neq_0_lt_0, N.pow_nonzero; discriminate).
    assert (0 < iz (2 ^ Z.to_N (U B)))%Q by (apply iz_pos, N.neq_0_lt_0, N.pow_nonzero; discriminate).
    field. split; lra.
  - assert (G : forall m1 m2, (m1, m2) = (num / den, num / den + 1) \/ (m1, m2) = (num / den + 1, num / den) ->
      let '(m, k') := if rounds_back B b m1 k then (m1, k) else if rounds_back B b m2 k then (m2, k) else shortest f B b (k - 1) in
      rounds_to B (iz m * 10 ^ k') b /\ (- U B <= k' <= k)%Z /\ m <= units B b * 10 ^ Z.to_N (- k') + 1).
    { intros m1 m2 E. destruct (rounds_back B b m1 k) eqn:R1.
      - split; [apply rounds_back_ok; assumption|]. split; [lia|]. fold num. destruct E as [E|E]; injection E as -> ->; lia.
      - destruct (rounds_back B b m2 k) eqn:R2.
        + split; [apply rounds_back_ok; assumption|]. split; [lia|]. fold num. destruct E as [E|E]; injection E as -> ->; lia.
        + specialize (IH (k - 1)%Z ltac:(lia)). destruct (shortest f B b (k - 1)) as [m k'].
          destruct IH as (A1 & A2 & A3). split; [assumption|]. split; [lia|assumption]. }
    destruct (2 * (num mod den) <? den); apply G; auto.
Qed.

(** ** The layout *)

Lemma value_app a b : value (a ++ b) = value a * 10 ^ lenN b + value b.
Proof. rewrite !value_nm. apply nm_app. Qed.
Lemma value_zeros n : value (repeat 48 n) = 0.
Proof. rewrite value_nm. apply nm_zeros. Qed.
Lemma digit_zeros n : Forall digit (repeat 48 n).
Proof. apply Forall_forall. intros x H. apply repeat_spec in H. subst x. unfold digit. lia. Qed.
Lemma whole_intro ds : ds <> [] -> Forall digit ds -> hd 0 ds <> 48 -> whole ds.
Proof. intros H1 H2 H3. split; [assumption|]. split; [assumption|]. split; [contradiction|reflexivity]. Qed.

Lemma expo_itoa z : expo false z (101 :: itoa_z z).
Proof.
  right. destruct (itoa_z_text z) as (neg & n & s & E & (I1 & I2 & _ & I4) & Ez). exists 101, (sign neg), s.
  split; [now left|]. split; [destruct neg; auto|]. split; [assumption|]. split; [intro; contradiction|].
  split; [now rewrite E|]. rewrite I4, Ez. destruct neg; reflexivity.
Qed.

Lemma layout_ok hi lo m k : 0 < m -> (1 <= hi)%Z -> (Z.abs (Z.of_nat (length (itoa m)) + k) < 600000)%Z ->
  exists ds fs e sf se, layout hi lo m k = ds ++ sf ++ se /\ whole ds /\ frac false fs sf /\ expo false e se /\
    sf ++ se <> [] /\ moderate ds fs e /\ (decimal_value ds fs e == iz m * 10 ^ k)%Q.
Proof.
  intros Hm Hhi Hk. destruct (itoa_text m) as (I1 & I2 & I3 & I4). unfold layout. set (ds := itoa m) in *.
  set (kk := (Z.of_nat (length ds) + k)%Z) in *.
  assert (Hh : hd 0 ds <> 48). { intro C. rewrite (I3 C) in I4. vm_compute in I4. lia. }
  assert (Hl : (0 < length ds)%nat) by (clearbody ds; destruct ds; [congruence|cbn; lia]).
  assert (Frac0 : forall fs, Forall digit fs -> fs <> [] -> frac false fs (46 :: fs)).
  { intros fs H1 H2. right. split; [assumption|]. split; [intro; contradiction|reflexivity]. }
  assert (Mod0 : forall a b, moderate a b 0) by (intros; left; reflexivity).
  destruct ((0 <=? k) && (kk <=? hi))%Z eqn:C1; [|destruct ((0 <? kk) && (kk <=? hi))%Z eqn:C2; [|destruct ((lo <? kk) && (kk <=? 0))%Z eqn:C3]].
  - apply andb_true_iff in C1. destruct C1 as [C1 _]. apply Z.leb_le in C1.
    exists (ds ++ zeros k), [48], 0%Z, [46; 48], []. split; [rewrite <- app_assoc; reflexivity|].
    split; [apply whole_intro; [intro C; apply app_eq_nil in C; destruct C; contradiction|apply Forall_app; split; [assumption|apply digit_zeros]|clearbody ds; destruct ds; [congruence|exact Hh]]|].
    split; [apply (Frac0 [48]); [repeat constructor; unfold digit; lia|discriminate]|]. split; [left; auto|]. split; [discriminate|]. split; [apply Mod0|].
    unfold decimal_value. rewrite !value_app, I4. unfold zeros. rewrite value_zeros. change (value [48]) with 0. rewrite !N.add_0_r.
    unfold lenN. rewrite repeat_length. cbn [length]. fold (iz (m * 10 ^ N.of_nat (Z.to_nat k) * 10 ^ N.of_nat 1)).
    rewrite !iz_mul, !iz_10pow. change (0 - Z.of_nat 1)%Z with (-1)%Z. replace (Z.of_N (N.of_nat (Z.to_nat k))) with k by lia.
    change (Z.of_N (N.of_nat 1)) with 1%Z. rewrite <- !Qmult_assoc, <- !q10plus. replace (k + (1 + -1))%Z with k by lia. reflexivity.
  - apply andb_true_iff in C2. destruct C2 as [C2 C2']. apply Z.ltb_lt in C2. apply Z.leb_le in C2'.
    assert (Hk0 : (k < 0)%Z). { apply Z.leb_le in C2'. rewrite C2', andb_true_r in C1. apply Z.leb_gt in C1. exact C1. }
    assert (Sp : firstn (Z.to_nat kk) ds ++ skipn (Z.to_nat kk) ds = ds) by apply firstn_skipn.
    assert (L1 : length (firstn (Z.to_nat kk) ds) = Z.to_nat kk) by (apply firstn_length_le; lia).
    assert (L2 : length (skipn (Z.to_nat kk) ds) = (length ds - Z.to_nat kk)%nat) by apply skipn_length.
    set (a := firstn (Z.to_nat kk) ds) in *. set (b := skipn (Z.to_nat kk) ds) in *.
    rewrite <- Sp in I2. apply Forall_app in I2. destruct I2 as [Da Db].
    exists a, b, 0%Z, (46 :: b), []. split; [now rewrite app_nil_r|].
    split; [apply whole_intro; [intro C; rewrite C in L1; cbn in L1; lia|assumption|rewrite <- Sp in Hh; clearbody a; destruct a; [cbn in L1; lia|exact Hh]]|].
    split; [apply (Frac0 b); [assumption|intro C; rewrite C in L2; cbn [length] in L2; lia]|]. split; [left; auto|]. split; [discriminate|]. split; [apply Mod0|].
    unfold decimal_value. rewrite Sp, I4, L2. replace (0 - Z.of_nat (length ds - Z.to_nat kk))%Z with k by lia. reflexivity.
  - apply andb_true_iff in C3. destruct C3 as [_ C3]. apply Z.leb_le in C3.
    exists [48], (zeros (- kk) ++ ds), 0%Z, (46 :: zeros (- kk) ++ ds), []. split; [now rewrite app_nil_r|].
    split; [split; [discriminate|]; split; [repeat constructor; unfold digit; lia|]; split; auto|].
    split; [apply Frac0; [apply Forall_app; split; [apply digit_zeros|assumption]|intro C; apply app_eq_nil in C; destruct C; contradiction]|].
    split; [left; auto|]. split; [discriminate|]. split; [apply Mod0|].
    unfold decimal_value, zeros. change (value ([48] ++ repeat 48 (Z.to_nat (- kk)) ++ ds)) with (value (repeat 48 (S (Z.to_nat (- kk))) ++ ds)).
    rewrite value_app, value_zeros, I4, N.mul_0_l, N.add_0_l. rewrite app_length, repeat_length.
    replace (0 - Z.of_nat (Z.to_nat (- kk) + length ds))%Z with k by lia. reflexivity.
  - assert (Md : forall a b, moderate a b (kk - 1)) by (intros; left; lia).
    destruct ds as [|d [|d2 r]] eqn:Ed; [congruence| |].
    + exists [d], [], (kk - 1)%Z, [], (101 :: itoa_z (kk - 1)). split; [reflexivity|].
      split; [apply whole_intro; auto|]. split; [left; auto|]. split; [apply expo_itoa|]. split; [discriminate|]. split; [apply Md|].
      unfold decimal_value. rewrite app_nil_r, I4. cbn [length] in *. replace (kk - 1 - Z.of_nat 0)%Z with k by lia. reflexivity.
    + pose proof (Forall_inv I2) as Hd. pose proof (Forall_inv_tail I2) as Hr.
      exists [d], (d2 :: r), (kk - 1)%Z, (46 :: d2 :: r), (101 :: itoa_z (kk - 1)). split; [reflexivity|].
      split; [apply whole_intro; [discriminate|repeat constructor; apply Hd|exact Hh]|].
      split; [apply Frac0; [assumption|discriminate]|]. split; [apply expo_itoa|]. split; [discriminate|]. split; [apply Md|].
      unfold decimal_value. change ([d] ++ d2 :: r) with (d :: d2 :: r). rewrite I4.
      unfold kk. cbn [length]. replace (Z.of_nat (S (S (length r))) + k - 1 - Z.of_nat (S (length r)))%Z with k by lia. reflexivity.
Qed.

(** ** The number *)

Lemma itoa_length m n : 0 < m -> m < 10 ^ n -> lenN (itoa m) <= n.
Proof.
  intros Hm Hn. destruct (itoa_text m) as (I1 & I2 & I3 & I4). 
  assert (G : 10 ^ lenN (itoa m) <= 10 * nm (itoa m)).
  { apply nm_ge; [apply digit_digs; assumption| |assumption]. destruct (itoa m) as [|d r]; [congruence|].
    cbn [skip_zeros]. destruct (d =? 48) eqn:E; [|reflexivity]. apply N.eqb_eq in E. subst d. rewrite (I3 eq_refl) in I4. vm_compute in I4. lia. }
  rewrite <- value_nm, I4 in G. destruct (N.le_gt_cases (lenN (itoa m)) n) as [C|C]; [assumption|exfalso].
  assert (L : 10 ^ (n + 1) <= 10 ^ lenN (itoa m)) by (apply N.pow_le_mono_r; lia). rewrite N.pow_add_r in L. change (10 ^ 1) with 10 in L. lia.
Qed.

Definition big (F : raw_float) : Prop := units (r_bin F) (infinity (r_bin F)) < 10 ^ 700 /\ (0 <= U (r_bin F) <= 1100)%Z /\ (0 <= r_large F <= 400)%Z.
Lemma std_big F : std F -> big F.
Proof.
  intros [-> | ->]; (split; [apply N.ltb_lt; vm_compute; reflexivity|]); (split; split; vm_compute; discriminate).
Qed.

Theorem float_text_ok F hi lo x : std F -> (1 <= hi)%Z -> x < 2 ^ (1 + ebits (r_bin F) + mbits (r_bin F)) -> finite_float (r_bin F) x = true ->
  exists neg ds fs e sf se b, float_text F hi lo x = sign neg ++ ds ++ sf ++ se /\ whole ds /\ frac false fs sf /\ expo false e se /\
    sf ++ se <> [] /\ moderate ds fs e /\ rounds_to (r_bin F) (decimal_value ds fs e) b /\ x = signed (r_bin F) neg b.
Proof.
  intros HF Hhi Hx Hfin. pose proof (std_ok F HF) as HB. unfold finite_float in Hfin. apply N.ltb_lt in Hfin. unfold float_text.
  set (B := r_bin F) in *. set (P := 2 ^ (ebits B + mbits B)) in *. set (b := x mod P) in *.
  assert (Pp : 0 < P) by (apply N.neq_0_lt_0, N.pow_nonzero; discriminate).
  assert (E2 : 2 ^ (1 + ebits B + mbits B) = 2 * P). { unfold P. rewrite <- N.add_assoc, (N.pow_add_r 2 1). reflexivity. }
  assert (Ex : x = signed B (P <=? x) b).
  { unfold signed. fold P. unfold b. destruct (P <=? x) eqn:C.
    - apply N.leb_le in C. rewrite (N.mod_eq x P) by lia. replace (x / P) with 1; [lia|]. apply (N.div_unique x P 1 (x - P)); lia.
    - apply N.leb_gt in C. rewrite N.mod_small; auto. }
  replace (infinity B <? b) with false by (symmetry; apply N.ltb_ge; lia).
  replace (b =? infinity B) with false by (symmetry; apply N.eqb_neq; lia).
  fold (sign (P <=? x)). destruct (b =? 0) eqn:Ez.
  - apply N.eqb_eq in Ez. exists (P <=? x), [48], [48], 0%Z, [46; 48], [], 0. split; [reflexivity|].
    split; [split; [discriminate|]; split; [repeat constructor; unfold digit; lia|]; split; auto|].
    split; [right; split; [repeat constructor; unfold digit; lia|]; split; [discriminate|reflexivity]|]. split; [left; auto|]. split; [discriminate|].
    split; [left; reflexivity|]. split; [|rewrite <- Ez; exact Ex].
    eapply rounds_to_Qeq; [|apply (rounds_self B 0 HB); lia]. rewrite fv_zero. unfold decimal_value. change (value ([48] ++ [48])) with 0.
    change (inject_Z (Z.of_N 0)) with 0%Q. ring.
  - apply N.eqb_neq in Ez. destruct (std_big F HF) as (G1 & G2 & G3). unfold ryu_digits. fold B in G1, G2 |- *.
    assert (H0 : 0 < b) by lia.
    change (bias B - 1 + Z.of_N (meb F))%Z with (U B).
    pose proof (shortest_ok B b HB (proj1 G2) H0 Hfin (Z.to_nat (r_large F + U B)) (r_large F) ltac:(lia)) as S.
    destruct (shortest (Z.to_nat (r_large F + U B)) B b (r_large F)) as [m k]. destruct S as (S1 & S2 & S3).
    assert (Hm : 0 < m).
    { destruct (N.eq_dec m 0) as [->|]; [|lia]. exfalso.
      assert (R0 : rounds_to B (iz 0 * 10 ^ k) 0). { eapply rounds_to_Qeq; [|apply (rounds_self B 0 HB); lia]. rewrite fv_zero. change (iz 0) with 0%Q. ring. }
      pose proof (rounds_to_unique B _ _ _ HB S1 R0). lia. }
    assert (Lm : lenN (itoa m) <= 1900).
    { apply itoa_length; [assumption|]. pose proof (units_mono B b (infinity B) HB Hfin) as M.
      assert (A : 10 ^ Z.to_N (- k) <= 10 ^ 1100) by (apply N.pow_le_mono_r; lia).
      assert (A2 : 10 ^ 1900 = 10 ^ 700 * 10 ^ 1100 * 10 ^ 100) by (rewrite <- !N.pow_add_r; reflexivity).
      assert (A3 : 1 < 10 ^ 100) by reflexivity. pose proof (p10pos 700). pose proof (p10pos 1100).
      set (q := 10 ^ Z.to_N (- k)) in *. set (t7 := 10 ^ 700) in *. set (t11 := 10 ^ 1100) in *. set (t1 := 10 ^ 100) in *. rewrite A2.
      set (u := units B b) in *. clearbody q t7 t11 t1 u. assert (u * q <= t7 * t11) by (apply N.mul_le_mono; lia). nia. }
    destruct (layout_ok hi lo m k Hm Hhi) as (ds & fs & e & sf & se & E1 & E3 & E4 & E5 & E6 & E7 & E8).
    { unfold lenN in Lm. lia. }
    exists (P <=? x), ds, fs, e, sf, se, b. rewrite E1. split; [reflexivity|]. do 5 (split; [assumption|]).
    split; [|exact Ex]. eapply rounds_to_Qeq; [symmetry; exact E8|exact S1].
Qed.
