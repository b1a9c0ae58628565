(** Rounding is to the nearest number, and a text that is close enough to a number is rounded to it. *)
From Coq Require Import QArith Qabs Qround Lqa Qpower.
From Coq Require Import Lia.
From Verif Require Import Base BaseFacts FloatSpec FloatFacts Dec2flt FloatFast.
Local Open Scope N_scope.

Lemma least_pos B : (0 < least B)%Q.
Proof. unfold least. apply q2pos. Qed.
Lemma fv_le B a b : fmt_ok B -> a <= b -> (float_value B a <= float_value B b)%Q.
Proof.
  intros H L. unfold float_value. apply Qmult_le_compat_r; [|apply Qlt_le_weak, least_pos].
  change (iz (units B a) <= iz (units B b))%Q. apply iz_le, units_mono_le; assumption.
Qed.

Lemma half_lt a b : (a < b -> a < (a + b) / 2 /\ (a + b) / 2 < b)%Q.
Proof. intro H. assert (E : ((a + b) / 2 == (a + b) * (1 # 2))%Q) by (field). rewrite E. split; lra. Qed.
Lemma half_eq a b : ((a + b) / 2 == (a + b) * (1 # 2))%Q.
Proof. field. Qed.

Theorem nearest B x b c : fmt_ok B -> rounds_to B x b -> c <= infinity B -> (Qabs (x - float_value B b) <= Qabs (x - float_value B c))%Q.
Proof.
  intros HB (H1 & H2 & H3) Hc. destruct (N.lt_trichotomy c b) as [L|[->|L]]; [|apply Qle_refl|].
  - assert (M : (midpoint B (b - 1) <= x)%Q) by (destruct (H2 ltac:(lia)) as [M|[M _]]; [apply Qlt_le_weak, M|rewrite M; apply Qle_refl]).
    unfold midpoint in M. rewrite half_eq in M. replace (b - 1 + 1) with b in M by lia.
    pose proof (fv_le B c (b - 1) HB ltac:(lia)) as A1. pose proof (fv_le B (b - 1) b HB ltac:(lia)) as A2.
    apply Qabs_case; intro; apply Qabs_case; intro; lra.
  - assert (M : (x <= midpoint B b)%Q) by (destruct (H3 ltac:(lia)) as [M|[M _]]; [apply Qlt_le_weak, M|rewrite M; apply Qle_refl]).
    unfold midpoint in M. rewrite half_eq in M.
    pose proof (fv_le B (b + 1) c HB ltac:(lia)) as A1. pose proof (fv_le B b (b + 1) HB ltac:(lia)) as A2.
    apply Qabs_case; intro; apply Qabs_case; intro; lra.
Qed.

(** Of two nearest numbers the even one *)
Theorem nearest_tie B x b c : fmt_ok B -> rounds_to B x b -> c <= infinity B -> c <> b ->
  (Qabs (x - float_value B b) == Qabs (x - float_value B c))%Q -> N.even b = true.
Proof.
  intros HB (H1 & H2 & H3) Hc Hn E. destruct (N.lt_trichotomy c b) as [L|[->|L]]; [|congruence|].
  - destruct (H2 ltac:(lia)) as [M|[M G]]; [exfalso|exact G].
    unfold midpoint in M. rewrite half_eq in M. replace (b - 1 + 1) with b in M by lia.
    pose proof (fv_le B c (b - 1) HB ltac:(lia)) as A1. 
    assert (A2 : (float_value B c < float_value B b)%Q).
    { unfold float_value. apply Qmult_lt_compat_r; [apply least_pos|]. change (iz (units B c) < iz (units B b))%Q. apply iz_lt, units_mono; assumption. }
    revert E. apply Qabs_case; intro; apply Qabs_case; intros; lra.
  - destruct (H3 ltac:(lia)) as [M|[M G]]; [exfalso|exact G].
    unfold midpoint in M. rewrite half_eq in M.
    pose proof (fv_le B (b + 1) c HB ltac:(lia)) as A1.
    assert (A2 : (float_value B b < float_value B c)%Q).
    { unfold float_value. apply Qmult_lt_compat_r; [apply least_pos|]. change (iz (units B b) < iz (units B c))%Q. apply iz_lt, units_mono; assumption. }
    revert E. apply Qabs_case; intro; apply Qabs_case; intros; lra.
Qed.

(** There is always a nearest number. *)
Theorem rounds_total B x : fmt_ok B -> (0 <= x)%Q -> exists b, rounds_to B x b.
Proof.
  intros HB Hx. destruct x as [n d]. exists (rnd B (Z.to_N n) (N.pos d)).
  eapply rounds_to_Qeq; [|apply rnd_ok; [assumption|reflexivity]].
  unfold Qle in Hx. cbn [Qnum Qden] in Hx. unfold iz. rewrite Z2N.id by lia. change (Z.of_N (N.pos d)) with (Z.pos d).
  rewrite (Qmake_Qdiv n d). reflexivity.
Qed.

(** ** The gaps between numbers *)
Lemma gap_up B b : fmt_ok B -> units B b <= 2 ^ (mbits B + 1) * (units B (b + 1) - units B b).
Proof.
  intros HB. destruct (units_form B b HB) as (s & r & -> & H1 & H2).
  rewrite <- N.add_assoc. rewrite (units_enc B s r), (units_enc B s (r + 1)) by (try assumption; lia).
  rewrite N.pow_add_r. change (2 ^ 1) with 2. pose proof (p2pos s). nia.
Qed.
Lemma gap_down B b : fmt_ok B -> units B (b + 1) <= 2 ^ (mbits B + 1) * (units B (b + 1) - units B b).
Proof.
  intros HB. destruct (units_form B b HB) as (s & r & -> & H1 & H2).
  rewrite <- N.add_assoc. rewrite (units_enc B s r), (units_enc B s (r + 1)) by (try assumption; lia).
  rewrite N.pow_add_r. change (2 ^ 1) with 2. pose proof (p2pos s). nia.
Qed.
Lemma gap_Q B a b P : fmt_ok B -> a < b -> units B a <= P * (units B b - units B a) -> (float_value B a <= iz P * (float_value B b - float_value B a))%Q.
Proof.
  intros HB L H. pose proof (units_mono B a b HB L) as M. unfold float_value. fold (iz (units B a)) (iz (units B b)).
  apply iz_le in H. rewrite iz_mul in H. pose proof (least_pos B) as LP.
  assert (E : (iz (units B b - units B a) == iz (units B b) - iz (units B a))%Q).
  { assert (E : (iz (units B b - units B a + units B a) == iz (units B b))%Q) by (rewrite N.sub_add by lia; reflexivity). rewrite iz_add in E. lra. }
  rewrite E in H. nra.
Qed.
Lemma gap_Q' B a b P : fmt_ok B -> a < b -> units B b <= P * (units B b - units B a) -> (float_value B b <= iz P * (float_value B b - float_value B a))%Q.
Proof.
  intros HB L H. pose proof (units_mono B a b HB L) as M. unfold float_value. fold (iz (units B a)) (iz (units B b)).
  apply iz_le in H. rewrite iz_mul in H. pose proof (least_pos B) as LP.
  assert (E : (iz (units B b - units B a) == iz (units B b) - iz (units B a))%Q).
  { assert (E : (iz (units B b - units B a + units B a) == iz (units B b))%Q) by (rewrite N.sub_add by lia; reflexivity). rewrite iz_add in E. lra. }
  rewrite E in H. nra.
Qed.

(** A number within a relative distance of [1 / (2 * D)], [2 ^ (mbits + 1) < D] *)
Theorem close_rounds B b q D :
  fmt_ok B -> 0 < b -> b < infinity B -> 2 ^ (mbits B + 1) < D -> (Qabs (q - float_value B b) * (2 * iz D) <= float_value B b)%Q -> rounds_to B q b.
Proof.
  intros HB Hb Hi HD H.
  assert (Vp : (0 < float_value B b)%Q).
  { unfold float_value. pose proof (least_pos B). pose proof (units_mono B 0 b HB Hb) as M.
    assert (0 < iz (units B b))%Q by (apply iz_pos; lia). fold (iz (units B b)). nra. }
  pose proof (gap_Q B b (b + 1) _ HB ltac:(lia) (gap_up B b HB)) as G1.
  pose proof (gap_down B (b - 1) HB) as G2. replace (b - 1 + 1) with b in G2 by lia.
  apply (gap_Q' B (b - 1) b _ HB ltac:(lia)) in G2.
  apply iz_lt in HD. set (v := float_value B b) in *. set (P := iz (2 ^ (mbits B + 1))) in *.
  assert (PP : (0 < P)%Q) by (apply iz_pos, p2pos). set (d := iz D) in *.
  set (t := Qabs (q - v)) in *.
  assert (T : (- t <= q - v <= t)%Q) by (apply Qabs_Qle_condition; apply Qle_refl).
  assert (T0 : (0 <= t)%Q) by apply Qabs_nonneg.
  assert (K : forall g, (v <= P * g)%Q -> (2 * t < g)%Q).
  { intros g Hg. apply Qnot_le_lt. intro C. 
    assert (A1 : (P * g <= P * (2 * t))%Q) by (apply Qmult_le_l; assumption).
    assert (A2 : (0 < t)%Q). { apply Qnot_le_lt. intro C2. assert (E0 : (t == 0)%Q) by lra. rewrite E0 in A1. lra. }
    assert (A3 : (P * (2 * t) < d * (2 * t))%Q) by (apply Qmult_lt_r; [lra|assumption]). lra. }
  pose proof (K _ G1) as K1. pose proof (K _ G2) as K2.
  split; [lia|]. split; intros _; left; unfold midpoint; rewrite half_eq; [replace (b - 1 + 1) with b by lia|]; fold v; clearbody t v P d; lra.
Qed.

Lemma fv_lt B a b : fmt_ok B -> a < b -> (float_value B a < float_value B b)%Q.
Proof.
  intros H L. unfold float_value. apply Qmult_lt_compat_r; [apply least_pos|]. change (iz (units B a) < iz (units B b))%Q.
  apply iz_lt, units_mono; assumption.
Qed.

(** [n] significant digits *)
Theorem digits_round B b q n k : fmt_ok B -> 0 < b -> b < infinity B -> 2 ^ (mbits B + 1) <? 10 ^ (n - 1) = true ->
  (10 ^ (k + Z.of_N n - 1) <= float_value B b)%Q -> (Qabs (q - float_value B b) <= 10 ^ k / 2)%Q -> rounds_to B q b.
Proof.
  intros HB H0 H1 HD Hk Hq. apply N.ltb_lt in HD. apply (close_rounds B b q (10 ^ (n - 1)) HB H0 H1 HD).
  assert (Hn : 0 < n). { destruct (N.eq_dec n 0) as [->|]; [|lia]. change (10 ^ (0 - 1)) with 1 in HD. pose proof (p2pos (mbits B + 1)). lia. }
  rewrite iz_10pow. eapply Qle_trans; [|exact Hk]. replace (k + Z.of_N n - 1)%Z with (k + Z.of_N (n - 1))%Z by lia. rewrite q10plus.
  assert (E : (10 ^ k / 2 == 10 ^ k * (1 # 2))%Q) by field. rewrite E in Hq. pose proof (q10pos (Z.of_N (n - 1))) as P.
  set (t := Qabs (q - float_value B b)) in *. set (a := (10 ^ k)%Q) in *. set (c := (10 ^ Z.of_N (n - 1))%Q) in *. clearbody t a c. nra.
Qed.

Theorem rounds_mono B x y b c : fmt_ok B -> (x <= y)%Q -> rounds_to B x b -> rounds_to B y c -> b <= c.
Proof.
  intros HB L (H1 & H2 & _) (G1 & _ & G3). destruct (N.le_gt_cases b c) as [C|C]; [assumption|exfalso].
  assert (M1 : (midpoint B (b - 1) <= x)%Q /\ ((midpoint B (b - 1) == x)%Q -> N.even b = true)).
  { destruct (H2 ltac:(lia)) as [M|[M E]]; split; intros; [apply Qlt_le_weak, M|lra|rewrite M; apply Qle_refl|exact E]. }
  assert (M2 : (y <= midpoint B c)%Q /\ ((midpoint B c == y)%Q -> N.even c = true)).
  { destruct (G3 ltac:(lia)) as [M|[M E]]; split; intros; [apply Qlt_le_weak, M|lra|rewrite M; apply Qle_refl|exact E]. }
  destruct M1 as [M1 M1'], M2 as [M2 M2']. unfold midpoint in *. rewrite half_eq in M1, M2.
  destruct (N.eq_dec c (b - 1)) as [->|Nc].
  - assert (E1 : N.even b = true) by (apply M1'; rewrite half_eq; lra).
    assert (E2 : N.even (b - 1) = true) by (apply M2'; rewrite half_eq; lra).
    rewrite N.even_sub in E2 by lia. rewrite E1 in E2. discriminate.
  - pose proof (fv_le B c (b - 2) HB ltac:(lia)). pose proof (fv_le B (c + 1) (b - 1) HB ltac:(lia)).
    pose proof (fv_lt B (b - 2) (b - 1) HB ltac:(lia)). pose proof (fv_lt B (b - 1) (b - 1 + 1) HB ltac:(lia)). lra.
Qed.
