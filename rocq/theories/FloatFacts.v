(** Facts about rounding to nearest: [rounds_to] determines a number, and how to show that it holds. *)
From Verif Require Import Base BaseFacts FloatSpec Dec2flt.
From Coq Require Import QArith Lqa Qpower.
From Coq Require Import Lia.
Local Open Scope N_scope.

Definition fmt_ok (B : binary) : Prop := 1 <= mbits B /\ 2 <= ebits B.
Lemma fmt32 : fmt_ok binary32. Proof. split; cbn; lia. Qed.
Lemma fmt64 : fmt_ok binary64. Proof. split; cbn; lia. Qed.

(** Two units: [x * 2 ^ K B] is twice the number of units of [x]. *)
Definition K (B : binary) : Z := (bias B + Z.of_N (mbits B))%Z.
Definition mid2 (B : binary) (b : N) : N := units B b + units B (b + 1).
Definition iz (n : N) : Q := inject_Z (Z.of_N n).

Lemma q2pos (e : Z) : (0 < 2 ^ e)%Q.
Proof. apply Qpower_0_lt. reflexivity. Qed.
Lemma q2plus (a b : Z) : (2 ^ (a + b) == 2 ^ a * 2 ^ b)%Q.
Proof. apply Qpower_plus. discriminate. Qed.
Lemma q10pos (e : Z) : (0 < 10 ^ e)%Q.
Proof. apply Qpower_0_lt. reflexivity. Qed.
Lemma q10plus (a b : Z) : (10 ^ (a + b) == 10 ^ a * 10 ^ b)%Q.
Proof. apply Qpower_plus. discriminate. Qed.

Lemma iz_le a b : a <= b <-> (iz a <= iz b)%Q.
Proof. unfold iz. rewrite <- Zle_Qle. lia. Qed.
Lemma iz_lt a b : a < b <-> (iz a < iz b)%Q.
Proof. unfold iz. rewrite <- Zlt_Qlt. lia. Qed.
Lemma iz_add a b : (iz (a + b) == iz a + iz b)%Q.
Proof. unfold iz. rewrite N2Z.inj_add, inject_Z_plus. reflexivity. Qed.
Lemma iz_mul a b : (iz (a * b) == iz a * iz b)%Q.
Proof. unfold iz. rewrite N2Z.inj_mul, inject_Z_mult. reflexivity. Qed.
Lemma iz_pow a e : (iz (a ^ e) == iz a ^ Z.of_N e)%Q.
Proof. unfold iz. rewrite N2Z.inj_pow. apply Zpower_Qpower. lia. Qed.
Lemma iz_2pow e : (iz (2 ^ e) == 2 ^ Z.of_N e)%Q.
Proof. apply iz_pow. Qed.
Lemma iz_10pow e : (iz (10 ^ e) == 10 ^ Z.of_N e)%Q.
Proof. apply iz_pow. Qed.
Lemma iz_nonneg a : (0 <= iz a)%Q.
Proof. change 0%Q with (iz 0). apply iz_le. lia. Qed.
Lemma iz_pos a : 0 < a -> (0 < iz a)%Q.
Proof. intro. change 0%Q with (iz 0). apply iz_lt. assumption. Qed.
Lemma iz_eq a b : (iz a == iz b)%Q -> a = b.
Proof. unfold iz. intro H. apply N2Z.inj. apply (proj1 (inject_Z_injective _ _)). exact H. Qed.

Lemma least_K B : (least B * 2 ^ K B == 2)%Q.
Proof.
  unfold least, K. rewrite <- q2plus.
  replace (1 - bias B - Z.of_N (mbits B) + (bias B + Z.of_N (mbits B)))%Z with 1%Z by lia. reflexivity.
Qed.

Lemma mid_K B b : (midpoint B b * 2 ^ K B == iz (mid2 B b))%Q.
Proof.
  unfold midpoint, float_value, mid2. rewrite iz_add. fold (iz (units B b)) (iz (units B (b + 1))).
  setoid_replace ((iz (units B b) * least B + iz (units B (b + 1)) * least B) / 2 * 2 ^ K B)%Q
    with ((iz (units B b) + iz (units B (b + 1))) * (least B * 2 ^ K B) / 2)%Q by (field).
  rewrite least_K. field.
Qed.

Lemma mid_lt B b x : (midpoint B b < x)%Q <-> (iz (mid2 B b) < x * 2 ^ K B)%Q.
Proof. rewrite <- mid_K. symmetry. apply Qmult_lt_r, q2pos. Qed.
Lemma mid_gt B b x : (x < midpoint B b)%Q <-> (x * 2 ^ K B < iz (mid2 B b))%Q.
Proof. rewrite <- mid_K. symmetry. apply Qmult_lt_r, q2pos. Qed.
Lemma mid_eq B b x : (midpoint B b == x)%Q <-> (iz (mid2 B b) == x * 2 ^ K B)%Q.
Proof.
  rewrite <- mid_K. split; intro H.
  - rewrite H. reflexivity.
  - apply Qmult_inj_r with (2 ^ K B)%Q; [|assumption]. intro E. pose proof (q2pos (K B)) as P. rewrite E in P. discriminate.
Qed.

Lemma p2pos n : 0 < 2 ^ n. Proof. apply N.neq_0_lt_0, N.pow_nonzero. lia. Qed.

Lemma units_enc B s r :
  fmt_ok B -> s = 0 \/ 2 ^ mbits B <= r -> r <= 2 * 2 ^ mbits B -> units B (s * 2 ^ mbits B + r) = r * 2 ^ s.
Proof.
  intros [Hm _] Hs Hr. unfold units. pose proof (p2pos (mbits B)) as P. set (p := 2 ^ mbits B) in *. clearbody p.
  destruct (s * p + r <? p) eqn:E.
  - apply N.ltb_lt in E. assert (s = 0) by nia. subst. rewrite N.mul_0_l, N.pow_0_r. lia.
  - apply N.ltb_ge in E.
    assert (Hr1 : p <= r) by (destruct Hs as [->|]; lia).
    assert (C : r < 2 * p \/ r = 2 * p) by lia. destruct C as [C|C].
    + replace (s * p + r) with ((r - p) + (s + 1) * p) by nia.
      rewrite N.mod_add, N.div_add by lia. rewrite N.mod_small, N.div_small by lia.
      replace (0 + (s + 1) - 1) with s by lia. f_equal. lia.
    + replace (s * p + r) with (0 + (s + 2) * p) by nia.
      rewrite N.mod_add, N.div_add by lia. rewrite N.mod_small, N.div_small by lia.
      replace (0 + (s + 2) - 1) with (N.succ s) by lia. rewrite N.pow_succ_r'. subst r. ring.
Qed.

(** Every number has this form. *)
Lemma units_form B b : fmt_ok B -> exists s r, b = s * 2 ^ mbits B + r /\ (s = 0 \/ 2 ^ mbits B <= r) /\ r < 2 * 2 ^ mbits B.
Proof.
  intros [Hm _]. pose proof (p2pos (mbits B)) as P. set (p := 2 ^ mbits B) in *. clearbody p.
  destruct (N.lt_ge_cases b p) as [C|C].
  - exists 0, b. repeat split; try lia.
  - exists (b / p - 1), (p + b mod p). pose proof (N.div_mod b p) as D. pose proof (N.mod_lt b p).
    assert (1 <= b / p) by (apply N.div_le_lower_bound; lia).
    repeat split; try lia. rewrite D at 1 by lia. nia.
Qed.

Lemma units_succ B b : fmt_ok B -> units B b < units B (b + 1).
Proof.
  intros H. destruct (units_form B b H) as (s & r & -> & Hs & Hr).
  rewrite (units_enc B s r H Hs) by lia.
  rewrite <- N.add_assoc, (units_enc B s (r + 1)) by (try assumption; lia).
  pose proof (p2pos s). nia.
Qed.
Lemma units_mono B a b : fmt_ok B -> a < b -> units B a < units B b.
Proof.
  intros H L. replace b with (a + 1 + (b - a - 1)) by lia. generalize (b - a - 1) as n.
  induction n as [|n IH] using N.peano_ind.
  - rewrite N.add_0_r. apply units_succ, H.
  - replace (a + 1 + N.succ n) with (a + 1 + n + 1) by lia. pose proof (units_succ B (a + 1 + n) H). lia.
Qed.
Lemma units_mono_le B a b : fmt_ok B -> a <= b -> units B a <= units B b.
Proof. intros H L. destruct (N.eq_dec a b) as [->|]; [lia|]. pose proof (units_mono B a b H). lia. Qed.
Lemma mid2_mono B a b : fmt_ok B -> a < b -> mid2 B a < mid2 B b.
Proof. intros H L. unfold mid2. pose proof (units_mono B a b H L). pose proof (units_mono B (a + 1) (b + 1) H). lia. Qed.

(** ** What [rounds_to] says in these terms *)
Definition rounds2 (B : binary) (y : Q) (b : N) : Prop :=
  b <= infinity B /\
  (0 < b -> (iz (mid2 B (b - 1)) < y)%Q \/ (iz (mid2 B (b - 1)) == y)%Q /\ N.even b = true) /\
  (b < infinity B -> (y < iz (mid2 B b))%Q \/ (y == iz (mid2 B b))%Q /\ N.even b = true).

Lemma rounds_to2 B x b : rounds_to B x b <-> rounds2 B (x * 2 ^ K B) b.
Proof.
  unfold rounds_to, rounds2.
  rewrite mid_lt, mid_eq, mid_gt.
  assert (E : (x == midpoint B b)%Q <-> (x * 2 ^ K B == iz (mid2 B b))%Q).
  { pose proof (mid_eq B b x) as M. split; intro H; symmetry; apply M; symmetry; assumption. }
  rewrite E. reflexivity.
Qed.

Lemma rounds_to_unique B x b1 b2 : fmt_ok B -> rounds_to B x b1 -> rounds_to B x b2 -> b1 = b2.
Proof.
  intro H. assert (W : forall b1 b2, rounds_to B x b1 -> rounds_to B x b2 -> b1 < b2 -> False).
  { intros c1 c2 R1 R2 L. apply rounds_to2 in R1, R2. destruct R1 as (A1 & _ & C1), R2 as (A2 & C2 & _).
    specialize (C1 ltac:(lia)). specialize (C2 ltac:(lia)).
    assert (LE : (iz (mid2 B (c2 - 1)) <= iz (mid2 B c1))%Q).
    { destruct C1 as [C1|[C1 _]], C2 as [C2|[C2 _]]; lra. }
    apply iz_le in LE.
    assert (c1 = c2 - 1 \/ c1 < c2 - 1) as [E|E] by lia.
    2: { pose proof (mid2_mono B _ _ H E). lia. }
    rewrite <- E in C2.
    destruct C1 as [C1|[C1 E1]], C2 as [C2|[C2 E2]]; try lra.
    replace c2 with (N.succ c1) in E2 by lia. rewrite N.even_succ, <- N.negb_even, E1 in E2. discriminate. }
  intros R1 R2. destruct (N.lt_trichotomy b1 b2) as [L|[L|L]]; [exfalso; eauto|assumption|exfalso; eauto].
Qed.

Lemma rounds_to_between B x1 x x2 b :
  (x1 <= x)%Q -> (x <= x2)%Q -> rounds_to B x1 b -> rounds_to B x2 b -> rounds_to B x b.
Proof.
  intros L1 L2 (A & B1 & _) (_ & _ & C2). split; [assumption|]. split; intro H.
  - destruct (B1 H) as [D|[D E]]; [left; lra|]. destruct (Qlt_le_dec (midpoint B (b - 1)) x) as [F|F]; [left; assumption|].
    right. split; [lra|assumption].
  - destruct (C2 H) as [D|[D E]]; [left; lra|]. destruct (Qlt_le_dec x (midpoint B b)) as [F|F]; [left; assumption|].
    right. split; [lra|assumption].
Qed.

Lemma rounds_to_Qeq B x y b : (x == y)%Q -> rounds_to B x b -> rounds_to B y b.
Proof. intros E (A & B1 & C). split; [assumption|]. split; intro H; [specialize (B1 H)|specialize (C H)]; rewrite <- E; assumption. Qed.

Lemma infinity_even B : fmt_ok B -> N.even (infinity B) = true.
Proof.
  intros [H _]. unfold infinity. rewrite N.even_mul. replace (mbits B) with (N.succ (mbits B - 1)) by lia.
  rewrite N.pow_succ_r', (N.even_mul 2). cbn. apply orb_true_r.
Qed.
Lemma even_enc B s r : fmt_ok B -> N.even (s * 2 ^ mbits B + r) = N.even r.
Proof.
  intros [H _]. rewrite N.even_add, N.even_mul. replace (mbits B) with (N.succ (mbits B - 1)) by lia.
  rewrite N.pow_succ_r', (N.even_mul 2). cbn [N.even]. rewrite orb_true_l, orb_true_r. destruct (N.even r); reflexivity.
Qed.

Lemma rounds2_clamp B y b :
  fmt_ok B -> (0 < b -> (iz (mid2 B (b - 1)) < y)%Q \/ (iz (mid2 B (b - 1)) == y)%Q /\ N.even b = true) ->
  (y < iz (mid2 B b))%Q \/ (y == iz (mid2 B b))%Q /\ N.even b = true ->
  rounds2 B y (N.min b (infinity B)).
Proof.
  intros H L U. destruct (N.le_gt_cases b (infinity B)) as [C|C].
  - rewrite N.min_l by lia. repeat split; auto.
  - rewrite N.min_r by lia. repeat split; [lia| |intro; lia].
    intro P. left. specialize (L ltac:(lia)).
    assert (M : mid2 B (infinity B - 1) < mid2 B (b - 1)) by (apply mid2_mono; [assumption|lia]).
    apply iz_lt in M. destruct L as [L|[L _]]; lra.
Qed.

(** The mantissa with one more bit, as all algorithms have it. *)
Theorem round_criterion B y s m (exact : bool) :
  fmt_ok B ->
  (iz (m * 2 ^ s) <= y)%Q -> (y < iz ((m + 1) * 2 ^ s))%Q ->
  (exact = true <-> (y == iz (m * 2 ^ s))%Q) ->
  s = 0 \/ 2 * 2 ^ mbits B <= m -> m < 4 * 2 ^ mbits B ->
  rounds2 B y (N.min (s * 2 ^ mbits B + (if exact && (m mod 4 =? 1) then m / 2 else (m + 1) / 2)) (infinity B)).
Proof.
  intros H L U X Hs Hm. pose proof (p2pos (mbits B)) as P. pose proof (p2pos s) as Ps.
  set (r := if exact && (m mod 4 =? 1) then m / 2 else (m + 1) / 2).
  (* what is needed of r *)
  assert (R : (exact = true /\ m = 2 * r + 1 /\ N.even r = true) \/
              (exact = true /\ m = 2 * r - 1 /\ 1 <= r /\ N.even r = true) \/ (m = 2 * r) \/ (exact = false /\ m = 2 * r - 1 /\ 1 <= r)).
  { subst r. pose proof (N.div_mod m 4 ltac:(lia)) as D4. pose proof (N.mod_lt m 4 ltac:(lia)) as M4.
    set (a := m / 4) in *. set (c := m mod 4) in *.
    assert (c = 0 \/ c = 1 \/ c = 2 \/ c = 3) as [C|[C|[C|C]]] by lia; rewrite C in *; clearbody a c; subst c m.
    - rewrite andb_false_r. assert (E : (4 * a + 0 + 1) / 2 = 2 * a) by (symmetry; apply N.div_unique with 1; lia).
      rewrite E. right; right; left; lia.
    - rewrite andb_true_r. destruct exact.
      + left. split; [reflexivity|]. assert (E : (4 * a + 1) / 2 = 2 * a) by (symmetry; apply N.div_unique with 1; lia).
        rewrite E. split; [lia|]. rewrite N.even_mul. reflexivity.
      + right; right; right. assert (E : (4 * a + 1 + 1) / 2 = 2 * a + 1) by (symmetry; apply N.div_unique with 0; lia).
        rewrite E. split; [reflexivity|lia].
    - rewrite andb_false_r. assert (E : (4 * a + 2 + 1) / 2 = 2 * a + 1) by (symmetry; apply N.div_unique with 1; lia).
      rewrite E. right; right; left; lia.
    - rewrite andb_false_r. assert (E : (4 * a + 3 + 1) / 2 = 2 * a + 2) by (symmetry; apply N.div_unique with 0; lia).
      rewrite E. destruct exact.
      + right; left. split; [reflexivity|]. split; [lia|]. split; [lia|].
        replace (2 * a + 2) with (2 * (a + 1)) by lia. rewrite N.even_mul. reflexivity.
      + right; right; right. split; [reflexivity|lia]. }
  clearbody r.
  assert (Hr : s = 0 \/ 2 ^ mbits B <= r) by (destruct Hs as [|Hs]; [auto|right]; lia).
  assert (Hr2 : r <= 2 * 2 ^ mbits B) by lia.
  assert (Ev : N.even (s * 2 ^ mbits B + r) = N.even r) by (apply even_enc, H).
  apply rounds2_clamp; [assumption| |].
  - intro Pb. rewrite Ev. unfold mid2.
    assert (C : s = 0 \/ 2 ^ mbits B < r \/ (0 < s /\ r = 2 ^ mbits B)) by lia.
    assert (G : units B (s * 2 ^ mbits B + r - 1) + units B (s * 2 ^ mbits B + r - 1 + 1) = (2 * r - 1) * 2 ^ s /\ 1 <= r
             \/ units B (s * 2 ^ mbits B + r - 1) + units B (s * 2 ^ mbits B + r - 1 + 1) < 2 * r * 2 ^ s /\ 2 * r <= m).
    { destruct C as [C|[C|[C1 C2]]].
      - left. assert (1 <= r) by (subst s; lia). split; [|assumption].
        replace (s * 2 ^ mbits B + r - 1) with (s * 2 ^ mbits B + (r - 1)) by lia.
        rewrite (units_enc B s (r - 1)) by (auto; lia).
        replace (s * 2 ^ mbits B + (r - 1) + 1) with (s * 2 ^ mbits B + r) by lia.
        rewrite (units_enc B s r) by (auto; lia). nia.
      - left. split; [|lia].
        replace (s * 2 ^ mbits B + r - 1) with (s * 2 ^ mbits B + (r - 1)) by lia.
        rewrite (units_enc B s (r - 1)) by (try assumption; lia).
        replace (s * 2 ^ mbits B + (r - 1) + 1) with (s * 2 ^ mbits B + r) by lia.
        rewrite (units_enc B s r) by (try assumption; lia). nia.
      - right. split; [|lia].
        replace (s * 2 ^ mbits B + r - 1) with ((s - 1) * 2 ^ mbits B + (2 * r - 1)) by nia.
        rewrite (units_enc B (s - 1) (2 * r - 1)) by (try assumption; lia).
        replace ((s - 1) * 2 ^ mbits B + (2 * r - 1) + 1) with (s * 2 ^ mbits B + r) by nia.
        rewrite (units_enc B s r) by (try assumption; lia).
        replace (2 ^ s) with (2 * 2 ^ (s - 1)); [|rewrite <- N.pow_succ_r'; f_equal; lia].
        pose proof (p2pos (s - 1)). nia. }
    destruct G as [[-> G]|[G1 G2]].
    + destruct R as [(E & -> & Er)|[(E & -> & _ & Er)|[->|(E & -> & _)]]].
      * left. eapply Qlt_le_trans; [|exact L]. apply iz_lt. nia.
      * right. split; [|assumption]. symmetry. apply X, E.
      * left. eapply Qlt_le_trans; [|exact L]. apply iz_lt. nia.
      * left. destruct (Qlt_le_dec (iz ((2 * r - 1) * 2 ^ s)) y) as [D|D]; [assumption|exfalso].
        assert (F : exact = true); [|congruence]. apply X. lra.
    + left. eapply Qlt_le_trans; [|exact L]. apply iz_lt. nia.
  - rewrite Ev. unfold mid2. rewrite (units_enc B s r) by assumption.
    assert (G : r * 2 ^ s + units B (s * 2 ^ mbits B + r + 1) = (2 * r + 1) * 2 ^ s \/
                r * 2 ^ s + units B (s * 2 ^ mbits B + r + 1) = (2 * r + 2) * 2 ^ s /\ m <= 2 * r).
    { assert (C : r < 2 * 2 ^ mbits B \/ r = 2 * 2 ^ mbits B) by lia. destruct C as [C|C].
      - left. replace (s * 2 ^ mbits B + r + 1) with (s * 2 ^ mbits B + (r + 1)) by lia.
        rewrite (units_enc B s (r + 1)) by (try assumption; lia). nia.
      - right. split; [|lia]. replace (s * 2 ^ mbits B + r + 1) with ((s + 1) * 2 ^ mbits B + (2 ^ mbits B + 1)) by nia.
        rewrite (units_enc B (s + 1) (2 ^ mbits B + 1)) by (try assumption; lia).
        replace (2 ^ (s + 1)) with (2 * 2 ^ s); [nia|]. rewrite <- N.pow_succ_r'. f_equal. lia. }
    destruct G as [->|[-> G]].
    + destruct R as [(E & -> & Er)|[(E & -> & _ & Er)|[->|(E & -> & _)]]].
      * right. split; [|assumption]. apply X, E.
      * left. eapply Qlt_le_trans; [exact U|]. apply iz_le. nia.
      * left. eapply Qlt_le_trans; [exact U|]. apply iz_le. nia.
      * left. eapply Qlt_le_trans; [exact U|]. apply iz_le. nia.
    + left. eapply Qlt_le_trans; [exact U|]. apply iz_le. nia.
Qed.
