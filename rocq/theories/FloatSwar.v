(** Eight digits at a time. *)
From Coq Require Import Lia.
From Verif Require Import Base BaseFacts Utf8 Dec2flt FloatFacts FloatDigits.
Local Open Scope N_scope.

Lemma tb x y i : x < 256 -> N.testbit (x + 256 * y) i = if i <? 8 then N.testbit x i else N.testbit y (i - 8).
Proof.
  intro H. destruct (i <? 8) eqn:C.
  - apply N.ltb_lt in C. rewrite <- (N.mod_pow2_bits_low (x + 256 * y) 8 i) by assumption. change (2 ^ 8) with 256.
    rewrite (N.mul_comm 256), N.mod_add by discriminate. rewrite N.mod_small by assumption. reflexivity.
  - apply N.ltb_ge in C. replace i with (i - 8 + 8) at 1 by lia. rewrite <- N.div_pow2_bits. change (2 ^ 8) with 256.
    rewrite (N.mul_comm 256), N.div_add by discriminate. rewrite N.div_small by assumption. reflexivity.
Qed.
Lemma bits8 x i : x < 256 -> 8 <= i -> N.testbit x i = false.
Proof.
  intros H1 H2. destruct (N.eq_dec x 0) as [->|N0]; [apply N.bits_0|]. apply N.bits_above_log2.
  eapply N.lt_le_trans; [|exact H2]. apply N.log2_lt_pow2; [lia|exact H1].
Qed.
Lemma lt256_bits x : (forall i, 8 <= i -> N.testbit x i = false) -> x < 256.
Proof.
  intro H. destruct (N.eq_dec x 0) as [->|N0]; [reflexivity|]. change 256 with (2 ^ 8). apply N.log2_lt_pow2; [lia|].
  destruct (N.lt_ge_cases (N.log2 x) 8) as [|C]; [assumption|]. specialize (H _ C). rewrite N.bit_log2 in H by assumption. discriminate.
Qed.
Lemma land8 x y m M : x < 256 -> m < 256 -> N.land (x + 256 * y) (m + 256 * M) = N.land x m + 256 * N.land y M.
Proof.
  intros H1 H2. apply N.bits_inj. intro i. rewrite N.land_spec, !tb; try assumption.
  2: { apply lt256_bits. intros j Hj. rewrite N.land_spec, bits8 by assumption. reflexivity. }
  destruct (i <? 8); rewrite N.land_spec; reflexivity.
Qed.
Lemma lor_lt x y : x < 256 -> y < 256 -> N.lor x y < 256.
Proof. intros H1 H2. apply lt256_bits. intros j Hj. rewrite N.lor_spec, !bits8 by assumption. reflexivity. Qed.
Lemma lor8 x y X Y : x < 256 -> y < 256 -> N.lor (x + 256 * X) (y + 256 * Y) = N.lor x y + 256 * N.lor X Y.
Proof.
  intros H1 H2. apply N.bits_inj. intro i. rewrite N.lor_spec, !tb; try assumption; [|apply lor_lt; assumption].
  destruct (i <? 8); rewrite N.lor_spec; reflexivity.
Qed.

Definition all (c : N) (n : nat) : N := le (repeat c n).
Lemma all_S c n : c < 256 -> all c (S n) = c + 256 * all c n.
Proof. intro H. unfold all. cbn [repeat le]. rewrite N.min_l by lia. reflexivity. Qed.
Fixpoint p256 (n : nat) : N := match n with O => 1 | S k => 256 * p256 k end.
Lemma p256_pos n : 0 < p256 n. Proof. induction n; cbn [p256]; lia. Qed.
Lemma all_lt c n : c < 256 -> all c n < p256 n.
Proof. intro H. induction n as [|n IH]; [reflexivity|]. rewrite all_S by assumption. cbn [p256]. lia. Qed.
Lemma mod256 x y P : x < 256 -> 0 < P -> (x + 256 * y) mod (256 * P) = x + 256 * (y mod P).
Proof.
  intros H HP. symmetry. pose proof (N.div_mod y P ltac:(lia)) as D. pose proof (N.mod_lt y P ltac:(lia)) as L.
  apply N.mod_unique with (y / P); nia.
Qed.
Lemma low_check : forallb (fun b => Bool.eqb (N.land (N.lor ((b + 70) mod 256) ((b + 208) mod 256)) 128 =? 0) (is_digit b)) (map N.of_nat (seq 0 256)) = true.
Proof. vm_compute. reflexivity. Qed.
Lemma low_ok b : b < 256 -> (N.land (N.lor ((b + 70) mod 256) ((b + 208) mod 256)) 128 =? 0) = is_digit b.
Proof.
  intro H. pose proof low_check as L. rewrite forallb_forall in L. apply Bool.eqb_prop. apply L.
  apply in_map_iff. exists (N.to_nat b). split; [lia|]. apply in_seq. lia.
Qed.

Lemma min_digit b : is_digit (N.min b 255) = is_digit b.
Proof.
  destruct (N.le_gt_cases b 255) as [C|C]; [rewrite N.min_l by assumption; reflexivity|]. rewrite N.min_r by lia.
  unfold is_digit, Utf8.between. symmetry. apply andb_false_iff. right. apply N.leb_gt. lia.
Qed.
Lemma swar_ok bs : forall P, P = p256 (length bs) ->
  (N.land (N.lor ((le bs + all 70 (length bs)) mod P) ((le bs + (P - all 48 (length bs))) mod P)) (all 128 (length bs)) =? 0) = forallb is_digit bs.
Proof.
  induction bs as [|b0 bs IH]; intros P HP; [subst; reflexivity|]. cbn [length] in *. cbn [p256] in HP. subst P. specialize (IH _ eq_refl).
  rewrite !all_S by reflexivity. cbn [le forallb]. rewrite <- min_digit. assert (Hb : N.min b0 255 < 256) by lia. set (b := N.min b0 255) in *. clearbody b. clear b0. set (V := le bs) in *. set (n := length bs) in *. set (P := p256 n) in *.
  pose proof (p256_pos n) as PP. pose proof (all_lt 48 n ltac:(lia)) as L48. fold P in PP, L48.
  set (c70 := all 70 n) in *. set (c48 := all 48 n) in *. set (c128 := all 128 n) in *. clearbody V P c70 c48 c128.
  pose proof (N.div_mod (b + 70) 256 ltac:(lia)) as D1. pose proof (N.mod_lt (b + 70) 256 ltac:(lia)) as M1.
  pose proof (N.div_mod (b + 208) 256 ltac:(lia)) as D2. pose proof (N.mod_lt (b + 208) 256 ltac:(lia)) as M2.
  set (x := (b + 70) mod 256) in *. set (y := (b + 208) mod 256) in *.
  replace (b + 256 * V + (70 + 256 * c70)) with (x + 256 * (V + c70 + (b + 70) / 256)) by lia.
  replace (b + 256 * V + (256 * P - (48 + 256 * c48))) with (y + 256 * (V + (P - c48 - 1) + (b + 208) / 256)) by lia.
  rewrite !mod256 by assumption. rewrite lor8 by assumption. rewrite land8; [|apply lor_lt; assumption|lia].
  pose proof (low_ok b Hb) as Lo. fold x y in Lo. destruct (is_digit b) eqn:Dg.
  - apply N.eqb_eq in Lo. rewrite Lo. unfold is_digit in Dg. apply andb_true_iff in Dg. destruct Dg as [G1 G2]. apply N.leb_le in G1, G2.
    replace ((b + 70) / 256) with 0 by (apply N.div_unique with (b + 70); lia).
    replace ((b + 208) / 256) with 1 by (apply N.div_unique with (b - 48); lia).
    rewrite N.add_0_r. replace (V + (P - c48 - 1) + 1) with (V + (P - c48)) by lia. cbn [andb]. rewrite <- IH.
    set (Z := N.land _ c128). destruct (Z =? 0) eqn:CZ; [apply N.eqb_eq in CZ; rewrite CZ; reflexivity|].
    apply N.eqb_neq in CZ. apply N.eqb_neq. lia.
  - apply N.eqb_neq in Lo. cbn [andb]. apply N.eqb_neq. lia.
Qed.

Theorem is_8digits_ok b0 b1 b2 b3 b4 b5 b6 b7 :
  is_8digits (le [b0; b1; b2; b3; b4; b5; b6; b7]) = forallb is_digit [b0; b1; b2; b3; b4; b5; b6; b7].
Proof. exact (swar_ok [b0; b1; b2; b3; b4; b5; b6; b7] (2 ^ 64) eq_refl). Qed.

Lemma digit_range c : is_digit c = true -> 48 <= c <= 57.
Proof. intro H. apply andb_true_iff in H. rewrite !N.leb_le in H. exact H. Qed.

Theorem parse_8digits_ok b0 b1 b2 b3 b4 b5 b6 b7 : forallb is_digit [b0; b1; b2; b3; b4; b5; b6; b7] = true ->
  parse_8digits (le [b0; b1; b2; b3; b4; b5; b6; b7]) = num (map (fun c => c - 48) [b0; b1; b2; b3; b4; b5; b6; b7]).
Proof.
  cbn [forallb]. rewrite !andb_true_iff. intros (H0 & H1 & H2 & H3 & H4 & H5 & H6 & H7 & _).
  apply digit_range in H0, H1, H2, H3, H4, H5, H6, H7.
  assert (G : forall b, 48 <= b <= 57 -> exists d, b = 48 + d /\ d <= 9) by (intros b Hb; exists (b - 48); lia).
  destruct (G _ H0) as (d0 & E0 & L0). destruct (G _ H1) as (d1 & E1 & L1). destruct (G _ H2) as (d2 & E2 & L2). destruct (G _ H3) as (d3 & E3 & L3).
  destruct (G _ H4) as (d4 & E4 & L4). destruct (G _ H5) as (d5 & E5 & L5). destruct (G _ H6) as (d6 & E6 & L6). destruct (G _ H7) as (d7 & E7 & L7).
  clear G H0 H1 H2 H3 H4 H5 H6 H7. subst b0 b1 b2 b3 b4 b5 b6 b7.
  assert (R : num (map (fun c => c - 48) [48 + d0; 48 + d1; 48 + d2; 48 + d3; 48 + d4; 48 + d5; 48 + d6; 48 + d7]) =
    1000000 * (10 * d0 + d1) + 10000 * (10 * d2 + d3) + 100 * (10 * d4 + d5) + (10 * d6 + d7)).
  { cbn [map]. rewrite !(N.add_comm 48), !N.add_sub. unfold num, step10. cbn [fold_left]. lia. }
  rewrite R. clear R. unfold parse_8digits. cbn [le]. rewrite !N.min_l by lia.
  set (p0 := 10 * d0 + d1). set (p1 := 10 * d1 + d2). set (p2 := 10 * d2 + d3). set (p3 := 10 * d3 + d4). set (p4 := 10 * d4 + d5).
  set (p5 := 10 * d5 + d6). set (p6 := 10 * d6 + d7). set (p7 := 10 * d7).
  match goal with |- context [?x - 3472328296227680304] =>
    replace (x - 3472328296227680304) with (d0 + 256 * (d1 + 256 * (d2 + 256 * (d3 + 256 * (d4 + 256 * (d5 + 256 * (d6 + 256 * d7))))))) by lia end.
  set (v := d0 + _).
  assert (Ev : v / 2 ^ 8 = d1 + 256 * (d2 + 256 * (d3 + 256 * (d4 + 256 * (d5 + 256 * (d6 + 256 * d7)))))).
  { symmetry. apply N.div_unique with d0; [change (2 ^ 8) with 256; lia|]. subst v. change (2 ^ 8) with 256. lia. }
  rewrite Ev. replace (v * 10 + _) with (p0 + 256 * (p1 + 256 * (p2 + 256 * (p3 + 256 * (p4 + 256 * (p5 + 256 * (p6 + 256 * p7)))))))
    by (subst v p0 p1 p2 p3 p4 p5 p6 p7; lia).
  clear Ev v.
  assert (B0 : p0 < 100) by (subst p0; lia). assert (B1 : p1 < 100) by (subst p1; lia). assert (B2 : p2 < 100) by (subst p2; lia).
  assert (B3 : p3 < 100) by (subst p3; lia). assert (B4 : p4 < 100) by (subst p4; lia). assert (B5 : p5 < 100) by (subst p5; lia).
  assert (B6 : p6 < 100) by (subst p6; lia). assert (B7 : p7 < 100) by (subst p7; lia).
  clearbody p0 p1 p2 p3 p4 p5 p6 p7. clear L0 L1 L2 L3 L4 L5 L6 L7.
  change 1095216660735 with (255 + 256 * (0 + 256 * (0 + 256 * (0 + 256 * (255 + 256 * (0 + 256 * (0 + 256 * 0))))))).
  assert (L255 : forall p, p < 100 -> N.land p 255 = p).
  { intros p Hp. change 255 with (N.ones 8). rewrite N.land_ones. apply N.mod_small. change (2 ^ 8) with 256. lia. }
  assert (Ew : (p0 + 256 * (p1 + 256 * (p2 + 256 * (p3 + 256 * (p4 + 256 * (p5 + 256 * (p6 + 256 * p7))))))) / 2 ^ 16 =
    p2 + 256 * (p3 + 256 * (p4 + 256 * (p5 + 256 * (p6 + 256 * (p7 + 256 * (0 + 256 * 0))))))).
  { symmetry. apply N.div_unique with (p0 + 256 * p1); change (2 ^ 16) with 65536; lia. }
  rewrite Ew. rewrite !land8 by lia. rewrite !L255 by assumption. rewrite !N.land_0_r.
  set (w1 := p0 + _). set (w2 := p2 + _).
  assert (X1 : w1 * 4294967296000100 mod 2 ^ 64 = 100 * p0 + 4294967296 * (1000000 * p0 + 100 * p4)).
  { symmetry. apply N.mod_unique with (1000000 * p4); subst w1; change (2 ^ 64) with 18446744073709551616; lia. }
  assert (X2 : w2 * 42949672960001 mod 2 ^ 64 = p2 + 4294967296 * (10000 * p2 + p6)).
  { symmetry. apply N.mod_unique with (10000 * p6); subst w2; change (2 ^ 64) with 18446744073709551616; lia. }
  rewrite X1, X2. clear X1 X2 w1 w2 Ew.
  rewrite (N.mod_small _ (2 ^ 64)) by (change (2 ^ 64) with 18446744073709551616; lia).
  replace ((100 * p0 + 4294967296 * (1000000 * p0 + 100 * p4) + (p2 + 4294967296 * (10000 * p2 + p6))) / 2 ^ 32)
    with (1000000 * p0 + 100 * p4 + 10000 * p2 + p6).
  2: { apply N.div_unique with (100 * p0 + p2); change (2 ^ 32) with 4294967296; lia. }
  rewrite N.mod_small by (change (2 ^ 32) with 4294967296; lia). lia.
Qed.
