(** Rounding a decimal to an integer. *)
From Coq Require Import QArith Lqa Qpower.
From Coq Require Import Lia.
From Verif Require Import Base BaseFacts FloatSpec Dec2fltTable Dec2flt FloatFacts FloatFast FloatLemire2 FloatLemire3 FloatDigits FloatSlow.
Local Open Scope N_scope.

Lemma map_nth_seq ds : forall n, map (fun i => nth i ds 0) (seq 0 n) = firstn n ds ++ repeat 0 (n - length ds).
Proof.
  induction ds as [|d ds IH]; intro n.
  - rewrite firstn_nil. cbn [app length]. rewrite Nat.sub_0_r. generalize 0%nat. induction n as [|n IH]; intro k; [reflexivity|].
    cbn [seq map repeat]. rewrite IH. destruct k; reflexivity.
  - destruct n as [|n]; [reflexivity|]. cbn [seq map nth firstn app length Nat.sub]. f_equal.
    rewrite <- seq_shift, map_map. apply IH.
Qed.
Lemma fold_nth ds n : fold_left (fun n i => 10 * n + nth i ds 0) (seq 0 n) 0 = num (firstn n ds ++ repeat 0 (n - length ds)).
Proof.
  rewrite <- map_nth_seq. unfold num. generalize 0 at 2 4. generalize (seq 0 n). induction l as [|i l IH]; intro a; [reflexivity|].
  cbn [fold_left map]. apply IH.
Qed.

Lemma last_app_cons (a : list N) x b : last (a ++ x :: b) 0 = last (x :: b) 0.
Proof. induction a as [|y a IH]; [reflexivity|]. cbn [app]. rewrite <- IH. destruct (a ++ x :: b) eqn:E; [destruct a; discriminate|reflexivity]. Qed.
Lemma num_last_pos ds : last ds 0 <> 0 -> 0 < num ds.
Proof.
  intro H. destruct ds as [|x r] eqn:E; [contradiction H; reflexivity|]. rewrite <- E in *.
  rewrite (app_removelast_last 0 (l := ds)) by (rewrite E; discriminate). rewrite num_snoc. lia.
Qed.
Lemma iz_floor m n x : (iz m <= x)%Q -> (x < iz (m + 1))%Q -> (iz n <= x)%Q -> (x < iz (n + 1))%Q -> m = n.
Proof.
  intros H1 H2 H3 H4. assert (A1 : m < n + 1) by (apply iz_lt; lra). assert (A2 : n < m + 1) by (apply iz_lt; lra). lia.
Qed.
Lemma iz_even i : (iz (2 * i) == 2 * iz i)%Q. Proof. rewrite iz_mul. reflexivity. Qed.
Lemma iz_S i : (iz (i + 1) == iz i + 1)%Q. Proof. rewrite iz_add. reflexivity. Qed.

Lemma half_even i : (2 * i + 1) / 2 = i.
Proof. symmetry. apply N.div_unique with 1; lia. Qed.
Lemma half_odd i : (2 * i + 1 + 1) / 2 = i + 1.
Proof. symmetry. apply N.div_unique with 0; lia. Qed.
Lemma even_mod4 i : (2 * i mod 4 =? 1) = false.
Proof. apply N.eqb_neq. intro H. pose proof (N.div_mod (2 * i) 4). lia. Qed.
Lemma odd_mod4 i : ((2 * i + 1) mod 4 =? 1) = N.even i.
Proof.
  destruct (N.even i) eqn:E.
  - apply N.even_spec in E. destruct E as [j ->]. apply N.eqb_eq. symmetry. apply N.mod_unique with j; lia.
  - assert (O : N.odd i = true) by (rewrite <- N.negb_even, E; reflexivity). apply N.odd_spec in O. destruct O as [j ->].
    apply N.eqb_neq. replace ((2 * (2 * j + 1) + 1) mod 4) with 3; [discriminate|]. apply N.mod_unique with j; lia.
Qed.

Theorem round_ok d V m exact :
  digits_ok (b_digits d) -> hd_ok (b_digits d) -> last (b_digits d) 0 <> 0 ->
  (b_trunc d = false -> (bval d == V)%Q) -> (b_trunc d = true -> (bval d < V)%Q) ->
  (forall k, (iz k <= 2 * V)%Q -> (iz k <= 2 * bval d)%Q) ->
  (V < 10 ^ 18)%Q ->
  (iz m <= 2 * V)%Q -> (2 * V < iz (m + 1))%Q -> (exact = true <-> (2 * V == iz m)%Q) ->
  round d = Ok (if exact && (m mod 4 =? 1) then m / 2 else (m + 1) / 2).
Proof.
  intros D1 D2 D3 T1 T2 Kp LV M1 M2 Ex. pose proof (Kp m M1) as Z1. clear Kp.
  assert (ZV : (bval d <= V)%Q) by (destruct (b_trunc d); [specialize (T2 eq_refl)|specialize (T1 eq_refl)]; lra).
  unfold round. set (ds := b_digits d) in *. assert (Zd : bval d = dval ds (b_point d)) by reflexivity.
  set (z := bval d) in *. clearbody z. set (pt := b_point d) in *. set (tr := b_trunc d) in *. clearbody ds pt tr.
  assert (Dn : ds <> []) by (destruct ds; [contradiction|discriminate]).
  pose proof (dval_ge ds pt D2) as G1. pose proof (dval_lt ds pt D1) as G2. rewrite <- Zd in G1, G2.
  replace (match ds with [] => true | _ => false end) with false by (destruct ds; [congruence|reflexivity]). cbn [orb].
  destruct (pt <? 0)%Z eqn:C1.
  { apply Z.ltb_lt in C1. assert (G3 : (10 ^ pt <= 10 ^ (-1))%Q) by (apply q10le; lia). change (10 ^ (-1))%Q with (1 # 10)%Q in G3.
    assert (m = 0). { assert (m < 1); [|lia]. apply iz_lt. change (iz 1) with 1%Q. lra. }
    subst m. rewrite andb_false_r. reflexivity. }
  apply Z.ltb_ge in C1. destruct (18 <? pt)%Z eqn:C2.
  { exfalso. apply Z.ltb_lt in C2. assert (G3 : (10 ^ 18 <= 10 ^ (pt - 1))%Q) by (apply q10le; lia). lra. }
  apply Z.ltb_ge in C2. set (dp := Z.to_nat pt). assert (Hdp : Z.of_nat dp = pt) by (subst dp; lia).
  cbv zeta. rewrite fold_nth. set (I := num (firstn dp ds ++ repeat 0 (dp - length ds))).
  assert (Lf : length (firstn dp ds ++ repeat 0 (dp - length ds)) = dp) by (rewrite app_length, firstn_length, repeat_length; lia).
  assert (HI : I < 10 ^ 18).
  { assert (N1 : I < 10 ^ lenN (firstn dp ds ++ repeat 0 (dp - length ds))).
    { apply num_lt. apply digits_app. split.
      - rewrite <- (firstn_skipn dp ds) in D1. apply digits_app in D1. tauto.
      - apply Forall_forall. intros x Hx. apply repeat_spec in Hx. lia. }
    unfold lenN in N1. rewrite Lf in N1. eapply N.lt_le_trans; [exact N1|]. apply N.pow_le_mono_r; lia. }
  assert (U1 : u64 I = Ok I). { unfold u64. replace (I <? 2 ^ 64) with true; [reflexivity|]. symmetry. apply N.ltb_lt.
    eapply N.lt_trans; [exact HI|reflexivity]. }
  assert (U2 : u64 (I + 1) = Ok (I + 1)). { unfold u64. replace (I + 1 <? 2 ^ 64) with true; [reflexivity|]. symmetry. apply N.ltb_lt.
    apply N.le_lt_trans with (10 ^ 18); [lia|reflexivity]. }
  destruct (Nat.ltb dp (length ds)) eqn:C3.
  - apply Nat.ltb_lt in C3. assert (E0 : (dp - length ds = 0)%nat) by lia.
    assert (Hs : exists x rest, skipn dp ds = x :: rest).
    { destruct (skipn dp ds) as [|x rest] eqn:E; [|eauto]. exfalso. assert (length (skipn dp ds) = 0%nat) by (rewrite E; reflexivity).
      rewrite skipn_length in H. lia. }
    destruct Hs as (x & rest & Hs). assert (Eds : ds = firstn dp ds ++ x :: rest) by (rewrite <- Hs; symmetry; apply firstn_skipn).
    set (pre := firstn dp ds) in *. assert (Lp : length pre = dp) by (unfold pre; rewrite firstn_length; lia). clearbody pre.
    assert (EI : I = num pre). { unfold I. rewrite E0. cbn [repeat]. rewrite app_nil_r. reflexivity. }
    assert (Ex0 : nth dp ds 0 = x) by (rewrite Eds, app_nth2, Lp, Nat.sub_diag by lia; reflexivity).
    rewrite Ex0. rewrite Eds in D1. apply digits_app in D1. destruct D1 as [D1 D1']. inversion D1' as [|? ? Dx Dr]; subst x0 l.
    assert (Fz : (z == iz I + (iz x * (1 # 10) + dval rest (-1)))%Q).
    { rewrite Zd, Eds, dval_app, Lp, Hdp. replace (pt - pt)%Z with 0%Z by lia.
      assert (X1 : (dval pre pt == iz I)%Q). { unfold dval. rewrite Lp, Hdp, EI. replace (pt - pt)%Z with 0%Z by lia. change (10 ^ 0)%Q with 1%Q. ring. }
      rewrite X1. change (x :: rest) with ([x] ++ rest). rewrite dval_app. cbn [length]. change (0 - Z.of_nat 1)%Z with (-1)%Z.
      assert (X2 : (dval [x] 0 == iz x * (1 # 10))%Q).
      { unfold dval. rewrite num_cons. change (num []) with 0. change (lenN []) with 0. rewrite N.pow_0_r. replace (x * 1 + 0) with x by lia. reflexivity. }
      rewrite X2. reflexivity. }
    pose proof (dval_nonneg rest (-1)) as R0. pose proof (dval_lt rest (-1) Dr) as R1. change (10 ^ (-1))%Q with (1 # 10)%Q in R1.
    destruct (N.lt_ge_cases x 5) as [Cx|Cx].
    + replace (x =? 5) with false by (symmetry; apply N.eqb_neq; lia). replace (5 <=? x) with false by (symmetry; apply N.leb_gt; lia).
      cbn [andb]. assert (X4 : x <= 4) by lia. apply iz_le in X4. change (iz 4) with 4%Q in X4. pose proof (iz_nonneg x) as X0.
      assert (Em : m = 2 * I).
      { assert (Q1 : m < 2 * I + 1). { apply iz_lt. rewrite iz_S, iz_even. lra. }
        assert (Q2 : 2 * I < m + 1). { apply iz_lt. rewrite iz_even. lra. } lia. }
      rewrite Em, even_mod4, andb_false_r, half_even. exact U1.
    + apply iz_le in Cx as Cx'. change (iz 5) with 5%Q in Cx'.
      assert (Em : m = 2 * I + 1).
      { assert (X9 : x <= 9) by lia. apply iz_le in X9. change (iz 9) with 9%Q in X9.
        assert (Q1 : m < 2 * I + 1 + 1). { apply iz_lt. rewrite !iz_S, iz_even. lra. }
        assert (Q2 : 2 * I + 1 < m + 1). { apply iz_lt. rewrite iz_S, iz_even. lra. } lia. }
      rewrite Em, odd_mod4, half_odd, half_even. rewrite Em in Ex, M1. rewrite iz_S, iz_even in Ex.
      assert (Len : length ds = (dp + 1 + length rest)%nat) by (rewrite Eds, app_length, Lp; cbn [length]; lia).
      destruct ((x =? 5) && (dp + 1 =? length ds)%nat) eqn:C5.
      * apply andb_true_iff in C5. destruct C5 as [C5 C6]. apply N.eqb_eq in C5. apply Nat.eqb_eq in C6.
        assert (rest = []) by (destruct rest; [reflexivity|cbn [length] in Len; lia]). subst rest.
        change (dval [] (-1)) with (0 * 10 ^ (-1))%Q in Fz. rewrite C5 in Fz. change (iz 5) with 5%Q in Fz.
        destruct tr.
        -- cbn [orb]. destruct exact; [exfalso|cbn [andb]; exact U2]. destruct Ex as [Ex _]. specialize (Ex eq_refl). specialize (T2 eq_refl). lra.
        -- specialize (T1 eq_refl). assert (exact = true) by (apply Ex; lra). subst exact. cbn [andb orb].
           assert (Ev : (negb (dp =? 0)%nat && (nth (dp - 1) ds 0 mod 2 =? 1)) = negb (N.even I)).
           { destruct (dp =? 0)%nat eqn:C7.
             - apply Nat.eqb_eq in C7. rewrite C7 in Lp. destruct pre; [|discriminate]. rewrite EI. reflexivity.
             - apply Nat.eqb_neq in C7. cbn [negb andb]. rewrite Eds, app_nth1 by lia.
               assert (Pn : pre <> []) by (destruct pre; [cbn in Lp; lia|discriminate]).
               rewrite (app_removelast_last 0 Pn) in EI. rewrite num_snoc in EI.
               assert (Nl : nth (dp - 1) pre 0 = last pre 0).
               { rewrite (app_removelast_last 0 Pn) at 1. rewrite (app_removelast_last 0 Pn), app_length in Lp. cbn [length] in Lp.
                 rewrite app_nth2 by lia. replace (dp - 1 - length (removelast pre))%nat with 0%nat by lia. reflexivity. }
               rewrite Nl, EI, N.negb_even, N.odd_add, N.odd_mul. cbn [N.odd]. rewrite andb_false_r, xorb_false_l.
               rewrite <- N.bit0_mod, N.bit0_odd. destruct (N.odd (last pre 0)); reflexivity. }
           rewrite Ev. destruct (N.even I); [exact U1|exact U2].
      * assert (Nx : exact = false).
        { destruct exact; [exfalso|reflexivity]. destruct Ex as [Ex _]. specialize (Ex eq_refl).
          apply andb_false_iff in C5. destruct C5 as [C5|C5].
          - apply N.eqb_neq in C5. assert (X6 : 6 <= x) by lia. apply iz_le in X6. change (iz 6) with 6%Q in X6. lra.
          - apply Nat.eqb_neq in C5. destruct rest as [|y rest]; [cbn [length] in Len; lia|].
            rewrite Eds, last_app_cons in D3. change (last (x :: y :: rest) 0) with (last (y :: rest) 0) in D3.
            apply num_last_pos in D3. assert (0 < dval (y :: rest) (-1))%Q; [|lra].
            unfold dval. apply Qmult_lt_0_compat; [apply iz_pos; assumption|apply q10pos]. }
        rewrite Nx. cbn [andb]. replace (5 <=? x) with true by (symmetry; apply N.leb_le; lia). exact U2.
  - apply Nat.ltb_ge in C3. assert (Fz : (z == iz I)%Q).
    { unfold I. rewrite firstn_all2 by lia. rewrite Zd. unfold dval. rewrite num_app, num_repeat0, N.add_0_r, iz_mul, iz_10pow.
      unfold lenN. rewrite repeat_length. replace (Z.of_N (N.of_nat (dp - length ds))) with (pt - Z.of_nat (length ds))%Z by lia. reflexivity. }
    assert (Em : m = 2 * I).
    { assert (Q1 : m < 2 * I + 1). { apply iz_lt. rewrite iz_S, iz_even. lra. }
      assert (Q2 : 2 * I < m + 1). { apply iz_lt. rewrite iz_even. lra. } lia. }
    rewrite Em, even_mod4, andb_false_r, half_even. exact U1.
Qed.
