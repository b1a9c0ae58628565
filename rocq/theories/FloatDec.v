(** The conversion of decimal text rounds correctly. *)
From Coq Require Import QArith Qround Lqa Qpower.
From Coq Require Import Lia.
From Verif Require Import Base BaseFacts Utf8 FloatSpec Dec2fltTable Dec2flt FloatFacts FloatFast FloatLemire2 FloatLemire3 FloatDigits FloatSlow FloatRound FloatSlow2 FloatSwar FloatParse.
Local Open Scope N_scope.

Definition gives (F : raw_float) (v : Q) (r : res biased) : Prop :=
  exists fp, r = Ok fp /\ (0 <= be fp)%Z /\ rounds_to (r_bin F) v (to_float (r_bin F) fp).

Lemma binade_ex (v : Q) a : forall n, (2 ^ a <= v)%Q -> (v < 2 ^ (a + Z.of_nat n))%Q -> exists E, (a <= E)%Z /\ (2 ^ E <= v)%Q /\ (v < 2 ^ (E + 1))%Q.
Proof.
  induction n as [|n IH]; intros H1 H2.
  - exfalso. rewrite Z.add_0_r in H2. lra.
  - destruct (Qlt_le_dec v (2 ^ (a + Z.of_nat n))) as [C|C]; [apply IH; assumption|].
    exists (a + Z.of_nat n)%Z. split; [lia|]. split; [assumption|]. replace (a + Z.of_nat n + 1)%Z with (a + Z.of_nat (S n))%Z by lia. assumption.
Qed.

Lemma binade_ex' (v : Q) a b : (2 ^ a <= v)%Q -> (v < 2 ^ b)%Q -> exists E, (a <= E)%Z /\ (2 ^ E <= v)%Q /\ (v < 2 ^ (E + 1))%Q.
Proof.
  intros H1 H2. assert (H : (a < b)%Z) by (apply q2lt; lra). apply (binade_ex v a (Z.to_nat (b - a))); [assumption|].
  replace (a + Z.of_nat (Z.to_nat (b - a)))%Z with b by lia. assumption.
Qed.

Lemma n1 : (10 ^ (-325) * 2 ^ 1075 < 1)%Q. Proof. vm_compute. reflexivity. Qed.
Lemma n2 : (2 ^ 1024 <= 10 ^ 309)%Q. Proof. vm_compute. discriminate. Qed.
Lemma n3 : (2 ^ (-1080) <= 10 ^ (-325))%Q. Proof. vm_compute. discriminate. Qed.
Lemma n4 : (10 ^ 309 <= 2 ^ 1920)%Q. Proof. vm_compute. discriminate. Qed.
Lemma n5 : ((2 # 3) ^ 1999 <= 10 ^ (-325))%Q. Proof. vm_compute. discriminate. Qed.

Lemma zero_gives F v : nums F -> (v * 2 ^ K (r_bin F) < 1)%Q -> gives F v (Ok {| bf := 0; be := 0 |}).
Proof.
  intros U H. eexists. split; [reflexivity|]. split; [cbn; lia|]. pose proof (u_ok F U) as UO.
  rewrite to_float_add; [|apply p2pos|lia|apply Z.pow_pos_nonneg; lia]. cbn [Z.to_N]. rewrite N.mul_0_l, N.add_0_r. apply rounds_zero; [apply UO|assumption].
Qed.

Lemma inv_same v e d d' : inv v e d -> (bval d' == bval d)%Q -> b_trunc d' = b_trunc d -> digits_ok (b_digits d') -> hd_ok (b_digits d') -> inv v e d'.
Proof.
  intros [H1 H2 H3 H4] E T D1 D2. constructor; [assumption|assumption| |]; intro X; rewrite T in X; rewrite E; auto.
Qed.
Lemma kept_same v e d d' A : kept v e d A -> (bval d' == bval d)%Q -> kept v e d' A.
Proof. intros H E k L. rewrite E. apply H, L. Qed.

Lemma hd_firstn (l : list N) : hd_ok l -> hd_ok (firstn MAX_DIGITS l).
Proof. destruct l; [contradiction|]. intro H. exact H. Qed.
Lemma digits_firstn n (l : list N) : digits_ok l -> digits_ok (firstn n l).
Proof. intro H. rewrite <- (firstn_skipn n l) in H. apply digits_app in H. tauto. Qed.

Lemma last_skipn_pos (l : list N) : last l 0 <> 0 -> (MAX_DIGITS < length l)%nat -> existsb (fun x => 0 <? x) (skipn MAX_DIGITS l) = true.
Proof.
  intros H L. assert (Hs : skipn MAX_DIGITS l <> []). { intro C. assert (length (skipn MAX_DIGITS l) = 0%nat) by (rewrite C; reflexivity). rewrite skipn_length in *. lia. }
  rewrite <- (firstn_skipn MAX_DIGITS l) in H. destruct (skipn MAX_DIGITS l) as [|x r]; [congruence|]. rewrite last_app_cons in H.
  apply existsb_exists. exists (last (x :: r) 0). split; [|apply N.ltb_lt; lia].
  assert (N0 : x :: r <> []) by discriminate. rewrite (app_removelast_last 0 N0) at 2. apply in_or_app. right. left. reflexivity.
Qed.

(** The state with which the loops start *)
Lemma st_init v E A d out : (v < 2 ^ (E + 1))%Q -> (A + E <= 53)%Z -> (A <= 1075)%Z -> 
  digits_ok out -> hd_ok out -> last out 0 <> 0 -> (v == dval out (b_point d))%Q ->
  b_digits d = firstn MAX_DIGITS out -> b_trunc d = (MAX_DIGITS <? length out)%nat -> (-324 <= b_point d <= 768)%Z ->
  st v E A 0 d.
Proof.
  intros HE HA1 HA2 D1 D2 D3 V B1 B2 Hp. set (p := b_point d) in *.
  set (d0 := {| b_digits := out; b_point := p; b_trunc := false |}).
  assert (X : (dval out p * 2 ^ 0 == bval d0 * 2 ^ 0)%Q) by reflexivity.
  assert (Vd : (bval d0 * 2 ^ 0 == v)%Q). { rewrite V. change (2 ^ 0)%Q with 1%Q. unfold bval, d0. cbn [b_digits b_point]. ring. }
  assert (S0 : st v E A 0 d0).
  { constructor; [constructor; [assumption|assumption|intros _; exact Vd|intro C; discriminate]| |]; intros k L; rewrite Vd; exact L. }
  pose proof (st_step v E A HE HA1 HA2 0 d0 0 out p S0 D1 D2 X Hp ltac:(lia)) as [S1 S2 S3].
  assert (Eb : (bval d == bval (cut out p (b_trunc d0)))%Q).
  { unfold bval, cut. cbn [b_digits b_point]. rewrite dval_trim, B1. reflexivity. }
  assert (Et : b_trunc d = b_trunc (cut out p (b_trunc d0))).
  { rewrite B2. unfold cut, d0. cbn [b_trunc orb]. destruct (Nat.ltb MAX_DIGITS (length out)) eqn:C.
    - apply Nat.ltb_lt in C. symmetry. apply last_skipn_pos; assumption.
    - apply Nat.ltb_ge in C. rewrite skipn_all2 by assumption. reflexivity. }
  constructor.
  - eapply inv_same; [exact S1|exact Eb|exact Et| |]; rewrite B1; [apply digits_firstn|apply hd_firstn]; assumption.
  - eapply kept_same; [exact S2|exact Eb].
  - eapply kept_same; [exact S3|exact Eb].
Qed.

Lemma long_steps F s d d1 e1 d2 e2 :
  parse_decimal s = Ok d -> (match b_digits d with [] => true | _ => false end) || (b_point d <? -324)%Z = false -> (310 <=? b_point d)%Z = false ->
  shrink 2000 d 0 = Ok (Some (d1, e1)) -> grow 2000 d1 e1 = Ok (Some (d2, e2)) -> parse_long_mantissa F s = tail F d2 e2.
Proof.
  unfold parse_long_mantissa, tail. generalize 2000%nat. intros n H1 H2 H3 H4 H5. rewrite H1. cbn [bind]. rewrite H2, H3, H4. cbn [bind]. rewrite H5. reflexivity.
Qed.
Lemma long_zero F s d :
  parse_decimal s = Ok d -> (match b_digits d with [] => true | _ => false end) || (b_point d <? -324)%Z = true -> parse_long_mantissa F s = Ok {| bf := 0; be := 0 |}.
Proof. unfold parse_long_mantissa. generalize 2000%nat. intros n H1 H2. rewrite H1. cbn [bind]. rewrite H2. reflexivity. Qed.
Lemma long_inf F s d :
  parse_decimal s = Ok d -> (match b_digits d with [] => true | _ => false end) || (b_point d <? -324)%Z = false -> (310 <=? b_point d)%Z = true ->
  parse_long_mantissa F s = Ok {| bf := 0; be := r_inf F |}.
Proof. unfold parse_long_mantissa. generalize 2000%nat. intros n H1 H2 H3. rewrite H1. cbn [bind]. rewrite H2, H3. reflexivity. Qed.

Theorem slow_ok F s d v : nums F -> parse_decimal s = Ok d -> decimal_ok d v -> gives F v (parse_long_mantissa F s).
Proof.
  intros U Hd Dk. pose proof (u_mb F U) as Umb. pose proof (u_bias F U) as Ub. pose proof (u_bm F U) as Ubm. 
  assert (HK : K (r_bin F) = (bias (r_bin F) + Z.of_N (meb F))%Z) by reflexivity.
  destruct Dk as [[D0 V0]|(out & D1 & D2 & D3 & V & B1 & B2)].
  { rewrite (long_zero F s d Hd) by (rewrite D0; reflexivity). apply zero_gives; [assumption|]. rewrite V0, Qmult_0_l. reflexivity. }
  assert (Bn : (match b_digits d with [] => true | _ => false end) = false). { rewrite B1. destruct out; [contradiction|reflexivity]. }
  pose proof (dval_ge out (b_point d) D2) as G1. pose proof (dval_lt out (b_point d) D1) as G2. rewrite <- V in G1, G2.
  destruct (b_point d <? -324)%Z eqn:C1.
  { rewrite (long_zero F s d Hd) by (rewrite C1; apply orb_true_r). apply Z.ltb_lt in C1. apply zero_gives; [assumption|].
    assert (G3 : (10 ^ b_point d <= 10 ^ (-325))%Q) by (apply q10le; lia).
    assert (G4 : (2 ^ K (r_bin F) <= 2 ^ 1075)%Q) by (apply q2le; lia). pose proof (q2pos (K (r_bin F))) as P.
    apply Qlt_trans with (10 ^ (-325) * 2 ^ K (r_bin F))%Q; [apply Qmult_lt_r; [assumption|lra]|].
    apply Qle_lt_trans with (10 ^ (-325) * 2 ^ 1075)%Q; [apply Qmult_le_l; [apply q10pos|assumption]|exact n1]. }
  assert (Cb : (match b_digits d with [] => true | _ => false end) || (b_point d <? -324)%Z = false) by (rewrite Bn, C1; reflexivity).
  apply Z.ltb_ge in C1. destruct (310 <=? b_point d)%Z eqn:C2.
  { rewrite (long_inf F s d Hd Cb C2). apply Z.leb_le in C2. apply inf_ok; [assumption|]. apply rounds_inf'; [apply (u_ok F U)|].
    rewrite (u_e F U), iz_2pow, (u_inf F U), Z2N.id by lia.
    apply Qle_trans with (2 ^ (bias (r_bin F) + 1) * 2 ^ bias (r_bin F))%Q; [rewrite <- q2plus; apply q2le; lia|].
    apply Qmult_le_compat_r; [|apply Qlt_le_weak, q2pos]. apply Qle_trans with (2 ^ 1024)%Q; [apply q2le; lia|].
    apply Qle_trans with (10 ^ 309)%Q; [exact n2|]. eapply Qle_trans; [|exact G1]. apply q10le. lia. }
  pose proof C2 as Cc. apply Z.leb_gt in C2.
  destruct (binade_ex' v (-1080) 1920) as (E & HE0 & HE1 & HE2).
  { eapply Qle_trans; [|exact G1]. apply Qle_trans with (10 ^ (-325))%Q; [exact n3|apply q10le; lia]. }
  { eapply Qlt_le_trans; [exact G2|]. apply Qle_trans with (10 ^ 309)%Q; [apply q10le; lia|exact n4]. }
  set (A := (Z.of_N (meb F) + 1 - Z.max E (1 - bias (r_bin F)))%Z).
  assert (HA1 : (A + E <= 53)%Z) by (subst A; lia). assert (HA2 : (A <= 1075)%Z) by (subst A; lia).
  pose proof (st_init v E A d out HE2 HA1 HA2 D1 D2 D3 V B1 B2 ltac:(lia)) as S0.
  assert (Hn : Z.of_nat 1999 = 1999%Z) by reflexivity.
  assert (F1 : (bval d < 2 ^ Z.of_nat 1999)%Q).
  { pose proof (i_dig _ _ _ (s_inv _ _ _ _ _ S0)) as Dd. pose proof (i_hd _ _ _ (s_inv _ _ _ _ _ S0)) as Dh.
    destruct (val_point d Dd Dh) as [_ L]. eapply Qlt_le_trans; [exact L|]. apply Qle_trans with (10 ^ 309)%Q; [apply q10le; lia|]. rewrite Hn.
    eapply Qle_trans; [exact n4|]. apply q2le. lia. }
  destruct (shrink_ok v E A HE2 HA1 HA2 1999 d 0 S0 F1 ltac:(lia) ltac:(lia)) as (d1 & e1 & R1 & S1 & P1 & P2).
  clear F1 S0.
  assert (F2 : ((2 # 3) ^ Z.of_nat 1999 <= bval d1)%Q).
  { pose proof (i_dig _ _ _ (s_inv _ _ _ _ _ S1)) as Dd. pose proof (i_hd _ _ _ (s_inv _ _ _ _ _ S1)) as Dh.
    destruct (val_point d1 Dd Dh) as [L _]. eapply Qle_trans; [|exact L]. apply Qle_trans with (10 ^ (-325))%Q; [rewrite Hn; exact n5|apply q10le; lia]. }
  destruct (grow_ok v E A HE2 HA1 HA2 1999 d1 e1 S1 F2 P1 P2) as (d2 & e2 & R2 & S2 & V2).
  clear F2 S1.
  assert (Ee : e2 = (E + 1)%Z).
  { pose proof (st_low v E A HE1 _ _ S2) as L1. pose proof (st_high v E A HE2 _ _ S2) as L2.
    assert (E - e2 < 0)%Z by (apply q2lt; change (2 ^ 0)%Q with 1%Q; lra).
    assert (-1 < E + 1 - e2)%Z by (apply q2lt; change (2 ^ (-1))%Q with (1 # 2)%Q; lra). lia. }
  subst e2. rewrite (long_steps F s d d1 e1 d2 (E + 1)%Z Hd Cb Cc R1 R2). exact (tail_ok F v E U HE1 HE2 HE0 d2 S2).
Qed.

(** The whole function *)
Definition plain (s : bytes) : Prop := match s with c :: _ => c <> 45 /\ c <> 43 | [] => False end.

Lemma lemire_std F : std F -> forall q w, w < 2 ^ 64 ->
  exists fp, compute_float F q w = Ok fp /\ (be fp = -1 \/ 0 <= be fp /\ rounds_to (r_bin F) (iz w * 10 ^ q) (to_float (r_bin F) fp))%Z.
Proof. intros H q w L. apply lemire_ok; [apply std_facts; assumption|assumption]. Qed.

Lemma same_float B x y : same x y = true -> to_float B x = to_float B y /\ be x = be y.
Proof.
  unfold same. rewrite andb_true_iff, N.eqb_eq, Z.eqb_eq. intros [H1 H2]. unfold to_float. rewrite H1, H2. auto.
Qed.

Theorem dec2flt_ok F ds fs sf r2 e r3 sg : std F -> mant ds fs sf r2 -> ds ++ fs <> [] -> scan r2 = Some (e, r3) ->
  sg = [] \/ sg = [43] \/ sg = [45] ->
  exists b, dec2flt F (sg ++ ds ++ sf ++ r2) = Ok (Some (negate_float (r_bin F) (if list_eq_dec N.eq_dec sg [45] then true else false) b, r3)) /\
    rounds_to (r_bin F) (dv ds fs e) b.
Proof.
  intros HF HM Hne Hs Hsg. pose proof (std_nums F HF) as U. set (s := ds ++ sf ++ r2) in *.
  assert (Pl : plain s).
  { subst s. destruct HM as (H1 & H2 & _ & H4). destruct ds as [|c ds].
    - destruct H4 as [->|(-> & -> & _)]; [cbn; split; discriminate|contradiction Hne; reflexivity].
    - apply digs_cons in H1. destruct H1 as [H1 _]. apply digit_range in H1. cbn [app plain]. lia. }
  destruct (parse_partial_ok ds fs sf r2 e r3 HM Hne Hs) as (n & Pn & Nk). fold s in Pn.
  destruct (parse_decimal_ok ds fs sf r2 e r3 HM Hs) as (d & Pd & Dk). fold s in Pd.
  pose proof (slow_ok F s d _ U Pd Dk) as Slow. clear Pd Dk d HM Hne Hs.
  set (v := dv ds fs e) in *. clearbody v s. clear ds fs sf r2 e.
  set (neg := if list_eq_dec N.eq_dec sg [45] then true else false).
  assert (Step : exists c r, sg ++ s = c :: r /\ (c =? 45) = neg /\ (if (c =? 45) || (c =? 43) then r else c :: r) = s).
  { destruct s as [|c0 s']; [contradiction|]. cbn [plain] in Pl. destruct Pl as [Pl1 Pl2]. unfold neg. destruct Hsg as [->|[->| ->]].
    - exists c0, s'. cbn [app]. replace (c0 =? 45) with false by (symmetry; apply N.eqb_neq; assumption).
      replace (c0 =? 43) with false by (symmetry; apply N.eqb_neq; assumption). repeat split.
    - exists 43, (c0 :: s'). repeat split.
    - exists 45, (c0 :: s'). repeat split. }
  destruct Step as (c & r & E1 & E2 & E3). unfold dec2flt. rewrite E1, E2. rewrite <- E2, E3, E2. clear E1 E2 E3 c r Hsg.
  clearbody neg. destruct s as [|c0 s'] eqn:Es; [contradiction|]. rewrite <- Es in *. rewrite Pn. cbn [bind].
  destruct (fast_path_ok F n HF) as (x & Fx & Fk). rewrite Fx. cbn [bind]. destruct x as [b|].
  { destruct (Fk b eq_refl) as [Fm Fr]. unfold number_ok in Nk. rewrite Fm in Nk. destruct Nk as [_ Nk].
    exists b. split; [reflexivity|]. eapply rounds_to_Qeq; [exact Nk|exact Fr]. }
  clear Fx Fk.
  assert (Mw : n_man n < 2 ^ 64).
  { unfold number_ok in Nk. destruct (n_many n); [|tauto]. destruct Nk as [Nk _]. eapply N.lt_trans; [exact Nk|reflexivity]. }
  destruct (lemire_std F HF (n_exp n) (n_man n) Mw) as (fp & Lf & Lk). rewrite Lf. cbn [bind].
  assert (Fin : forall bad : bool, (bad = false -> (0 <= be fp)%Z /\ rounds_to (r_bin F) v (to_float (r_bin F) fp)) ->
    exists b, (let* fp0 := if bad then parse_long_mantissa F s else Ok fp in
      Ok (Some (negate_float (r_bin F) neg (to_float (r_bin F) fp0), r3))) = Ok (Some (negate_float (r_bin F) neg b, r3)) /\ rounds_to (r_bin F) v b).
  { intros [|] Hbad.
    - destruct Slow as (fp' & S1 & S2 & S3). rewrite S1. cbn [bind]. eauto.
    - cbn [bind]. destruct (Hbad eq_refl). eauto. }
  unfold number_ok in Nk. destruct (n_many n); cbn [andb].
  - destruct Nk as (N1 & N2 & N3). destruct (0 <=? be fp)%Z eqn:C.
    + apply Z.leb_le in C. destruct Lk as [Lk|[_ Lk]]; [lia|].
      assert (Mw2 : n_man n + 1 < 2 ^ 64). { apply N.le_lt_trans with (10 ^ 19); [lia|reflexivity]. }
      assert (U1 : u64 (n_man n + 1) = Ok (n_man n + 1)). { unfold u64. replace (n_man n + 1 <? 2 ^ 64) with true by (symmetry; apply N.ltb_lt; assumption). reflexivity. }
      rewrite U1. cbn [bind]. destruct (lemire_std F HF (n_exp n) (n_man n + 1) Mw2) as (fp2 & Lf2 & Lk2). rewrite Lf2. cbn [bind].
      apply Fin. intro Hn. apply negb_false_iff, (same_float (r_bin F)) in Hn. destruct Hn as [Hn1 Hn2]. split; [assumption|].
      destruct Lk2 as [Lk2|[_ Lk2]]; [lia|]. rewrite <- Hn1 in Lk2. eapply rounds_to_between; [exact N2|exact N3|exact Lk|exact Lk2].
    + cbn [bind]. apply Fin. apply Z.leb_gt in C. intro X. apply Z.ltb_ge in X. lia.
  - destruct Nk as [_ N2]. cbn [bind]. apply Fin. intro X. apply Z.ltb_ge in X. split; [assumption|].
    destruct Lk as [Lk|[_ Lk]]; [lia|]. eapply rounds_to_Qeq; [exact N2|exact Lk].
Qed.
