(** From the texts to the parser. *)
From Coq Require Import QArith Qabs Qround Lqa Qpower.
From Coq Require Import Lia.
From Verif Require Import Base BaseFacts Utf8 JsonSpec JsonNumSpec FloatSpec FloatTextSpec Dec2fltTable Dec2flt FloatFacts FloatFast FloatLemire2 FloatLemire3 FloatDigits FloatSlow FloatRound FloatSlow2 FloatSwar FloatParse FloatDec.
Local Open Scope N_scope.

Lemma value_nm ds : JsonNumSpec.value ds = nm ds.
Proof.
  unfold JsonNumSpec.value, nm, num, dn. generalize 0. induction ds as [|c ds IH]; intro a; [reflexivity|]. cbn [fold_left map]. apply IH.
Qed.
Lemma dv_value ds fs e : decimal_value ds fs e = dv ds fs e.
Proof. unfold decimal_value, dv, iz. rewrite value_nm. reflexivity. Qed.
Lemma digit_digs ds : Forall digit ds <-> digs ds.
Proof.
  unfold digs. rewrite forallb_forall, Forall_forall. split; intros H x Hx; specialize (H x Hx).
  - unfold is_digit, Utf8.between. unfold digit in H. apply andb_true_iff. rewrite !N.leb_le. exact H.
  - apply digit_range. exact H.
Qed.

(** ** Exponents *)
Lemma exp_keep es : forall a, (65536 <= a)%Z -> fold_left exp_step es a = a.
Proof.
  induction es as [|c es IH]; intros a H; [reflexivity|]. cbn [fold_left]. unfold exp_step at 2.
  replace (a <? 65536)%Z with false by (symmetry; apply Z.ltb_ge; assumption). auto.
Qed.
Lemma exp_fold es : forall a, (0 <= a)%Z -> 
  let E := fold_left exp_step es a in let V := (a * 10 ^ Z.of_N (lenN es) + Z.of_N (nm es))%Z in
  ((V < 655360)%Z -> E = V) /\ ((655360 <= V)%Z -> (65536 <= E <= V)%Z).
Proof.
  induction es as [|c es IH]; intros a Ha.
  - cbn [fold_left]. change (lenN []) with 0. change (nm []) with 0. cbv zeta. change (10 ^ Z.of_N 0)%Z with 1%Z. change (Z.of_N 0) with 0%Z. lia.
  - cbn [fold_left]. assert (EV : (a * 10 ^ Z.of_N (lenN (c :: es)) + Z.of_N (nm (c :: es)) =
      (10 * a + Z.of_N (c - 48)) * 10 ^ Z.of_N (lenN es) + Z.of_N (nm es))%Z).
    { rewrite nm_cons, lenN_cons. rewrite !N2Z.inj_add, N2Z.inj_mul, N2Z.inj_pow, Z.pow_add_r by lia. change (10 ^ Z.of_N 1)%Z with 10%Z. lia. }
    rewrite EV. assert (Es : exp_step a c = if (a <? 65536)%Z then (10 * a + Z.of_N (c - 48))%Z else a) by reflexivity. rewrite Es. clear Es. destruct (a <? 65536)%Z eqn:C.
    + apply IH. lia.
    + apply Z.ltb_ge in C. rewrite exp_keep by assumption. cbv zeta.
      assert (P : (1 <= 10 ^ Z.of_N (lenN es))%Z). { assert (0 < 10 ^ Z.of_N (lenN es))%Z by (apply Z.pow_pos_nonneg; lia). lia. }
      assert (Q1 : (10 * a + Z.of_N (c - 48) <= (10 * a + Z.of_N (c - 48)) * 10 ^ Z.of_N (lenN es))%Z) by nia. lia.
Qed.

(** The exponent that the parser sees *)
Definition sees (e e' : Z) : Prop :=
  ((Z.abs e < 655360)%Z -> e' = e) /\ ((655360 <= e)%Z -> (65536 <= e')%Z) /\ ((e <= -655360)%Z -> (e' <= -65536)%Z).

Lemma scan_ok e se rest : expo false e se -> ends rest = true -> exists e', scan (se ++ rest) = Some (e', rest) /\ sees e e'.
Proof.
  intros H Hr. assert (Sr : stop rest).
  { destruct rest as [|c rest]; [exact I|]. cbn [ends stop] in *. unfold is_digit. destruct (Utf8.between 48 57 c); [discriminate|reflexivity]. }
  destruct H as [[-> ->]|(c & sg & es & Hc & Hsg & Hd & Hne & -> & ->)].
  - exists 0%Z. split; [|split; [auto|lia]]. cbn [app]. unfold scan. destruct rest as [|c rest]; [reflexivity|].
    cbn [ends] in Hr. replace ((c =? 101) || (c =? 69)) with false; [reflexivity|].
    destruct (c =? 101) eqn:C1; [rewrite orb_true_r in Hr; discriminate|]. destruct (c =? 69) eqn:C2; [rewrite !orb_true_r in Hr; discriminate|reflexivity].
  - apply digit_digs in Hd. assert (En : es <> []) by (intro C; specialize (Hne C); discriminate).
    cbn [app scan]. replace ((c =? 101) || (c =? 69)) with true by (destruct Hc as [->| ->]; reflexivity).
    unfold parse_scientific. rewrite <- app_assoc.
    set (neg := if list_eq_dec N.eq_dec sg [45] then true else false).
    assert (M : (match sg ++ es ++ rest with c :: r => (c =? 45, if (c =? 45) || (c =? 43) then r else sg ++ es ++ rest) | [] => (false, sg ++ es ++ rest) end) = (neg, es ++ rest)).
    { unfold neg. destruct Hsg as [->|[->| ->]]; [|reflexivity|reflexivity]. cbn [app]. destruct es as [|x es]; [congruence|]. cbn [app].
      apply digs_cons in Hd. destruct Hd as [Hd _]. apply digit_range in Hd.
      replace (x =? 45) with false by (symmetry; apply N.eqb_neq; lia). replace (x =? 43) with false by (symmetry; apply N.eqb_neq; lia). reflexivity. }
    unfold bytes in *. rewrite M. rewrite (span_exact es rest Hd Sr).
    clear M.
    pose proof (exp_fold es 0 ltac:(lia)) as [E1 E2]. rewrite Z.mul_0_l, Z.add_0_l in E1, E2.
    exists (if neg then (- fold_left exp_step es 0)%Z else fold_left exp_step es 0%Z). split; [destruct es; [congruence|reflexivity]|].
    rewrite value_nm. set (E := fold_left exp_step es 0%Z) in *. clearbody E. unfold z_of, sees. destruct neg; repeat split; lia.
Qed.

(** ** Texts *)
Lemma neg_signed B neg b : negate_float B neg b = signed B neg b.
Proof. unfold negate_float, signed. destruct neg; [apply N.add_comm|reflexivity]. Qed.

Lemma sees_rounds F ds fs e e' b : std F -> digs (ds ++ fs) -> sees e e' -> moderate ds fs e -> rounds_to (r_bin F) (dv ds fs e') b -> rounds_to (r_bin F) (dv ds fs e) b.
Proof.
  intros HF Hd (S1 & S2 & S3) Hm R. pose proof (std_nums F HF) as U. pose proof (u_bias F U) as Ub. pose proof (u_bm F U) as Ubm.
  pose proof (f_ok F (u_ok F U)) as FO. assert (HK : K (r_bin F) = (bias (r_bin F) + Z.of_N (meb F))%Z) by reflexivity.
  destruct (Z_lt_le_dec (Z.abs e) 655360) as [C|C]; [rewrite (S1 C) in R; exact R|].
  destruct Hm as [Hm|Hm]; [lia|]. rewrite app_length in Hm.
  destruct (N.eq_dec (nm (ds ++ fs)) 0) as [Z0|Z0].
  { eapply rounds_to_Qeq; [|exact R]. unfold dv. rewrite Z0. change (iz 0) with 0%Q. ring. }
  destruct (Z_lt_le_dec 0 e) as [Ce|Ce].
  - assert (Big : forall x, (65536 <= x)%Z -> rounds_to (r_bin F) (dv ds fs x) (infinity (r_bin F))).
    { intros x Hx. apply rounds_inf'; [assumption|]. rewrite (u_e F U), iz_2pow, (u_inf F U), Z2N.id by lia.
      apply Qle_trans with (2 ^ (bias (r_bin F) + 1) * 2 ^ bias (r_bin F))%Q; [rewrite <- q2plus; apply q2le; lia|].
      apply Qmult_le_compat_r; [|apply Qlt_le_weak, q2pos]. apply Qle_trans with (2 ^ 1024)%Q; [apply q2le; lia|].
      apply Qle_trans with (10 ^ 309)%Q; [exact n2|]. unfold dv.
      apply Qle_trans with (1 * 10 ^ (x - Z.of_nat (length fs)))%Q; [rewrite Qmult_1_l; apply q10le; lia|].
      apply Qmult_le_compat_r; [|apply Qlt_le_weak, q10pos]. change 1%Q with (iz 1). apply iz_le. lia. }
    rewrite (rounds_to_unique (r_bin F) _ b (infinity (r_bin F)) FO R (Big e' (S2 ltac:(lia)))). apply Big. lia.
  - assert (Small : forall x, (x <= -65536)%Z -> rounds_to (r_bin F) (dv ds fs x) 0).
    { intros x Hx. apply rounds_zero; [assumption|].
      assert (G : (dv ds fs x < 10 ^ (-325))%Q).
      { unfold dv. apply nm_lt in Hd. apply iz_lt in Hd. rewrite iz_10pow in Hd.
        apply Qlt_le_trans with (10 ^ Z.of_N (lenN (ds ++ fs)) * 10 ^ (x - Z.of_nat (length fs)))%Q; [apply Qmult_lt_r; [apply q10pos|assumption]|].
        rewrite <- q10plus. apply q10le. rewrite lenN_Z, app_length. lia. }
      assert (G4 : (2 ^ K (r_bin F) <= 2 ^ 1075)%Q) by (apply q2le; lia). pose proof (q2pos (K (r_bin F))) as P.
      eapply Qlt_trans; [apply Qmult_lt_r; [exact P|exact G]|].
      eapply Qle_lt_trans; [apply Qmult_le_l; [apply q10pos|exact G4]|exact n1]. }
    rewrite (rounds_to_unique (r_bin F) _ b 0 FO R (Small e' (S3 ltac:(lia)))). apply Small. lia.
Qed.

Lemma loose_mant ds fs e s rest : loose ds fs e s -> ends rest = true ->
  exists sf se e', s = ds ++ sf ++ se /\ mant ds fs sf (se ++ rest) /\ ds ++ fs <> [] /\
    scan (se ++ rest) = Some (e', rest) /\ sees e e'.
Proof.
  intros (sf & se & H1 & H2 & H3 & H4 & ->) Hr. destruct (scan_ok e se rest H4 Hr) as (e' & Sc & Se).
  exists sf, se, e'. split; [reflexivity|]. apply digit_digs in H1.
  assert (Hf : digs fs). { destruct H2 as [[-> _]|[H2 _]]; [reflexivity|apply digit_digs, H2]. }
  split; [|auto]. split; [assumption|]. split; [assumption|].
  assert (Hh : match se ++ rest with [] => True | c :: _ => is_digit c = false /\ c <> 46 end).
  { destruct H4 as [[_ ->]|(c & sg & es & Hc & _ & _ & _ & -> & _)].
    - cbn [app]. destruct rest as [|c rest]; [exact I|]. cbn [ends] in Hr. unfold is_digit. destruct (Utf8.between 48 57 c); [discriminate|].
      split; [reflexivity|]. intros ->. discriminate.
    - cbn [app]. destruct Hc as [->| ->]; (split; [reflexivity|discriminate]). }
  split; [destruct (se ++ rest); [exact I|apply Hh]|].
  destruct H2 as [[-> ->]|(_ & _ & ->)]; [right|left; reflexivity]. split; [reflexivity|]. split; [reflexivity|]. destruct (se ++ rest); [exact I|apply Hh].
Qed.

Lemma float_loose F sg ds fs e s rest : std F -> loose ds fs e s -> ends rest = true -> sg = [] \/ sg = [43] \/ sg = [45] ->
  exists b e', json_decode_float F (sg ++ s ++ rest) = Ok (signed (r_bin F) (if list_eq_dec N.eq_dec sg [45] then true else false) b, rest) /\
    sees e e' /\ rounds_to (r_bin F) (decimal_value ds fs e') b /\ (moderate ds fs e -> rounds_to (r_bin F) (decimal_value ds fs e) b).
Proof.
  intros HF HL Hr Hsg. destruct (loose_mant ds fs e s rest HL Hr) as (sf & se & e' & -> & HM & Hne & Sc & Se).
  destruct (dec2flt_ok F ds fs sf (se ++ rest) e' rest sg HF HM Hne Sc Hsg) as (b & Db & Rb).
  exists b, e'. rewrite !dv_value. split; [|split; [assumption|split; [assumption|]]].
  - unfold json_decode_float. rewrite <- !app_assoc. rewrite Db. cbn [bind]. rewrite neg_signed. reflexivity.
  - intro Hm. apply (sees_rounds F ds fs e e'); [assumption| |assumption|assumption|assumption].
    destruct HM as (M1 & M2 & _). apply digs_app. auto.
Qed.

Lemma decimal_loose ds fs e s : decimal false ds fs e s -> loose ds fs e s.
Proof.
  intros (sf & se & (W1 & W2 & _) & Hf & He & ->). exists sf, se. split; [assumption|]. split.
  - destruct Hf as [Hf|(Hf1 & Hf2 & Hf3)]; [left; assumption|right; auto].
  - split; [destruct ds; [congruence|discriminate]|auto].
Qed.

(** ** Any input *)
Lemma parse_none_or s : s <> [] ->
  (exists ds fs sf r2, s = ds ++ sf ++ r2 /\ mant ds fs sf r2 /\ 
    ((ds ++ fs = [] \/ scan r2 = None) /\ parse_partial_number s = Ok None \/ ds ++ fs <> [] /\ exists e r3, scan r2 = Some (e, r3))).
Proof.
  intros Hn. destruct (span_split s) as (S1 & S2 & S3). set (ds := fst (span_digits s)) in *. set (r1 := snd (span_digits s)) in *.
  assert (Sp : exists fs sf r2, r1 = sf ++ r2 /\ mant ds fs sf r2).
  { destruct r1 as [|c r] eqn:Er; [exists [], [], []; repeat split; try assumption; right; auto|].
    destruct (N.eq_dec c 46) as [->|Nc].
    - destruct (span_split r) as (T1 & T2 & T3). exists (fst (span_digits r)), (46 :: fst (span_digits r)), (snd (span_digits r)).
      split; [cbn [app]; congruence|]. repeat split; try assumption. left. reflexivity.
    - exists [], [], (c :: r). split; [reflexivity|]. repeat split; try assumption. right. auto. }
  destruct Sp as (fs & sf & r2 & Er & HM). exists ds, fs, sf, r2. rewrite <- Er. split; [assumption|]. split; [assumption|].
  assert (Es : s = ds ++ sf ++ r2) by (rewrite <- Er; exact S1). clearbody ds r1.
  rewrite Es. clear S1 S2 S3 Er r1 s Es Hn.
  destruct (list_eq_dec N.eq_dec (ds ++ fs) []) as [E0|E0].
  - left. split; [left; assumption|]. apply app_eq_nil in E0. destruct E0 as [-> ->]. cbn [app] in *. destruct HM as (_ & _ & H3 & H4).
    assert (T : forall r x, stop r -> x < 2 ^ 64 -> try_parse_digits r x = (r, x)).
    { intros r x B2 B3. pose proof (try_parse_digits_ok [] r x eq_refl B2 B3) as T. cbn [app] in T. rewrite T. f_equal.
      change (lenN []) with 0. change (nm []) with 0. change (10 ^ 0) with 1. rewrite N.mul_1_r, N.add_0_r. apply N.mod_small. assumption. }
    unfold parse_partial_number. destruct H4 as [->|(-> & _ & H4)].
    + cbn [app] in *. rewrite T by (assumption || exact eq_refl). change (46 =? 46) with true. cbv iota beta zeta.
      rewrite T by (assumption || exact eq_refl).
      cbv iota beta zeta. rewrite !Z.sub_diag. reflexivity.
    + cbn [app] in *. rewrite T by (assumption || exact eq_refl). cbv iota beta zeta.
      destruct r2 as [|c r]; [reflexivity|]. replace (c =? 46) with false by (symmetry; apply N.eqb_neq; assumption). rewrite Z.sub_diag. reflexivity.
  - destruct (scan r2) as [[e r3]|] eqn:Sc; [right; eauto|left]. split; [right; reflexivity|].
    destruct HM as (H1 & H2 & H3 & H4). assert (Hr1 : stop (sf ++ r2)). { destruct H4 as [->|(-> & _ & _)]; [reflexivity|assumption]. }
    unfold parse_partial_number. rewrite (try_parse_digits_ok ds (sf ++ r2) 0 H1 Hr1) by reflexivity.
    unfold scan in Sc. cbv beta zeta. destruct H4 as [->|(-> & -> & H4)].
    + cbn [app] in *. change (46 =? 46) with true. cbv iota.
      rewrite try_parse_digits_ok by (assumption || (apply N.mod_lt; discriminate)). cbv beta iota zeta. unfold bytes in *. rewrite Sc.
      match goal with |- (if ?c then _ else _) = _ => destruct c; reflexivity end.
    + cbn [app] in *. destruct r2 as [|c r]; [discriminate|]. replace (c =? 46) with false by (symmetry; apply N.eqb_neq; assumption).
      unfold bytes in *. rewrite Sc. match goal with |- (if ?c then _ else _) = _ => destruct c; reflexivity end.
Qed.

Theorem float_safe F bs : std F -> json_decode_float F bs <> Panic.
Proof.
  intros HF. unfold json_decode_float. intro C.
  assert (G : exists x, dec2flt F bs = Ok x); [|destruct G as [[y|] G]; rewrite G in C; discriminate].
  destruct bs as [|c r]; [exists None; reflexivity|].
  set (sg := if (c =? 45) || (c =? 43) then [c] else []). set (s := if (c =? 45) || (c =? 43) then r else c :: r).
  assert (E : c :: r = sg ++ s). { unfold sg, s. destruct ((c =? 45) || (c =? 43)); reflexivity. }
  destruct s as [|c0 s0] eqn:Es.
  { exists None. unfold dec2flt. fold s. rewrite Es. reflexivity. }
  rewrite <- Es in *.
  assert (Sn : s <> []) by (rewrite Es; discriminate).
  destruct (parse_none_or s Sn) as (ds & fs & sf & r2 & E1 & HM & [[_ Hp]|(Hne & e & r3 & Sc)]).
  - unfold dec2flt. fold s. clearbody s. subst s. rewrite Hp. cbn [bind]. destruct (parse_inf_nan (r_bin F) (c0 :: s0)); eauto.
  - destruct (dec2flt_ok F ds fs sf r2 e r3 sg HF HM Hne Sc) as (b & Db & _).
    { unfold sg. destruct (c =? 45) eqn:C1; [apply N.eqb_eq in C1; subst; right; right; reflexivity|].
      destruct (c =? 43) eqn:C2; [apply N.eqb_eq in C2; subst; right; left; reflexivity|left; reflexivity]. }
    rewrite E, E1. eauto.
Qed.
