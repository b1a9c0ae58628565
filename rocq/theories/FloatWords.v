(** The words for infinity and NaN, and what is accepted. *)
From Coq Require Import QArith Qabs Qround Lqa Qpower.
From Coq Require Import Lia.
From Verif Require Import Base BaseFacts Utf8 JsonSpec JsonNumSpec FloatSpec FloatTextSpec Dec2fltTable Dec2flt FloatFacts FloatFast FloatLemire2 FloatLemire3 FloatDigits FloatSlow FloatRound FloatSlow2 FloatSwar FloatParse FloatDec FloatTop.
Local Open Scope N_scope.

Lemma land_step c r m : c < 256 -> N.land (c + 256 * r) (0xDF + 256 * m) = N.land c 0xDF + 256 * N.land r m.
Proof.
  intro H.
  assert (S : forall a x, a < 256 -> a + 256 * x = N.lor a (N.shiftl x 8)).
  { intros a x Ha. rewrite N.shiftl_mul_pow2. change (2 ^ 8) with 256. rewrite <- N.lxor_lor, <- N.add_nocarry_lxor.
    - lia.
    - apply N.bits_inj. intro n. rewrite N.land_spec, N.bits_0. destruct (N.lt_ge_cases n 8) as [C|C].
      + replace (x * 256) with (x * 2 ^ 8) by reflexivity. rewrite N.mul_pow2_bits_low by assumption. apply andb_false_r.
      + replace a with (a mod 2 ^ 8) by (apply N.mod_small; assumption). rewrite N.mod_pow2_bits_high by assumption. reflexivity.
    - apply N.bits_inj. intro n. rewrite N.land_spec, N.bits_0. destruct (N.lt_ge_cases n 8) as [C|C].
      + replace (x * 256) with (x * 2 ^ 8) by reflexivity. rewrite N.mul_pow2_bits_low by assumption. apply andb_false_r.
      + replace a with (a mod 2 ^ 8) by (apply N.mod_small; assumption). rewrite N.mod_pow2_bits_high by assumption. reflexivity. }
  assert (L : N.land c 0xDF < 256).
  { apply N.le_lt_trans with 0xDF; [|reflexivity]. assert (G : forall a b, N.land a b <= b); [|apply G].
    intros a b. apply N.ldiff_le. apply N.bits_inj. intro n. rewrite N.ldiff_spec, N.land_spec, N.bits_0.
    destruct (N.testbit a n), (N.testbit b n); reflexivity. }
  rewrite !S by (assumption || reflexivity). apply N.bits_inj. intro n. rewrite N.land_spec, !N.lor_spec, N.land_spec.
  destruct (N.lt_ge_cases n 8) as [C|C].
  - rewrite !N.shiftl_spec_low by assumption. rewrite !orb_false_r. reflexivity.
  - rewrite !N.shiftl_spec_high by lia. rewrite N.land_spec.
    assert (Z8 : forall a, a < 256 -> N.testbit a n = false).
    { intros a Ha. replace a with (a mod 2 ^ 8) by (apply N.mod_small; assumption). apply N.mod_pow2_bits_high. assumption. }
    rewrite (Z8 c H), (Z8 0xDF) by reflexivity. reflexivity.
Qed.

Lemma low_byte c : c < 256 -> N.land c 0xDF < 256.
Proof.
  intro H. assert (G : forallb (fun c => N.land c 0xDF <? 256) (map N.of_nat (seq 0 256)) = true) by (vm_compute; reflexivity).
  rewrite forallb_forall in G. apply N.ltb_lt, G. apply in_map_iff. exists (N.to_nat c). split; [apply N2Nat.id|]. apply in_seq. lia.
Qed.
Fixpoint mask (s : bytes) : N := match s with [] => 0 | _ :: r => 0xDF + 256 * mask r end.
Lemma land_le s : N.land (le s) (mask s) = le (map (fun c => N.land (N.min 255 c) 0xDF) s).
Proof.
  induction s as [|c r IH]; [reflexivity|]. cbn [le mask map]. rewrite (N.min_comm c 255). assert (L : N.min 255 c < 256) by lia. rewrite land_step by assumption. rewrite IH.
  rewrite (N.min_l (N.land _ _)); [reflexivity|]. pose proof (low_byte _ L). lia.
Qed.
Lemma letter a c : 97 <= a <= 122 -> (N.land (N.min 255 c) 0xDF =? a - 32) = same_letter a c.
Proof.
  intros Ha. destruct (N.le_gt_cases c 255) as [H|H].
  2: { rewrite N.min_l by lia. change (N.land 255 0xDF) with 223. unfold same_letter. symmetry.
       replace (c =? a) with false by (symmetry; apply N.eqb_neq; lia). replace (c =? a - 32) with false by (symmetry; apply N.eqb_neq; lia).
       symmetry. apply N.eqb_neq. lia. }
  rewrite N.min_r by assumption.
  assert (G : forallb (fun a => forallb (fun c => Bool.eqb (N.land c 0xDF =? a - 32) (same_letter a c)) (map N.of_nat (seq 0 256))) (map N.of_nat (seq 97 26)) = true) by (vm_compute; reflexivity).
  rewrite forallb_forall in G. specialize (G a). rewrite forallb_forall in G.
  apply Bool.eqb_prop, G.
  - apply in_map_iff. exists (N.to_nat a). split; [apply N2Nat.id|]. apply in_seq. lia.
  - apply in_map_iff. exists (N.to_nat c). split; [apply N2Nat.id|]. apply in_seq. lia.
Qed.
Lemma le_word w s : Forall (fun a => 97 <= a <= 122) w -> length w = length s ->
  (le (map (fun c => N.land (N.min 255 c) 0xDF) s) =? le (map (fun a => a - 32) w)) = is_word w s.
Proof.
  intros Hw. revert s. induction Hw as [|a w Ha Hw IH]; intros s L; destruct s as [|c s]; try discriminate; [reflexivity|].
  cbn [le map is_word]. rewrite <- (IH s) by (cbn in L; lia). rewrite <- letter by assumption.
  set (x := N.land (N.min 255 c) 223). assert (x < 256) by (apply low_byte; lia). rewrite !N.min_l by lia.
  set (y := le (map (fun c0 : N => N.land (N.min 255 c0) 223) s)). set (z := le (map (fun a0 : N => a0 - 32) w)). clearbody x y z.
  apply eq_true_iff_eq. rewrite andb_true_iff, !N.eqb_eq. lia.
Qed.

Lemma word_len w s : is_word w s = true -> length s = length w.
Proof.
  revert s. induction w as [|a w IH]; intros [|c s] H; cbn [is_word] in H; try discriminate; [reflexivity|].
  apply andb_true_iff in H. cbn [length]. f_equal. apply IH. apply H.
Qed.
Lemma len_lenN (s : bytes) n : lenN s = N.of_nat n <-> length s = n.
Proof. unfold lenN. lia. Qed.

Lemma inf_nan_ok B s b : parse_inf_nan B s = Some b <-> special B s b.
Proof.
  unfold parse_inf_nan, special.
  assert (E8 : length s = 8%nat -> (N.land (le s) 0xDFDFDFDFDFDFDFDF =? 0x5954494E49464E49) = is_word [105; 110; 102; 105; 110; 105; 116; 121] s).
  { intro L. rewrite <- le_word by (try assumption; try (repeat constructor; lia); rewrite L; reflexivity).
    rewrite <- land_le. destruct s as [|? [|? [|? [|? [|? [|? [|? [|? [|]]]]]]]]]; try discriminate. reflexivity. }
  assert (M3 : length s = 3%nat -> N.land (le s) 0xDFDFDFDFDFDFDFDF = le (map (fun c => N.land (N.min 255 c) 0xDF) s)).
  { intro L. rewrite <- land_le. destruct s as [|c0 [|c1 [|c2 [|]]]]; try discriminate. cbn [mask].
    change 0xDFDFDFDFDFDFDFDF with (0xDF + 256 * (0xDF + 256 * (0xDF + 256 * 0xDFDFDFDFDF))).
    cbn [le]. rewrite !land_step by lia. rewrite !N.land_0_l. reflexivity. }
  assert (Ei : length s = 3%nat -> (N.land (le s) 0xDFDFDFDFDFDFDFDF =? 0x464E49) = is_word [105; 110; 102] s).
  { intro L. rewrite M3 by assumption. rewrite <- le_word by (try assumption; try (repeat constructor; lia); rewrite L; reflexivity). reflexivity. }
  assert (En : length s = 3%nat -> (N.land (le s) 0xDFDFDFDFDFDFDFDF =? 0x4E414E) = is_word [110; 97; 110] s).
  { intro L. rewrite M3 by assumption. rewrite <- le_word by (try assumption; try (repeat constructor; lia); rewrite L; reflexivity). reflexivity. }
  destruct (lenN s =? 8) eqn:C8.
  - apply N.eqb_eq, (len_lenN s 8) in C8. rewrite (E8 C8).
    destruct (is_word [105; 110; 102; 105; 110; 105; 116; 121] s) eqn:W.
    + split; [intros [= <-]; left; auto|]. intros [[_ ->]|[W2 _]]; [reflexivity|]. apply word_len in W2. rewrite C8 in W2. discriminate.
    + split; [discriminate|]. intros [[[W2|W2] _]|[W2 _]]; [|congruence|]; apply word_len in W2; rewrite C8 in W2; discriminate.
  - apply N.eqb_neq in C8. destruct (lenN s =? 3) eqn:C3.
    + apply N.eqb_eq, (len_lenN s 3) in C3. rewrite (Ei C3), (En C3).
      assert (N8 : is_word [105; 110; 102; 105; 110; 105; 116; 121] s = false).
      { destruct (is_word [105; 110; 102; 105; 110; 105; 116; 121] s) eqn:W; [|reflexivity]. apply word_len in W. rewrite C3 in W. discriminate. }
      rewrite N8. destruct (is_word [105; 110; 102] s) eqn:W1.
      * split; [intros [= <-]; left; auto|]. intros [[_ ->]|[W2 _]]; [reflexivity|].
        destruct s as [|c0 s]; [discriminate|]. cbn [is_word] in W1, W2. apply andb_true_iff in W1, W2. destruct W1 as [W1 _], W2 as [W2 _].
        unfold same_letter in W1, W2. apply orb_true_iff in W1, W2. rewrite !N.eqb_eq in W1, W2. lia.
      * destruct (is_word [110; 97; 110] s) eqn:W2.
        -- split; [intros [= <-]; right; auto|]. intros [[[|] _]|[_ ->]]; [discriminate|discriminate|reflexivity].
        -- split; [discriminate|]. intros [[[|] _]|[? _]]; discriminate.
    + apply N.eqb_neq in C3. split; [discriminate|].
      intros [[[W|W] _]|[W _]]; apply word_len in W; apply len_lenN in W; cbn in W; congruence.
Qed.

Lemma word_no_number s : is_word [105; 110; 102] s = true \/ is_word [105; 110; 102; 105; 110; 105; 116; 121] s = true \/ is_word [110; 97; 110] s = true ->
  exists c r, s = c :: r /\ c <> 45 /\ c <> 43 /\ c <> 46 /\ is_digit c = false.
Proof.
  intro H. destruct s as [|c r]; [destruct H as [|[|]]; discriminate|]. exists c, r. split; [reflexivity|].
  assert (C : c = 105 \/ c = 73 \/ c = 110 \/ c = 78).
  { destruct H as [H|[H|H]]; cbn [is_word] in H; apply andb_true_iff in H; destruct H as [H _]; unfold same_letter in H;
      apply orb_true_iff in H; rewrite !N.eqb_eq in H; cbn in H; tauto. }
  destruct C as [->|[->|[->| ->]]]; repeat split; (discriminate || reflexivity).
Qed.

Theorem float_special F sg s b : std F -> sg = [] \/ sg = [43] \/ sg = [45] -> special (r_bin F) s b ->
  json_decode_float F (sg ++ s) = Ok (signed (r_bin F) (if list_eq_dec N.eq_dec sg [45] then true else false) b, []).
Proof.
  intros HF Hsg Hs.
  destruct (word_no_number s) as (c & r & E & N1 & N2 & N3 & N4). { destruct Hs as [[[?|?] _]|[? _]]; tauto. }
  assert (Hn : s <> []) by (rewrite E; discriminate).
  assert (P : parse_partial_number s = Ok None).
  { destruct (parse_none_or s Hn) as (ds & fs & sf & r2 & E1 & HM & [[_ P]|(Hne & _)]); [exact P|exfalso].
    apply Hne. destruct HM as (H1 & H2 & H3 & H4). rewrite E in E1. destruct ds as [|x ds].
    - cbn [app] in E1. destruct H4 as [->|(-> & -> & _)]; [|reflexivity]. cbn [app] in E1. congruence.
    - cbn [app] in E1. apply digs_cons in H1. destruct H1 as [H1 _]. congruence. }
  apply inf_nan_ok in Hs.
  assert (D : forall neg : bool, (let* x := parse_partial_number s in match x with
      | None => match parse_inf_nan (r_bin F) s with Some b => Ok (Some (negate_float (r_bin F) neg b, @nil N)) | None => Ok None end
      | Some _ => Ok None end) = Ok (Some (signed (r_bin F) neg b, []))).
  { intro neg. rewrite P. cbn [bind]. rewrite Hs, neg_signed. reflexivity. }
  unfold json_decode_float.
  assert (G : dec2flt F (sg ++ s) = Ok (Some (signed (r_bin F) (if list_eq_dec N.eq_dec sg [45] then true else false) b, []))); [|rewrite G; reflexivity].
  unfold dec2flt. destruct Hsg as [->|[->| ->]].
  - cbn [app]. rewrite E. cbn [list_eq_dec]. replace (c =? 45) with false by (symmetry; apply N.eqb_neq; assumption).
    replace (c =? 43) with false by (symmetry; apply N.eqb_neq; assumption). cbn [orb]. rewrite <- E. rewrite P. cbn [bind]. rewrite Hs, neg_signed. reflexivity.
  - cbn [app]. change (43 =? 45) with false. change (43 =? 43) with true. cbn [orb]. rewrite E at 1. rewrite P. cbn [bind]. rewrite Hs, neg_signed. reflexivity.
  - cbn [app]. change (45 =? 45) with true. cbn [orb]. rewrite E at 1. rewrite P. cbn [bind]. rewrite Hs, neg_signed. reflexivity.
Qed.

(** ** Everything that is accepted *)
Lemma scan_only r2 e' r3 : scan r2 = Some (e', r3) -> exists e se, r2 = se ++ r3 /\ expo false e se /\ sees e e'.
Proof.
  unfold scan. destruct r2 as [|c r]; [intros [= <- <-]; exists 0%Z, []; split; [reflexivity|]; split; [left; auto|split; [auto|lia]]|].
  destruct ((c =? 101) || (c =? 69)) eqn:C; [|intros [= <- <-]; exists 0%Z, []; split; [reflexivity|]; split; [left; auto|split; [auto|lia]]].
  unfold parse_scientific.
  assert (M : exists sg r', (match r with c :: r0 => (c =? 45, if (c =? 45) || (c =? 43) then r0 else r) | [] => (false, r) end) =
    ((if list_eq_dec N.eq_dec sg [45] then true else false), r') /\ r = sg ++ r' /\ (sg = [] \/ sg = [43] \/ sg = [45])).
  { destruct r as [|x r0]; [exists [], []; auto|]. destruct (x =? 45) eqn:C1; [apply N.eqb_eq in C1; subst; exists [45], r0; auto|].
    destruct (x =? 43) eqn:C2; [apply N.eqb_eq in C2; subst; exists [43], r0; auto|exists [], (x :: r0); auto]. }
  destruct M as (sg & r' & M & Er & Hsg). unfold bytes in *. rewrite M. clear M. intro H.
  destruct (span_split r') as (S1 & S2 & S3). destruct (span_digits r') as [ds r4] eqn:Sp. cbn [fst snd] in *.
  destruct ds as [|x0 ds0] eqn:Ed; [discriminate|]. rewrite <- Ed in *.
  assert (H' : Some ((if (if list_eq_dec N.eq_dec sg [45] then true else false) then (- fold_left exp_step ds 0)%Z else fold_left exp_step ds 0%Z), r4) = Some (e', r3)).
  { rewrite <- H. rewrite Ed. reflexivity. }
  assert (Nd : ds <> []) by (rewrite Ed; discriminate). clear H Ed x0 ds0 Sp. injection H' as He <-.
  exists (z_of (if list_eq_dec N.eq_dec sg [45] then true else false) (JsonNumSpec.value ds)), (c :: sg ++ ds).
  split; [rewrite Er, S1; cbn [app]; rewrite <- app_assoc; reflexivity|]. split.
  - right. exists c, sg, ds. apply orb_true_iff in C. rewrite !N.eqb_eq in C. split; [exact C|]. split; [exact Hsg|].
    split; [apply digit_digs, S2|]. split; [tauto|]. split; reflexivity.
  - pose proof (exp_fold ds 0 ltac:(lia)) as [E1 E2]. rewrite Z.mul_0_l, Z.add_0_l in E1, E2.
    rewrite value_nm. set (E := fold_left exp_step ds 0%Z) in *. clearbody E. unfold z_of, sees. 
    destruct (if list_eq_dec N.eq_dec sg [45] then true else false); subst e'; repeat split; lia.
Qed.

Theorem float_only F bs x rest : std F -> json_decode_float F bs = Ok (x, rest) ->
  exists sg s b, bs = sg ++ s ++ rest /\ (sg = [] \/ sg = [43] \/ sg = [45]) /\ x = signed (r_bin F) (if list_eq_dec N.eq_dec sg [45] then true else false) b /\
    ((rest = [] /\ special (r_bin F) s b) \/ 
     exists ds fs e, loose ds fs e s /\ (moderate ds fs e -> rounds_to (r_bin F) (decimal_value ds fs e) b)).
Proof.
  intros HF H. unfold json_decode_float in H.
  assert (Ho : dec2flt F bs = Ok (Some (x, rest))).
  { destruct (dec2flt F bs) as [[y|]| |]; cbn [bind] in H; try discriminate. injection H as ->. reflexivity. }
  clear H.
  destruct bs as [|c r]; [discriminate|].
  set (sg := if (c =? 45) || (c =? 43) then [c] else []). set (s := if (c =? 45) || (c =? 43) then r else c :: r).
  assert (E : c :: r = sg ++ s). { unfold sg, s. destruct ((c =? 45) || (c =? 43)); reflexivity. }
  assert (Hsg : sg = [] \/ sg = [43] \/ sg = [45]).
  { unfold sg. destruct (c =? 45) eqn:C1; [apply N.eqb_eq in C1; subst; right; right; reflexivity|].
      destruct (c =? 43) eqn:C2; [apply N.eqb_eq in C2; subst; right; left; reflexivity|left; reflexivity]. }
  assert (Neg : (if list_eq_dec N.eq_dec sg [45] then true else false) = (c =? 45)).
  { unfold sg. destruct (c =? 45) eqn:C1; [apply N.eqb_eq in C1; subst; reflexivity|].
    destruct (c =? 43) eqn:C2; [apply N.eqb_eq in C2; subst; reflexivity|reflexivity]. }
  destruct s as [|c0 s0] eqn:Es.
  { unfold dec2flt in Ho. fold s in Ho. rewrite Es in Ho. discriminate. }
  rewrite <- Es in *.
  assert (Sn : s <> []) by (rewrite Es; discriminate).
  destruct (parse_none_or s Sn) as (ds & fs & sf & r2 & E1 & HM & [[_ Hp]|(Hne & e' & r3 & Sc)]).
  - unfold dec2flt in Ho. fold s in Ho. rewrite Es in Ho at 1. unfold bytes in *. rewrite Hp in Ho. cbn [bind] in Ho.
    destruct (parse_inf_nan (r_bin F) s) as [b|] eqn:Pi; [|discriminate]. injection Ho as <- <-.
    apply inf_nan_ok in Pi. exists sg, s, b. rewrite app_nil_r. split; [exact E|]. split; [assumption|].
    split; [rewrite Neg, neg_signed; reflexivity|]. left. auto.
  - destruct (dec2flt_ok F ds fs sf r2 e' r3 sg HF HM Hne Sc Hsg) as (b & Db & Rb).
    rewrite <- E1, <- E in Db. rewrite Db in Ho. injection Ho as <- <-.
    destruct (scan_only r2 e' r3 Sc) as (e & se & Er & He & Se).
    exists sg, (ds ++ sf ++ se), b. split; [rewrite E, E1, Er, <- !app_assoc; reflexivity|]. split; [assumption|].
    split; [apply neg_signed|]. right. exists ds, fs, e.
    destruct HM as (H1 & H2 & H3 & H4). split.
    + exists sf, se. split; [apply digit_digs, H1|]. split; [|auto].
      destruct H4 as [->|(-> & -> & _)]; [right; split; [apply digit_digs, H2|auto]|left; auto].
    + intro Hm. rewrite dv_value. apply (sees_rounds F ds fs e e'); [assumption|apply digs_app; auto|assumption|assumption|assumption].
Qed.
