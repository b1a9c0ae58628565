(** Facts about the decimals of dec2flt: lists of digits, and shifting them by powers of two. *)
From Verif Require Import Base BaseFacts FloatSpec Dec2fltTable Dec2flt FloatFacts FloatFast.
From Coq Require Import QArith Lqa Qpower.
From Coq Require Import Lia.
Local Open Scope N_scope.

Definition step10 (a d : N) : N := 10 * a + d.
Definition num (ds : list N) : N := fold_left step10 ds 0.
Definition digits_ok (ds : list N) : Prop := Forall (fun d => d < 10) ds.
Definition hd_ok (ds : list N) : Prop := match ds with [] => False | x :: _ => 0 < x end.
Definition dval (ds : list N) (p : Z) : Q := (iz (num ds) * 10 ^ (p - Z.of_nat (length ds)))%Q.

Lemma p10pos n : 0 < 10 ^ n. Proof. apply N.neq_0_lt_0, N.pow_nonzero. lia. Qed.

Lemma fold_num ds : forall a, fold_left step10 ds a = a * 10 ^ lenN ds + num ds.
Proof.
  induction ds as [|d ds IH]; intro a; unfold num; cbn [fold_left]; [unfold lenN; cbn; lia|].
  rewrite IH, (IH (step10 0 d)), lenN_cons. unfold step10. replace (1 + lenN ds) with (N.succ (lenN ds)) by lia. rewrite N.pow_succ_r'. unfold num. lia.
Qed.
Lemma num_cons d ds : num (d :: ds) = d * 10 ^ lenN ds + num ds.
Proof. unfold num at 1. cbn [fold_left]. rewrite fold_num. unfold step10. lia. Qed.
Lemma num_app a b : num (a ++ b) = num a * 10 ^ lenN b + num b.
Proof. unfold num at 1. rewrite fold_left_app. fold (num a). apply fold_num. Qed.
Lemma num_snoc a d : num (a ++ [d]) = num a * 10 + d.
Proof. rewrite num_app. unfold num at 2. cbn. unfold step10, lenN. cbn. lia. Qed.
Lemma num_lt ds : digits_ok ds -> num ds < 10 ^ lenN ds.
Proof.
  induction 1 as [|d ds H _ IH]; [reflexivity|]. rewrite num_cons, lenN_cons.
  replace (1 + lenN ds) with (N.succ (lenN ds)) by lia. rewrite N.pow_succ_r'. nia.
Qed.
Lemma num_ge ds : hd_ok ds -> 10 ^ lenN ds <= 10 * num ds.
Proof.
  destruct ds as [|d ds]; [contradiction|]. cbn [hd_ok]. intro H. rewrite num_cons, lenN_cons.
  replace (1 + lenN ds) with (N.succ (lenN ds)) by lia. rewrite N.pow_succ_r'. nia.
Qed.
Lemma num_pos ds : hd_ok ds -> 0 < num ds.
Proof. intro H. pose proof (num_ge ds H). pose proof (p10pos (lenN ds)). lia. Qed.
Lemma hd_of_num ds : digits_ok ds -> ds <> [] -> 10 ^ lenN ds <= 10 * num ds -> hd_ok ds.
Proof.
  intros H N0 L. destruct ds as [|d ds]; [congruence|]. cbn [hd_ok].
  destruct (N.eq_dec d 0) as [->|]; [exfalso|lia]. rewrite num_cons, lenN_cons in L.
  replace (1 + lenN ds) with (N.succ (lenN ds)) in L by lia. rewrite N.pow_succ_r' in L.
  inversion H; subst. pose proof (num_lt ds ltac:(assumption)). lia.
Qed.
Lemma digits_app a b : digits_ok (a ++ b) <-> digits_ok a /\ digits_ok b.
Proof. apply Forall_app. Qed.

(** ** The value of a list of digits *)
Lemma lenZ (ds : list N) : Z.of_nat (length ds) = Z.of_N (lenN ds).
Proof. unfold lenN. lia. Qed.
Lemma dval_pos ds p : hd_ok ds -> (0 < dval ds p)%Q.
Proof. intro H. unfold dval. apply Qmult_lt_0_compat; [apply iz_pos, num_pos, H|apply q10pos]. Qed.
Lemma dval_lt ds p : digits_ok ds -> (dval ds p < 10 ^ p)%Q.
Proof.
  intro H. unfold dval. rewrite lenZ.
  apply Qlt_le_trans with (iz (10 ^ lenN ds) * 10 ^ (p - Z.of_N (lenN ds)))%Q.
  - apply Qmult_lt_r; [apply q10pos|]. apply iz_lt, num_lt, H.
  - rewrite iz_10pow, <- q10plus. replace (Z.of_N (lenN ds) + (p - Z.of_N (lenN ds)))%Z with p by lia. apply Qle_refl.
Qed.
Lemma dval_ge ds p : hd_ok ds -> (10 ^ (p - 1) <= dval ds p)%Q.
Proof.
  intro H. unfold dval. rewrite lenZ. pose proof (num_ge ds H) as G.
  apply iz_le in G. rewrite iz_10pow, iz_mul in G. change (iz 10) with 10%Q in G.
  replace (p - 1)%Z with (Z.of_N (lenN ds) + (-1) + (p - Z.of_N (lenN ds)))%Z by lia.
  rewrite q10plus. apply Qmult_le_compat_r; [|apply Qlt_le_weak, q10pos].
  rewrite q10plus. change (10 ^ (-1))%Q with (1 # 10)%Q. lra.
Qed.
Lemma dval_app a b p : (dval (a ++ b) p == dval a p + dval b (p - Z.of_nat (length a)))%Q.
Proof.
  unfold dval. rewrite num_app, app_length, iz_add, iz_mul, iz_10pow, Nat2Z.inj_add, !lenZ.
  replace (p - Z.of_N (lenN a))%Z with (Z.of_N (lenN b) + (p - (Z.of_N (lenN a) + Z.of_N (lenN b))))%Z at 1 by lia.
  rewrite q10plus.
  replace (p - Z.of_N (lenN a) - Z.of_N (lenN b))%Z with (p - (Z.of_N (lenN a) + Z.of_N (lenN b)))%Z by lia. ring.
Qed.
Lemma dval_nonneg ds p : (0 <= dval ds p)%Q.
Proof. unfold dval. apply Qmult_le_0_compat; [apply iz_nonneg|apply Qlt_le_weak, q10pos]. Qed.
Lemma num_zero ds : existsb (fun x => 0 <? x) ds = false -> num ds = 0.
Proof.
  induction ds as [|d ds IH]; [reflexivity|]. cbn [existsb]. rewrite orb_false_iff. intros [H1 H2].
  apply N.ltb_ge in H1. rewrite num_cons, IH by assumption. nia.
Qed.
Lemma num_nonzero ds : existsb (fun x => 0 <? x) ds = true -> 0 < num ds.
Proof.
  induction ds as [|d ds IH]; [discriminate|]. cbn [existsb]. rewrite orb_true_iff. intros [H|H].
  - apply N.ltb_lt in H. rewrite num_cons. pose proof (p10pos (lenN ds)). nia.
  - rewrite num_cons. specialize (IH H). lia.
Qed.

(** Trailing zeros do not matter. *)
Lemma trim_spec ds : exists k, ds = trim ds ++ repeat 0 k.
Proof.
  induction ds as [|d ds [k IH]]; [exists 0%nat; reflexivity|]. cbn [trim]. destruct (trim ds) as [|x r] eqn:E.
  - cbn [app] in IH. destruct (d =? 0) eqn:D.
    + apply N.eqb_eq in D. exists (S k). cbn. rewrite D, <- IH. reflexivity.
    + exists k. cbn. rewrite IH at 1. reflexivity.
  - exists k. rewrite IH at 1. reflexivity.
Qed.
Lemma num_repeat0 k : num (repeat 0 k) = 0.
Proof. apply num_zero. induction k; [reflexivity|cbn; assumption]. Qed.
Lemma dval_trim ds p : (dval (trim ds) p == dval ds p)%Q.
Proof.
  destruct (trim_spec ds) as [k E]. rewrite E at 2. rewrite dval_app. unfold dval at 3. rewrite num_repeat0.
  change (iz 0) with 0%Q. ring.
Qed.
Lemma trim_digits ds : digits_ok ds -> digits_ok (trim ds).
Proof. intro H. destruct (trim_spec ds) as [k E]. rewrite E in H. apply digits_app in H. tauto. Qed.
Lemma trim_hd ds : hd_ok ds -> hd_ok (trim ds).
Proof.
  destruct ds as [|d ds]; [contradiction|]. cbn [hd_ok trim]. intro H. destruct (trim ds); [|assumption].
  destruct (d =? 0) eqn:D; [apply N.eqb_eq in D; lia|assumption].
Qed.
Lemma trim_len ds : (length (trim ds) <= length ds)%nat.
Proof. destruct (trim_spec ds) as [k E]. rewrite E at 2. rewrite app_length. lia. Qed.
Lemma trim_last ds : trim ds <> [] -> last (trim ds) 0 <> 0.
Proof.
  induction ds as [|d ds IH]; [intro C; exfalso; apply C; reflexivity|]. cbn [trim]. destruct (trim ds) as [|x r] eqn:E.
  - destruct (d =? 0) eqn:D; [congruence|]. apply N.eqb_neq in D. intros _. cbn. assumption.
  - intros _. cbn [last]. change (match r with [] => x | _ :: _ => last r 0 end) with (last (x :: r) 0). apply IH. discriminate.
Qed.

(** ** Shifting to the left *)
Lemma left_loop_ok shift rds : shift <= 60 -> digits_ok rds -> forall n out, n < 2 ^ shift ->
  exists n' pre, left_loop shift rds n out = Ok (n', pre ++ out) /\ length pre = length rds /\ digits_ok pre /\ n' < 2 ^ shift /\
    n' * 10 ^ lenN pre + num pre = num (rev rds) * 2 ^ shift + n.
Proof.
  intros Hs. assert (P60 : 2 ^ shift <= 2 ^ 60) by (apply N.pow_le_mono_r; lia).
  induction 1 as [|d rds Hd _ IH]; intros n out Hn; cbn [left_loop].
  - exists n, []. repeat split; try assumption; [constructor|]. unfold lenN, num. cbn. lia.
  - assert (L : n + d * 2 ^ shift < 10 * 2 ^ shift) by nia.
    assert (Eu : u64 (n + d * 2 ^ shift) = Ok (n + d * 2 ^ shift)).
    { unfold u64. replace (n + d * 2 ^ shift <? 2 ^ 64) with true; [reflexivity|]. symmetry. apply N.ltb_lt.
      eapply N.lt_le_trans; [exact L|]. apply N.le_trans with (10 * 2 ^ 60); [lia|vm_compute; discriminate]. }
    rewrite Eu. cbn [bind]. set (n1 := n + d * 2 ^ shift) in *.
    destruct (IH (n1 / 10) (n1 mod 10 :: out)) as (n' & pre & E & E2 & E3 & E4 & E5).
    { apply N.div_lt_upper_bound; lia. }
    exists n', (pre ++ [n1 mod 10]). split; [rewrite E, <- app_assoc; reflexivity|].
    split; [rewrite app_length, E2; cbn; lia|].
    split; [apply digits_app; split; [assumption|]; constructor; [apply N.mod_lt; lia|constructor]|].
    split; [assumption|].
    cbn [rev]. rewrite !num_snoc, lenN_app. change (lenN [n1 mod 10]) with 1. rewrite N.pow_add_r, N.pow_1_r.
    pose proof (N.div_mod n1 10 ltac:(lia)) as D. subst n1. nia.
Qed.

Lemma left_rest_ok : forall fuel n out, n < 10 ^ N.of_nat fuel ->
  exists pre, left_rest (S fuel) n out = Ok (pre ++ out) /\ digits_ok pre /\ num pre = n /\ (0 < n -> hd_ok pre) /\ (n = 0 -> pre = []).
Proof.
  induction fuel as [|fuel IH]; intros n out Hn.
  - cbn in Hn. assert (n = 0) by lia. subst. exists []. repeat split; [constructor|lia].
  - change (left_rest (S (S fuel)) n out) with (if n =? 0 then Ok out else left_rest (S fuel) (n / 10) (n mod 10 :: out)).
    destruct (n =? 0) eqn:E.
    + apply N.eqb_eq in E. subst. exists []. repeat split; [constructor|lia].
    + apply N.eqb_neq in E. destruct (IH (n / 10) (n mod 10 :: out)) as (pre & E1 & E2 & E3 & E4 & E5).
      { apply N.div_lt_upper_bound; [lia|]. rewrite Nat2N.inj_succ, N.pow_succ_r' in Hn. assumption. }
      exists (pre ++ [n mod 10]). split; [rewrite E1, <- app_assoc; reflexivity|].
      split; [apply digits_app; split; [assumption|]; constructor; [apply N.mod_lt; lia|constructor]|].
      pose proof (N.div_mod n 10 ltac:(lia)) as D.
      split; [rewrite num_snoc, E3; lia|]. split; [|lia]. intros _.
      destruct (N.eq_dec (n / 10) 0) as [Z|NZ].
      * rewrite (E5 Z). cbn. lia.
      * specialize (E4 ltac:(lia)). destruct pre; [contradiction|assumption].
Qed.

Lemma digits_count out x k : digits_ok out -> hd_ok out -> num out = x -> 10 ^ k <= 10 * x -> x < 10 ^ k -> lenN out = k.
Proof.
  intros H1 H2 E L1 L2. pose proof (num_lt out H1) as A1. pose proof (num_ge out H2) as A2. rewrite E in *.
  assert (B1 : 10 ^ k < 10 ^ (N.succ (lenN out))) by (rewrite N.pow_succ_r'; lia).
  assert (B2 : 10 ^ lenN out < 10 ^ (N.succ k)) by (rewrite N.pow_succ_r'; lia).
  apply N.pow_lt_mono_r_iff in B1, B2; lia.
Qed.

(** The table of the number of new digits *)
Fixpoint suffixes_pos (l : list N) : bool := match l with [] => true | _ :: r => (0 <? num l) && suffixes_pos r end.
Definition pow5_of (xa xb : N) : list N := firstn (N.to_nat (xb mod 2 ^ 11) - N.to_nat (xa mod 2 ^ 11)) (skipn (N.to_nat (xa mod 2 ^ 11)) TABLE_POW5).
Definition row_ok (s : nat) : bool :=
  match nth_error TABLE s, nth_error TABLE (s + 1) with
  | Some xa, Some xb =>
      let P := pow5_of xa xb in
      negb ((N.to_nat (xb mod 2 ^ 11) <? N.to_nat (xa mod 2 ^ 11))%nat || (length TABLE_POW5 <? N.to_nat (xa mod 2 ^ 11))%nat) &&
      forallb (fun d => d <? 10) P && (num P =? 5 ^ N.of_nat s) && suffixes_pos P && (10 ^ lenN P <=? 10 * num P) &&
      (N.of_nat s + 1 =? lenN P + xa / 2 ^ 11) && (1 <=? xa / 2 ^ 11)
  | _, _ => false
  end.
Lemma rows_checked : forallb row_ok (seq 1 60) = true.
Proof. vm_compute. reflexivity. Qed.

Lemma below_spec P : digits_ok P -> suffixes_pos P = true -> forall ds, digits_ok ds ->
  (below ds P = true <-> num ds * 10 ^ lenN P < num P * 10 ^ lenN ds).
Proof.
  induction 1 as [|p P Hp HP IH]; intros HS ds Hds.
  - replace (below ds []) with false by (destruct ds; reflexivity). split; [discriminate|]. unfold num at 2. cbn. lia.
  - cbn [suffixes_pos] in HS. apply andb_true_iff in HS. destruct HS as [HS1 HS2]. apply N.ltb_lt in HS1.
    destruct Hds as [|d ds Hd Hds]; cbn [below].
    + split; [|reflexivity]. intros _. change (num []) with 0. change (lenN []) with 0. rewrite N.pow_0_r. lia.
    + specialize (IH HS2 ds Hds). rewrite !num_cons, !lenN_cons in *.
      replace (1 + lenN P) with (N.succ (lenN P)) by lia. replace (1 + lenN ds) with (N.succ (lenN ds)) by lia.
      rewrite !N.pow_succ_r'.
      pose proof (num_lt P HP) as L1. pose proof (num_lt ds Hds) as L2.
      pose proof (p10pos (lenN P)) as Q1. pose proof (p10pos (lenN ds)) as Q2.
      set (a := 10 ^ lenN ds) in *. set (b := 10 ^ lenN P) in *. set (x := num ds) in *. set (y := num P) in *.
      clearbody a b x y. clear HS1.
      destruct (d =? p) eqn:E.
      * apply N.eqb_eq in E. subst d. rewrite IH.
        replace ((p * a + x) * (10 * b)) with (p * a * b * 10 + 10 * (x * b)) by ring.
        replace ((p * b + y) * (10 * a)) with (p * a * b * 10 + 10 * (y * a)) by ring. lia.
      * apply N.eqb_neq in E. rewrite N.ltb_lt. split; intro G.
        -- assert (G1 : (d * a + x) * (10 * b) < ((d + 1) * a) * (10 * b)) by (apply N.mul_lt_mono_pos_r; lia).
           assert (G2 : ((d + 1) * a) * (10 * b) <= (p * a) * (10 * b)) by (apply N.mul_le_mono_r, N.mul_le_mono_r; lia).
           replace ((p * b + y) * (10 * a)) with (p * a * (10 * b) + 10 * (y * a)) by ring. lia.
        -- destruct (N.lt_ge_cases d p) as [|C]; [assumption|exfalso].
           assert (G1 : (p * b + y) * (10 * a) < ((p + 1) * b) * (10 * a)) by (apply N.mul_lt_mono_pos_r; lia).
           assert (G2 : ((p + 1) * b) * (10 * a) <= (d * b) * (10 * a)) by (apply N.mul_le_mono_r, N.mul_le_mono_r; lia).
           replace ((d * a + x) * (10 * b)) with (d * b * (10 * a) + 10 * (x * b)) in G by ring. lia.
Qed.

Lemma new_digits_ok ds shift : digits_ok ds -> hd_ok ds -> 1 <= shift <= 60 ->
  exists k, new_digits ds shift = Ok k /\
    10 ^ (lenN ds + k) <= 10 * (num ds * 2 ^ shift) /\ num ds * 2 ^ shift < 10 ^ (lenN ds + k).
Proof.
  intros H1 H2 Hs. pose proof rows_checked as R. rewrite forallb_forall in R.
  specialize (R (N.to_nat shift)). rewrite in_seq in R. specialize (R ltac:(lia)). unfold row_ok in R.
  unfold new_digits. rewrite (N.mod_small shift) by lia.
  destruct (nth_error TABLE (N.to_nat shift)) as [xa|]; [|discriminate].
  destruct (nth_error TABLE (N.to_nat shift + 1)) as [xb|]; [|discriminate].
  cbv zeta in *. fold (pow5_of xa xb). set (P := pow5_of xa xb) in *. clearbody P. set (n := xa / 2 ^ 11) in *. clearbody n.
  rewrite !andb_true_iff, negb_true_iff, !N.eqb_eq, !N.leb_le in R. destruct R as [[[[[[R1 R2] R3] R4] R5] R6] R7].
  rewrite R1. rewrite N2Nat.id in *.
  assert (HP : digits_ok P). { apply Forall_forall. rewrite forallb_forall in R2. intros d Hd. apply N.ltb_lt, R2, Hd. }
  pose proof (below_spec P HP R4 ds H1) as BS. clear R4.
  pose proof (num_lt ds H1) as L1. pose proof (num_ge ds H2) as L2. pose proof (num_lt P HP) as L3. rewrite R3 in *.
  assert (E10 : num ds * 2 ^ shift * 5 ^ shift = num ds * 10 ^ shift).
  { rewrite <- N.mul_assoc, <- N.pow_mul_l. reflexivity. }
  assert (ES : 10 * 10 ^ shift = 10 ^ lenN P * 10 ^ n). { rewrite <- N.pow_succ_r', <- N.pow_add_r. f_equal. lia. }
  pose proof (p10pos (lenN P)) as Q1. pose proof (p10pos (lenN ds)) as Q2. pose proof (p10pos n) as Q3.
  assert (Q5 : 0 < 5 ^ shift) by (apply N.neq_0_lt_0, N.pow_nonzero; lia).
  set (D := num ds) in *. set (X := D * 2 ^ shift) in *. clearbody X.
  set (t := 10 ^ shift) in *. clearbody t. set (f := 5 ^ shift) in *. clearbody f.
  destruct (below ds P) eqn:B.
  - assert (BL : D * 10 ^ lenN P < f * 10 ^ lenN ds) by (apply BS; reflexivity). clear BS.
    replace (n =? 0) with false by (symmetry; apply N.eqb_neq; lia).
    exists (n - 1). split; [reflexivity|].
    assert (En : 10 ^ n = 10 * 10 ^ (n - 1)). { rewrite <- N.pow_succ_r'. f_equal. lia. }
    rewrite N.pow_add_r. rewrite En in *. set (u := 10 ^ (n - 1)) in *. clearbody u.
    set (a := 10 ^ lenN ds) in *. set (b := 10 ^ lenN P) in *. clearbody a b D.
    assert (Et : t = b * u) by lia. subst t. clear ES En. assert (Qu : 0 < u) by lia.
    split.
    + apply N.mul_le_mono_pos_r with f; [assumption|]. replace (10 * X * f) with (10 * (X * f)) by ring. rewrite E10.
      apply N.le_trans with (a * u * b); [apply N.mul_le_mono_l; lia|].
      replace (10 * (D * (b * u))) with (10 * D * (b * u)) by ring. replace (a * u * b) with (a * (b * u)) by ring.
      apply N.mul_le_mono_r. assumption.
    + apply N.mul_lt_mono_pos_r with f; [assumption|]. rewrite E10.
      replace (D * (b * u)) with (D * b * u) by ring. replace (a * u * f) with (f * a * u) by ring.
      apply N.mul_lt_mono_pos_r; assumption.
  - assert (BL : f * 10 ^ lenN ds <= D * 10 ^ lenN P).
    { destruct (N.le_gt_cases (f * 10 ^ lenN ds) (D * 10 ^ lenN P)) as [|C]; [assumption|]. apply BS in C. discriminate. }
    clear BS. exists n. split; [reflexivity|].
    rewrite N.pow_add_r. set (u := 10 ^ n) in *. clearbody u.
    set (a := 10 ^ lenN ds) in *. set (b := 10 ^ lenN P) in *. clearbody a b D.
    split.
    + apply N.mul_le_mono_pos_r with f; [assumption|]. replace (10 * X * f) with (10 * (X * f)) by ring. rewrite E10.
      replace (10 * (D * t)) with (D * (10 * t)) by ring. rewrite ES.
      replace (a * u * f) with (f * a * u) by ring. replace (D * (b * u)) with (D * b * u) by ring.
      apply N.mul_le_mono_r. assumption.
    + apply N.mul_lt_mono_pos_r with (10 * f); [lia|]. replace (X * (10 * f)) with (10 * (X * f)) by ring. rewrite E10.
      replace (10 * (D * t)) with (D * (10 * t)) by ring. rewrite ES.
      apply N.lt_le_trans with (a * (b * u)); [apply N.mul_lt_mono_pos_r; [apply N.mul_pos_pos; assumption|assumption]|].
      replace (a * u * (10 * f)) with (10 * f * (a * u)) by ring. replace (a * (b * u)) with (b * (a * u)) by ring.
      apply N.mul_le_mono_r. lia.
Qed.

(** What is kept of the digits [out] *)
Definition cut (out : list N) (p : Z) (t : bool) : big :=
  {| b_digits := trim (firstn MAX_DIGITS out); b_point := p; b_trunc := t || existsb (fun x => 0 <? x) (skipn MAX_DIGITS out) |}.
Definition bval (d : big) : Q := dval (b_digits d) (b_point d).

Theorem left_shift_ok d shift : digits_ok (b_digits d) -> hd_ok (b_digits d) -> 1 <= shift <= 60 ->
  exists out p, left_shift d shift = Ok (cut out p (b_trunc d)) /\ digits_ok out /\ hd_ok out /\
    (dval out p == bval d * 2 ^ Z.of_N shift)%Q.
Proof.
  intros H1 H2 Hs. unfold left_shift.
  destruct (new_digits_ok (b_digits d) shift H1 H2 Hs) as (k & E & B1 & B2).
  unfold bval. set (dp := b_point d). set (ds := b_digits d) in *. destruct ds as [|x r] eqn:Eds; [contradiction|]. rewrite <- Eds in *. clear Eds x r.
  rewrite E. cbn [bind].
  assert (Hrev : digits_ok (rev ds)) by (apply Forall_rev; assumption).
  destruct (left_loop_ok shift (rev ds) ltac:(lia) Hrev 0 [] (p2pos shift)) as (n & pre & E1 & E2 & E3 & E4 & E5).
  rewrite E1, app_nil_r. cbn [bind]. rewrite rev_involutive, N.add_0_r in E5.
  assert (Hn : n < 10 ^ N.of_nat 20).
  { eapply N.lt_le_trans; [exact E4|]. apply N.le_trans with (2 ^ 60); [apply N.pow_le_mono_r; lia|vm_compute; discriminate]. }
  destruct (left_rest_ok 20 n pre Hn) as (pre2 & F1 & F2 & F3 & F4 & F5). change (left_rest 21 n pre) with (left_rest (S 20) n pre).
  rewrite F1. cbn [bind].
  set (out := pre2 ++ pre).
  assert (O1 : digits_ok out) by (apply digits_app; split; assumption).
  assert (O2 : num out = num ds * 2 ^ shift) by (unfold out; rewrite num_app, F3; assumption).
  assert (Lp : lenN pre = lenN ds). { unfold lenN. rewrite E2, rev_length. reflexivity. }
  assert (O3 : hd_ok out).
  { unfold out. destruct (N.eq_dec n 0) as [Z|NZ].
    - rewrite (F5 Z). cbn [app]. rewrite Z, N.mul_0_l, N.add_0_l in E5. apply hd_of_num; [assumption| |].
      + intro C. subst pre. destruct ds; [contradiction|discriminate].
      + rewrite Lp, E5. pose proof (num_ge ds H2). pose proof (p2pos shift). nia.
    - specialize (F4 ltac:(lia)). destruct pre2; [contradiction|assumption]. }
  assert (O4 : lenN out = lenN ds + k) by (eapply digits_count; eassumption).
  rewrite O4, N.eqb_refl. cbn [negb].
  exists out, (dp + Z.of_N k)%Z. split; [destruct ds; [contradiction|reflexivity]|]. split; [assumption|]. split; [assumption|].
  unfold dval. rewrite O2, !lenZ, O4, iz_mul, iz_2pow.
  replace (dp + Z.of_N k - Z.of_N (lenN ds + k))%Z with (dp - Z.of_N (lenN ds))%Z by lia. ring.
Qed.

(** ** Shifting to the right *)
Lemma u64_ok shift x : shift <= 60 -> x < 10 * 2 ^ shift -> u64 x = Ok x.
Proof.
  intros H L. unfold u64. replace (x <? 2 ^ 64) with true; [reflexivity|]. symmetry. apply N.ltb_lt.
  eapply N.lt_le_trans; [exact L|]. apply N.le_trans with (10 * 2 ^ 60); [|vm_compute; discriminate].
  apply N.mul_le_mono_l, N.pow_le_mono_r; lia.
Qed.
Lemma div0 n shift : (n / 2 ^ shift =? 0) = (n <? 2 ^ shift).
Proof.
  pose proof (p2pos shift). apply eq_true_iff_eq. rewrite N.eqb_eq, N.ltb_lt. apply N.div_small_iff. lia.
Qed.

Lemma right_pad_ok shift : shift <= 60 -> forall f n read, 0 < n -> n < 10 * 2 ^ shift -> 2 ^ shift <= n * 10 ^ N.of_nat f ->
  exists k, right_pad (S f) shift n read = Ok (n * 10 ^ k, read + k) /\ 2 ^ shift <= n * 10 ^ k < 10 * 2 ^ shift.
Proof.
  intro Hs. induction f as [|f IH]; intros n read P L G.
  - cbn [right_pad]. cbn in G. rewrite N.mul_1_r in G. rewrite div0.
    replace (n <? 2 ^ shift) with false by (symmetry; apply N.ltb_ge; assumption).
    exists 0. rewrite N.pow_0_r, N.mul_1_r, N.add_0_r. auto.
  - change (right_pad (S (S f)) shift n read) with
      (if n / 2 ^ shift =? 0 then let* n' := u64 (n * 10) in right_pad (S f) shift n' (read + 1) else Ok (n, read)).
    rewrite div0. destruct (n <? 2 ^ shift) eqn:E.
    + apply N.ltb_lt in E. rewrite (u64_ok shift) by (try assumption; lia). cbn [bind].
      destruct (IH (n * 10) (read + 1)) as (k & E1 & E2); [lia|lia| |].
      { rewrite Nat2N.inj_succ, N.pow_succ_r' in G. lia. }
      exists (N.succ k). rewrite N.pow_succ_r'. rewrite E1. split; [|lia]. do 2 f_equal; lia.
    + apply N.ltb_ge in E. exists 0. rewrite N.pow_0_r, N.mul_1_r, N.add_0_r. auto.
Qed.

Lemma right_first_ok shift : shift <= 60 -> forall ds n read, digits_ok ds -> n < 10 * 2 ^ shift -> 0 < n * 10 ^ lenN ds + num ds ->
  exists n' ds' k read', right_first shift ds n read = Ok (Some (n', read', ds')) /\
    2 ^ shift <= n' < 10 * 2 ^ shift /\ digits_ok ds' /\
    n' * 10 ^ lenN ds' + num ds' = (n * 10 ^ lenN ds + num ds) * 10 ^ k /\
    (Z.of_N read' - Z.of_N read = Z.of_N (lenN ds) - Z.of_N (lenN ds') + Z.of_N k)%Z.
Proof.
  intro Hs. induction ds as [|d ds IH]; intros n read Hd L P; cbn [right_first]; rewrite div0; destruct (n <? 2 ^ shift) eqn:E.
  - change (num []) with 0 in *. change (lenN []) with 0 in *. rewrite N.pow_0_r in *.
    replace (n =? 0) with false by (symmetry; apply N.eqb_neq; lia).
    destruct (right_pad_ok shift Hs 20 n read) as (k & E1 & E2); [lia|lia| |].
    { apply N.le_trans with (2 ^ 60); [apply N.pow_le_mono_r; lia|].
      apply N.le_trans with (1 * 10 ^ N.of_nat 20); [vm_compute; discriminate|apply N.mul_le_mono_r; lia]. }
    change 21%nat with (S 20). rewrite E1. cbn [bind]. exists (n * 10 ^ k), [], k, (read + k).
    change (num []) with 0. change (lenN []) with 0. rewrite N.pow_0_r.
    split; [reflexivity|]. split; [lia|]. split; [constructor|]. split; lia.
  - apply N.ltb_ge in E. exists n, [], 0, read. split; [reflexivity|]. split; [lia|]. split; [constructor|]. rewrite N.pow_0_r. split; lia.
  - apply N.ltb_lt in E. inversion Hd as [|? ? Hd1 Hd2]; subst.
    rewrite (u64_ok shift) by (try assumption; lia). cbn [bind].
    rewrite num_cons, lenN_cons in *. replace (1 + lenN ds) with (N.succ (lenN ds)) in * by lia. rewrite N.pow_succ_r' in *.
    destruct (IH (10 * n + d) (read + 1)) as (n' & ds' & k & read' & E1 & E2 & E3 & E4 & E5); [assumption|lia|lia|].
    exists n', ds', k, read'. split; [assumption|]. split; [assumption|]. split; [assumption|]. split; [|lia].
    rewrite E4. f_equal. lia.
  - apply N.ltb_ge in E. exists n, (d :: ds), 0, read. split; [reflexivity|]. split; [lia|]. split; [assumption|]. rewrite N.pow_0_r. split; lia.
Qed.

Lemma right_loop_ok shift : shift <= 60 -> forall ds n, digits_ok ds -> n < 10 * 2 ^ shift ->
  exists n2 out, right_loop shift ds n = Ok (n2, out) /\ lenN out = lenN ds /\ digits_ok out /\ n2 < 10 * 2 ^ shift /\
    n * 10 ^ lenN ds + num ds = num out * 10 * 2 ^ shift + n2 /\
    (ds <> [] -> exists r, out = n / 2 ^ shift :: r) /\ (ds = [] -> n2 = n).
Proof.
  intro Hs. pose proof (p2pos shift) as P. induction ds as [|d ds IH]; intros n Hd L; cbn [right_loop].
  - exists n, []. split; [reflexivity|]. split; [reflexivity|]. split; [constructor|]. split; [assumption|].
    change (num []) with 0. change (lenN []) with 0. rewrite N.pow_0_r. split; [lia|]. split; [congruence|reflexivity].
  - inversion Hd as [|? ? Hd1 Hd2]; subst.
    assert (M : n mod 2 ^ shift < 2 ^ shift) by (apply N.mod_lt; lia).
    rewrite (u64_ok shift) by (try assumption; lia). cbn [bind].
    destruct (IH (10 * (n mod 2 ^ shift) + d)) as (n2 & out & E1 & E2 & E3 & E4 & E5 & E6 & E7); [assumption|lia|].
    rewrite E1. cbn [bind]. exists n2, (n / 2 ^ shift :: out). split; [reflexivity|].
    split; [rewrite !lenN_cons, E2; reflexivity|].
    split; [constructor; [apply N.div_lt_upper_bound; lia|assumption]|]. split; [assumption|].
    split; [|split; [intros _; eexists; reflexivity|discriminate]].
    rewrite !num_cons, lenN_cons, E2. replace (1 + lenN ds) with (N.succ (lenN ds)) by lia. rewrite N.pow_succ_r'.
    pose proof (N.div_mod n (2 ^ shift) ltac:(lia)) as D. set (q := n / 2 ^ shift) in *. set (r := n mod 2 ^ shift) in *.
    clearbody q r. subst n. set (p := 10 ^ lenN ds) in *. set (u := 2 ^ shift) in *. clearbody p u.
    rewrite N.mul_add_distr_r in E5. lia.
Qed.

Lemma right_rest_ok shift : shift <= 60 -> forall f n i, n < 10 * 2 ^ shift -> i <= shift -> (2 ^ i | n) -> (N.to_nat (shift - i) < f)%nat ->
  exists out, right_rest (S f) shift n = Ok out /\ digits_ok out /\ n * 10 ^ lenN out = num out * 10 * 2 ^ shift /\
    (n <> 0 -> exists r, out = n / 2 ^ shift :: r).
Proof.
  intro Hs. pose proof (p2pos shift) as P. induction f as [|f IH]; intros n i L Hi Dv Hf; [lia|].
  change (right_rest (S (S f)) shift n) with
    (if n =? 0 then Ok [] else let* n' := u64 (10 * (n mod 2 ^ shift)) in let* out := right_rest (S f) shift n' in Ok (n / 2 ^ shift :: out)).
  destruct (n =? 0) eqn:E.
  { apply N.eqb_eq in E. subst n. exists []. split; [reflexivity|]. split; [constructor|]. split; [reflexivity|congruence]. }
  apply N.eqb_neq in E.
  assert (M : n mod 2 ^ shift < 2 ^ shift) by (apply N.mod_lt; lia).
  pose proof (N.div_mod n (2 ^ shift) ltac:(lia)) as D.
  rewrite (u64_ok shift) by (try assumption; lia). cbn [bind].
  assert (IH' : exists out, right_rest (S f) shift (10 * (n mod 2 ^ shift)) = Ok out /\ digits_ok out /\
    10 * (n mod 2 ^ shift) * 10 ^ lenN out = num out * 10 * 2 ^ shift).
  { destruct (N.eq_dec i shift) as [->|Ni].
    - assert (Z : n mod 2 ^ shift = 0) by (apply N.mod_divide; [lia|assumption]). rewrite Z, N.mul_0_r.
      exists []. repeat split. constructor.
    - destruct (IH (10 * (n mod 2 ^ shift)) (N.succ i)) as (out & E1 & E2 & E3 & _); [lia|lia| |lia|eauto].
      assert (Dm : (2 ^ i | n mod 2 ^ shift)).
      { destruct Dv as [c Dv]. assert (Es : 2 ^ shift = 2 ^ (shift - i) * 2 ^ i) by (rewrite <- N.pow_add_r; f_equal; lia).
        exists (c mod 2 ^ (shift - i)). rewrite Dv, Es. rewrite N.mul_mod_distr_r; [reflexivity| |]; apply N.pow_nonzero; lia. }
      destruct Dm as [c ->]. exists (5 * c). rewrite N.pow_succ_r'. lia. }
  destruct IH' as (out & E1 & E2 & E3). rewrite E1. cbn [bind]. exists (n / 2 ^ shift :: out).
  split; [reflexivity|]. split; [constructor; [apply N.div_lt_upper_bound; lia|assumption]|]. split; [|intros _; eexists; reflexivity].
  rewrite num_cons, lenN_cons. replace (1 + lenN out) with (N.succ (lenN out)) by lia. rewrite N.pow_succ_r'.
  set (q := n / 2 ^ shift) in *. set (r := n mod 2 ^ shift) in *. clearbody q r. subst n.
  set (p := 10 ^ lenN out) in *. set (u := 2 ^ shift) in *. clearbody p u. lia.
Qed.

Theorem right_shift_ok d shift : digits_ok (b_digits d) -> hd_ok (b_digits d) -> 1 <= shift <= 60 ->
  exists out p, ((-2047 <= p)%Z -> right_shift d shift = Ok (cut out p (b_trunc d))) /\ digits_ok out /\ hd_ok out /\
    (dval out p == bval d * 2 ^ (- Z.of_N shift))%Q.
Proof.
  intros H1 H2 Hs. unfold right_shift, bval. set (dp := b_point d). set (ds := b_digits d) in *. clearbody ds.
  pose proof (p2pos shift) as P.
  destruct (right_first_ok shift ltac:(lia) ds 0 0 H1) as (n & ds' & k & read & E1 & E2 & E3 & E4 & E5); [lia|pose proof (num_pos ds H2); lia|].
  rewrite E1. cbn [bind]. rewrite N.mul_0_l, N.add_0_l in E4.
  destruct (right_loop_ok shift ltac:(lia) ds' n E3) as (n1 & out1 & F1 & F2 & F3 & F4 & F5 & F6 & F7); [lia|].
  destruct (right_rest_ok shift ltac:(lia) 65 n1 0 F4) as (out2 & G1 & G2 & G3 & G4); [lia| |lia|].
  { rewrite N.pow_0_r. apply N.divide_1_l. }
  set (out := out1 ++ out2). set (p := (dp - (Z.of_N read - 1))%Z).
  assert (Hh : hd_ok out).
  { assert (Q : 0 < n / 2 ^ shift).
    { destruct (N.eq_dec (n / 2 ^ shift) 0) as [Z|]; [|lia]. apply N.div_small_iff in Z; lia. }
    unfold out. destruct ds' as [|x r].
    - assert (out1 = []) as -> by (destruct out1; [reflexivity|rewrite lenN_cons in F2; change (lenN []) with 0 in F2; lia]).
      rewrite (F7 eq_refl) in *. destruct G4 as [r ->]; [lia|]. cbn. assumption.
    - destruct F6 as [r' ->]; [discriminate|]. cbn. assumption. }
  exists out, p. split; [|split; [|split; [assumption|]]].
  - intro Hp. replace (p <? -2047)%Z with false by (symmetry; apply Z.ltb_ge; assumption).
    rewrite F1. cbn [bind]. change 66%nat with (S 65). rewrite G1. reflexivity.
  - apply digits_app. split; assumption.
  - (* the value *)
    assert (V : num out * 10 * 2 ^ shift = num ds * 10 ^ k * 10 ^ lenN out2).
    { unfold out. rewrite num_app, <- E4, F5. rewrite (N.mul_add_distr_r _ n1), G3. ring. }
    unfold dval. rewrite !lenZ.
    assert (EP : (p - Z.of_N (lenN out) = (dp - Z.of_N (lenN ds)) + 1 - Z.of_N k - Z.of_N (lenN out2))%Z).
    { unfold p, out. rewrite lenN_app. lia. }
    rewrite EP.
    assert (VQ : (iz (num out) * 10 * 2 ^ Z.of_N shift == iz (num ds) * 10 ^ Z.of_N k * 10 ^ Z.of_N (lenN out2))%Q).
    { change 10%Q with (iz 10) at 1. rewrite <- !iz_10pow, <- iz_2pow, <- !iz_mul. rewrite V. reflexivity. }
    assert (X : (iz (num out) == iz (num ds) * 10 ^ Z.of_N k * 10 ^ Z.of_N (lenN out2) * (1 # 10) * 2 ^ (- Z.of_N shift))%Q).
    { rewrite <- VQ. assert (Y : (2 ^ Z.of_N shift * 2 ^ (- Z.of_N shift) == 1)%Q).
      { rewrite <- q2plus. replace (Z.of_N shift + - Z.of_N shift)%Z with 0%Z by lia. reflexivity. }
      setoid_replace (iz (num out) * 10 * 2 ^ Z.of_N shift * (1 # 10) * 2 ^ (- Z.of_N shift))%Q
        with (iz (num out) * (2 ^ Z.of_N shift * 2 ^ (- Z.of_N shift)))%Q by ring. rewrite Y. ring. }
    rewrite X. clear X VQ.
    assert (Y : (10 ^ Z.of_N k * 10 ^ Z.of_N (lenN out2) * (1 # 10) * 10 ^ (dp - Z.of_N (lenN ds) + 1 - Z.of_N k - Z.of_N (lenN out2)) ==
                 10 ^ (dp - Z.of_N (lenN ds)))%Q).
    { change (1 # 10)%Q with (10 ^ (-1))%Q. rewrite <- !q10plus.
      replace (Z.of_N k + Z.of_N (lenN out2) + -1 + (dp - Z.of_N (lenN ds) + 1 - Z.of_N k - Z.of_N (lenN out2)))%Z
        with (dp - Z.of_N (lenN ds))%Z by lia. reflexivity. }
    rewrite <- Y. ring.
Qed.
