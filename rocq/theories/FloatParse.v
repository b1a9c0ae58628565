(** What the parser of floating point numbers reads. *)
From Coq Require Import QArith Lqa Qpower.
From Coq Require Import Lia.
From Verif Require Import Base BaseFacts Utf8 FloatSpec Dec2flt FloatFacts FloatDigits FloatSlow FloatRound FloatSwar.
Local Open Scope N_scope.

Definition digs (ds : bytes) : Prop := forallb is_digit ds = true.
Definition dn (ds : bytes) : list N := map (fun c => c - 48) ds.
Definition nm (ds : bytes) : N := num (dn ds).
Definition stop (r : bytes) : Prop := match r with [] => True | c :: _ => is_digit c = false end.

Lemma digs_app a b : digs (a ++ b) <-> digs a /\ digs b.
Proof. unfold digs. rewrite forallb_app. apply andb_true_iff. Qed.
Lemma digs_cons c a : digs (c :: a) <-> is_digit c = true /\ digs a.
Proof. unfold digs. cbn [forallb]. apply andb_true_iff. Qed.
Lemma digs_ok ds : digs ds -> digits_ok (dn ds).
Proof.
  induction ds as [|c ds IH]; intro H; [apply Forall_nil|]. apply digs_cons in H. destruct H as [H1 H2]. apply digit_range in H1.
  cbn [dn map]. apply Forall_cons; [lia|apply IH, H2].
Qed.
Lemma lenN_dn ds : lenN (dn ds) = lenN ds. Proof. unfold lenN, dn. rewrite map_length. reflexivity. Qed.
Lemma nm_app a b : nm (a ++ b) = nm a * 10 ^ lenN b + nm b.
Proof. unfold nm, dn. rewrite map_app, num_app. fold (dn a) (dn b). rewrite lenN_dn. reflexivity. Qed.
Lemma nm_cons c a : nm (c :: a) = (c - 48) * 10 ^ lenN a + nm a.
Proof. unfold nm, dn. cbn [map]. rewrite num_cons. fold (dn a). rewrite lenN_dn. reflexivity. Qed.
Lemma nm_lt ds : digs ds -> nm ds < 10 ^ lenN ds.
Proof. intro H. apply digs_ok, num_lt in H. rewrite lenN_dn in H. exact H. Qed.
Lemma nm_zeros n : nm (repeat 48 n) = 0.
Proof. induction n as [|n IH]; [reflexivity|]. cbn [repeat]. rewrite nm_cons, IH. lia. Qed.

(** ** Spans *)
Lemma span_split s : s = fst (span_digits s) ++ snd (span_digits s) /\ digs (fst (span_digits s)) /\ stop (snd (span_digits s)).
Proof.
  induction s as [|c s IH]; [repeat split|]. cbn [span_digits]. destruct (is_digit c) eqn:D.
  - destruct (span_digits s) as [d r]. cbn [fst snd] in *. destruct IH as (IH1 & IH2 & IH3).
    split; [cbn; congruence|]. split; [|assumption]. apply digs_cons. auto.
  - cbn [fst snd]. repeat split. exact D.
Qed.
Lemma span_app ds s : digs ds -> span_digits (ds ++ s) = (ds ++ fst (span_digits s), snd (span_digits s)).
Proof.
  induction ds as [|c ds IH]; intro H; [cbn [app]; apply surjective_pairing|]. apply digs_cons in H. destruct H as [H1 H2].
  cbn [app span_digits]. rewrite H1, (IH H2). reflexivity.
Qed.
Lemma span_stop r : stop r -> span_digits r = ([], r).
Proof. destruct r as [|c r]; [reflexivity|]. cbn [stop span_digits]. intros ->. reflexivity. Qed.
Lemma span_exact ds r : digs ds -> stop r -> span_digits (ds ++ r) = (ds, r).
Proof. intros H1 H2. rewrite span_app, span_stop by assumption. cbn [fst snd]. rewrite app_nil_r. reflexivity. Qed.

(** ** Digits *)
Lemma step8 x n k p : ((x * p + n) mod 2 ^ 64 * k) mod 2 ^ 64 = ((x * p + n) * k) mod 2 ^ 64.
Proof. apply N.mul_mod_idemp_l. discriminate. Qed.
Lemma acc_mod x p n q m : ((x * p + n) mod 2 ^ 64 * q + m) mod 2 ^ 64 = (x * (p * q) + (n * q + m)) mod 2 ^ 64.
Proof. rewrite <- N.add_mod_idemp_l by discriminate. rewrite step8, N.add_mod_idemp_l by discriminate. f_equal. lia. Qed.

Definition unfold8 b0 b1 b2 b3 b4 b5 b6 b7 r x : eights (b0 :: b1 :: b2 :: b3 :: b4 :: b5 :: b6 :: b7 :: r) x =
  (if is_8digits (le [b0; b1; b2; b3; b4; b5; b6; b7])
   then eights r ((x * 100000000 + parse_8digits (le [b0; b1; b2; b3; b4; b5; b6; b7])) mod 2 ^ 64)
   else (b0 :: b1 :: b2 :: b3 :: b4 :: b5 :: b6 :: b7 :: r, x)) := eq_refl.

Lemma eights_ok : forall n s x, (length s <= n)%nat -> x < 2 ^ 64 ->
  exists ds r, s = ds ++ r /\ digs ds /\ eights s x = (r, (x * 10 ^ lenN ds + nm ds) mod 2 ^ 64).
Proof.
  induction n as [|n IH]; intros s x Hn Hx.
  - destruct s; [|cbn in Hn; lia]. exists [], []. repeat split. change (lenN []) with 0. change (nm []) with 0.
    rewrite N.pow_0_r, N.mul_1_r, N.add_0_r, N.mod_small by assumption. reflexivity.
  - assert (Z : forall s, exists ds r, s = ds ++ r /\ digs ds /\ (s, x) = (r, (x * 10 ^ lenN ds + nm ds) mod 2 ^ 64)).
    { intro s'. exists [], s'. repeat split. change (lenN []) with 0. change (nm []) with 0.
      rewrite N.pow_0_r, N.mul_1_r, N.add_0_r, N.mod_small by assumption. reflexivity. }
    destruct s as [|b0 [|b1 [|b2 [|b3 [|b4 [|b5 [|b6 [|b7 s]]]]]]]]; try (apply Z).
    rewrite unfold8.
    rewrite is_8digits_ok.
    destruct (forallb is_digit [b0; b1; b2; b3; b4; b5; b6; b7]) eqn:D; [|apply Z].
    rewrite parse_8digits_ok by assumption. fold (dn [b0; b1; b2; b3; b4; b5; b6; b7]). fold (nm [b0; b1; b2; b3; b4; b5; b6; b7]).
    set (q := [b0; b1; b2; b3; b4; b5; b6; b7]) in *.
    destruct (IH s ((x * 100000000 + nm q) mod 2 ^ 64)) as (ds & r & E1 & E2 & E3).
    { cbn [length] in Hn. lia. } { apply N.mod_lt. discriminate. }
    exists (q ++ ds), r. split; [rewrite E1; reflexivity|]. split; [apply digs_app; auto|]. rewrite E3. f_equal.
    rewrite acc_mod, nm_app, lenN_app, N.pow_add_r. reflexivity.
Qed.
Lemma ones_ok s : forall x, x < 2 ^ 64 ->
  ones s x = (snd (span_digits s), (x * 10 ^ lenN (fst (span_digits s)) + nm (fst (span_digits s))) mod 2 ^ 64).
Proof.
  induction s as [|c s IH]; intros x Hx; cbn [ones span_digits].
  - cbn [fst snd]. change (lenN []) with 0. change (nm []) with 0.
    rewrite N.pow_0_r, N.mul_1_r, N.add_0_r, N.mod_small by assumption. reflexivity.
  - destruct (is_digit c) eqn:D.
    + rewrite IH by (apply N.mod_lt; discriminate). destruct (span_digits s) as [d r]. cbn [fst snd]. f_equal.
      rewrite acc_mod, nm_cons, lenN_cons. replace (1 + lenN d) with (N.succ (lenN d)) by lia. rewrite N.pow_succ_r'. reflexivity.
    + cbn [fst snd]. change (lenN []) with 0. change (nm []) with 0.
      rewrite N.pow_0_r, N.mul_1_r, N.add_0_r, N.mod_small by assumption. reflexivity.
Qed.
Theorem try_parse_digits_ok ds r x : digs ds -> stop r -> x < 2 ^ 64 ->
  try_parse_digits (ds ++ r) x = (r, (x * 10 ^ lenN ds + nm ds) mod 2 ^ 64).
Proof.
  intros Hd Hr Hx. unfold try_parse_digits.
  destruct (eights_ok _ (ds ++ r) x (le_n _) Hx) as (d1 & r1 & E1 & E2 & E3). rewrite E3.
  rewrite ones_ok by (apply N.mod_lt; discriminate).
  pose proof (span_exact ds r Hd Hr) as S1. rewrite E1, (span_app d1 r1 E2) in S1. inversion S1 as [[S2 S3]]. rewrite S2, S3.
  f_equal. rewrite acc_mod. rewrite <- S2. rewrite nm_app, lenN_app, N.pow_add_r. reflexivity.
Qed.

Definition unfold_chunks b0 b1 b2 b3 b4 b5 b6 b7 r n : chunks (b0 :: b1 :: b2 :: b3 :: b4 :: b5 :: b6 :: b7 :: r) n =
  (if (n + 8 <? N.of_nat MAX_DIGITS) && is_8digits (le [b0; b1; b2; b3; b4; b5; b6; b7]) then
     let (d, r') := chunks r (n + 8) in (b0 :: b1 :: b2 :: b3 :: b4 :: b5 :: b6 :: b7 :: d, r')
   else ([], b0 :: b1 :: b2 :: b3 :: b4 :: b5 :: b6 :: b7 :: r)) := eq_refl.
Lemma chunks_ok : forall n s k, (length s <= n)%nat -> s = fst (chunks s k) ++ snd (chunks s k) /\ digs (fst (chunks s k)).
Proof.
  induction n as [|n IH]; intros s k Hn.
  - destruct s; [|cbn in Hn; lia]. split; reflexivity.
  - destruct s as [|b0 [|b1 [|b2 [|b3 [|b4 [|b5 [|b6 [|b7 s]]]]]]]]; try (split; reflexivity).
    rewrite unfold_chunks.
    rewrite is_8digits_ok.
    destruct (forallb is_digit [b0; b1; b2; b3; b4; b5; b6; b7]) eqn:D.
    2: { rewrite andb_false_r. split; reflexivity. }
    rewrite andb_true_r. destruct (k + 8 <? N.of_nat MAX_DIGITS); [|split; reflexivity].
    destruct (IH s (k + 8)) as [I1 I2]; [cbn [length] in Hn; lia|].
    destruct (chunks s (k + 8)) as [d r']. cbn [fst snd] in *. split; [rewrite I1; reflexivity|].
    change (digs ([b0; b1; b2; b3; b4; b5; b6; b7] ++ d)). apply digs_app. auto.
Qed.
Lemma chunks_span s k :
  let (f1, r1) := chunks s k in let (f2, r2) := span_digits r1 in span_digits s = (f1 ++ f2, r2).
Proof.
  destruct (chunks_ok _ s k (le_n _)) as [C1 C2]. destruct (chunks s k) as [f1 r1]. cbn [fst snd] in *.
  rewrite C1, span_app by assumption. destruct (span_digits r1). reflexivity.
Qed.

(** ** Leading zeros *)
Lemma zeros_split ds : exists a, ds = repeat 48 a ++ skip_zeros ds.
Proof.
  induction ds as [|c ds [a IH]]; [exists 0%nat; reflexivity|]. cbn [skip_zeros]. destruct (c =? 48) eqn:E.
  - apply N.eqb_eq in E. subst c. exists (S a). cbn [repeat app]. congruence.
  - exists 0%nat. reflexivity.
Qed.
Lemma skip_hd ds c r : skip_zeros ds = c :: r -> c <> 48.
Proof.
  induction ds as [|x ds IH]; [discriminate|]. cbn [skip_zeros]. destruct (x =? 48) eqn:E; [assumption|].
  apply N.eqb_neq in E. intro H. inversion H; subst. assumption.
Qed.
Lemma skip_digs ds : digs ds -> digs (skip_zeros ds).
Proof. intro H. destruct (zeros_split ds) as [a E]. rewrite E in H. apply digs_app in H. tauto. Qed.
Lemma skip_app ds r : skip_zeros (ds ++ r) = match skip_zeros ds with [] => skip_zeros r | x => x ++ r end.
Proof.
  induction ds as [|c ds IH]; [reflexivity|]. cbn [app skip_zeros]. destruct (c =? 48); [assumption|reflexivity].
Qed.
Lemma skip_stop r : stop r -> skip_zeros r = r.
Proof.
  destruct r as [|c r]; [reflexivity|]. cbn [stop skip_zeros]. intro H. destruct (c =? 48) eqn:E; [|reflexivity].
  apply N.eqb_eq in E. subst c. discriminate.
Qed.
Lemma nm_skip ds : nm (skip_zeros ds) = nm ds.
Proof. destruct (zeros_split ds) as [a E]. rewrite E at 2. rewrite nm_app, nm_zeros. lia. Qed.
Lemma nm_ge ds : digs ds -> skip_zeros ds = ds -> ds <> [] -> 10 ^ lenN ds <= 10 * nm ds.
Proof.
  intros H1 H2 H3. unfold nm. rewrite <- (lenN_dn ds). apply num_ge. destruct ds as [|c r]; [congruence|].
  apply skip_hd in H2. apply digs_cons in H1. destruct H1 as [H1 _]. apply digit_range in H1. cbn [dn map hd_ok]. lia.
Qed.
Lemma skip_idem ds : skip_zeros (skip_zeros ds) = skip_zeros ds.
Proof.
  destruct (skip_zeros ds) as [|c r] eqn:E; [reflexivity|]. cbn [skip_zeros]. apply skip_hd in E.
  replace (c =? 48) with false by (symmetry; apply N.eqb_neq; assumption). reflexivity.
Qed.

Lemma lead_le s : forall k, (lead s k <= k)%Z.
Proof. induction s as [|c s IH]; intro k; cbn [lead]; [lia|]. destruct ((c =? 46) || (c =? 48)); [|lia]. specialize (IH (k - Z.of_N (c - 47))%Z). lia. Qed.
Lemma lead_zeros a s : forall k, lead (repeat 48 a ++ s) k = lead s (k - Z.of_nat a).
Proof.
  induction a as [|a IH]; intro k; [cbn; f_equal; lia|]. cbn [repeat app lead N.eqb orb]. change (Pos.eqb 48 46 || Pos.eqb 48 48) with true. cbv iota.
  rewrite IH. f_equal. lia.
Qed.
Lemma lead_digit c s k : is_digit c = true -> c <> 48 -> lead (c :: s) k = k.
Proof.
  intros H1 H2. apply digit_range in H1. cbn [lead]. replace (c =? 46) with false by (symmetry; apply N.eqb_neq; lia).
  replace (c =? 48) with false by (symmetry; apply N.eqb_neq; lia). reflexivity.
Qed.
Lemma lead_part ds s k : digs ds -> 
  (skip_zeros ds <> [] /\ lead (ds ++ s) k = k - (Z.of_nat (length ds) - Z.of_nat (length (skip_zeros ds))))%Z \/
  (skip_zeros ds = [] /\ lead (ds ++ s) k = lead s (k - Z.of_nat (length ds)))%Z.
Proof.
  intro H. destruct (zeros_split ds) as [a E]. pose proof (skip_digs ds H) as H2.
  assert (L : length ds = (a + length (skip_zeros ds))%nat) by (rewrite E at 1; rewrite app_length, repeat_length; reflexivity).
  destruct (skip_zeros ds) as [|c r] eqn:Sk.
  - right. split; [reflexivity|]. rewrite E at 1. rewrite app_nil_r, lead_zeros. f_equal. cbn [length] in L. lia.
  - left. split; [discriminate|]. rewrite E at 1. rewrite <- app_assoc, lead_zeros. cbn [app]. rewrite lead_digit; [|apply digs_cons in H2; tauto|exact (skip_hd _ _ _ Sk)].
    lia.
Qed.

(** The text before the exponent: digits, and a point with more digits or no point *)
Definition mant (ds fs sf r2 : bytes) : Prop :=
  digs ds /\ digs fs /\ stop r2 /\
  ((sf = 46 :: fs) \/ (sf = [] /\ fs = [] /\ match r2 with c :: _ => c <> 46 | [] => True end)).

Lemma lead_ok ds fs sf r2 k : mant ds fs sf r2 ->
  (skip_zeros (ds ++ fs) <> [] /\ lead (ds ++ sf ++ r2) k = k - (Z.of_nat (length (ds ++ fs)) - Z.of_nat (length (skip_zeros (ds ++ fs)))))%Z \/
  (skip_zeros (ds ++ fs) = [] /\ lead (ds ++ sf ++ r2) k <= k - Z.of_nat (length (ds ++ fs)))%Z.
Proof.
  intros (H1 & H2 & _ & H3). rewrite skip_app, app_length.
  destruct (lead_part ds (sf ++ r2) k H1) as [[P1 P2]|[P1 P2]].
  - left. destruct (skip_zeros ds) as [|c r] eqn:Sk; [congruence|]. split; [discriminate|]. rewrite P2, app_length. lia.
  - rewrite P1, P2. destruct H3 as [->|(-> & -> & _)].
    + change ((46 :: fs) ++ r2) with (46 :: fs ++ r2). cbn [lead N.eqb orb]. change (Pos.eqb 46 46 || Pos.eqb 46 48) with true. cbv iota.
      change (Z.of_N (46 - 47)) with 0%Z. rewrite Z.sub_0_r.
      destruct (lead_part fs r2 (k - Z.of_nat (length ds))%Z H2) as [[P3 P4]|[P3 P4]].
      * left. split; [assumption|]. rewrite P4. lia.
      * right. split; [assumption|]. rewrite P4. pose proof (lead_le r2 (k - Z.of_nat (length ds) - Z.of_nat (length fs))%Z). lia.
    + right. split; [reflexivity|]. cbn [app length]. pose proof (lead_le r2 (k - Z.of_nat (length ds))%Z). lia.
Qed.

(** ** The first 19 digits *)
Lemma try19_ok ds r : digs ds -> stop r -> forall x, x < 10 ^ 19 ->
  exists d1 d2, ds = d1 ++ d2 /\ try_parse_19digits (ds ++ r) x = (d2 ++ r, x * 10 ^ lenN d1 + nm d1) /\
    x * 10 ^ lenN d1 + nm d1 < 10 ^ 19 /\ (10 ^ 18 <= x * 10 ^ lenN d1 + nm d1 \/ d2 = []).
Proof.
  intros H Hr. induction ds as [|c ds IH]; intros x Hx.
  - exists [], []. change (lenN []) with 0. change (nm []) with 0. rewrite N.pow_0_r, N.mul_1_r, N.add_0_r. split; [reflexivity|].
    split; [|auto]. cbn [app]. destruct r as [|c r]; [reflexivity|]. cbn [stop] in Hr. cbn [try_parse_19digits]. rewrite Hr, andb_false_r. reflexivity.
  - apply digs_cons in H. destruct H as [H1 H2]. cbn [app try_parse_19digits]. rewrite H1, andb_true_r.
    destruct (x <? 10 ^ 18) eqn:C.
    + apply N.ltb_lt in C. apply digit_range in H1. destruct (IH H2 (x * 10 + (c - 48))) as (d1 & d2 & E1 & E2 & E3 & E4).
      { change (10 ^ 19) with (10 * 10 ^ 18). lia. }
      assert (EE : x * 10 ^ lenN (c :: d1) + nm (c :: d1) = (x * 10 + (c - 48)) * 10 ^ lenN d1 + nm d1).
      { rewrite nm_cons, lenN_cons. replace (1 + lenN d1) with (N.succ (lenN d1)) by lia. rewrite N.pow_succ_r'. lia. }
      exists (c :: d1), d2. rewrite EE. split; [cbn; congruence|]. auto.
    + apply N.ltb_ge in C. exists [], (c :: ds). change (lenN []) with 0. change (nm []) with 0. rewrite N.pow_0_r, N.mul_1_r, N.add_0_r.
      repeat split; auto.
Qed.

(** ** The number *)
Definition scan (r2 : bytes) : option (Z * bytes) :=
  match r2 with
  | c :: r => if (c =? 101) || (c =? 69) then parse_scientific r else Some (0%Z, r2)
  | [] => Some (0%Z, r2)
  end.
Definition dv (ds fs : bytes) (e : Z) : Q := (iz (nm (ds ++ fs)) * 10 ^ (e - Z.of_nat (length fs)))%Q.

Definition number_ok (n : number) (v : Q) : Prop :=
  if n_many n then n_man n < 10 ^ 19 /\ (iz (n_man n) * 10 ^ n_exp n <= v)%Q /\ (v <= iz (n_man n + 1) * 10 ^ n_exp n)%Q
  else n_man n < 2 ^ 64 /\ (iz (n_man n) * 10 ^ n_exp n == v)%Q.

Lemma between_ok m (all d2 fs : bytes) e q : digs d2 -> nm all = m * 10 ^ lenN d2 + nm d2 -> (q = Z.of_nat (length d2) + (e - Z.of_nat (length fs)))%Z ->
  (iz m * 10 ^ q <= iz (nm all) * 10 ^ (e - Z.of_nat (length fs)))%Q /\ (iz (nm all) * 10 ^ (e - Z.of_nat (length fs)) <= iz (m + 1) * 10 ^ q)%Q.
Proof.
  intros H E ->. rewrite q10plus, !Qmult_assoc. rewrite lenZ, <- iz_10pow, <- !iz_mul. apply nm_lt in H.
  split; (apply Qmult_le_compat_r; [|apply Qlt_le_weak, q10pos]); apply iz_le; rewrite E; lia.
Qed.

Lemma lenN_Z (l : bytes) : Z.of_N (lenN l) = Z.of_nat (length l). Proof. unfold lenN. apply nat_N_Z. Qed.
Theorem parse_partial_ok ds fs sf r2 e r3 : mant ds fs sf r2 -> ds ++ fs <> [] -> scan r2 = Some (e, r3) ->
  exists n, parse_partial_number (ds ++ sf ++ r2) = Ok (Some (n, r3)) /\ number_ok n (dv ds fs e).
Proof.
  intros HM Hne Hs. pose proof HM as (H1 & H2 & H3 & H4).
  assert (Hr1 : stop (sf ++ r2)). { destruct H4 as [->|(-> & _ & _)]; [reflexivity|assumption]. }
  unfold parse_partial_number. rewrite (try_parse_digits_ok ds (sf ++ r2) 0 H1 Hr1) by reflexivity.
  rewrite N.mul_0_l, N.add_0_l.
  set (all := ds ++ fs) in *.
  assert (Mid : exists after, (match sf ++ r2 with
    | c :: r => if c =? 46 then let (s2, m2) := try_parse_digits r (nm ds mod 2 ^ 64) in (s2, m2, (Z.of_N (lenN r) - Z.of_N (lenN s2))%Z)
                else (sf ++ r2, nm ds mod 2 ^ 64, 0%Z)
    | [] => (sf ++ r2, nm ds mod 2 ^ 64, 0%Z)
    end) = (r2, nm all mod 2 ^ 64, after) /\ after = Z.of_nat (length fs)).
  { destruct H4 as [->|(-> & -> & H4)].
    - cbn [app N.eqb Pos.eqb] in *. change (Pos.eqb 46 46) with true. cbv iota. rewrite try_parse_digits_ok; [|assumption|assumption|apply N.mod_lt; discriminate].
      assert (Em : (nm ds mod 2 ^ 64 * 10 ^ lenN fs + nm fs) mod 2 ^ 64 = nm all mod 2 ^ 64).
      { pose proof (acc_mod 0 0 (nm ds) (10 ^ lenN fs) (nm fs)) as AM. rewrite !N.mul_0_l, !N.add_0_l in AM. rewrite AM. unfold all. rewrite nm_app. reflexivity. }
      rewrite Em. eexists. split; [reflexivity|]. rewrite lenN_app, N2Z.inj_add, !lenN_Z. lia.
    - exists 0%Z. split; [|reflexivity]. unfold all. rewrite app_nil_r. cbn [app] in *. destruct r2 as [|c r]; [reflexivity|].
      replace (c =? 46) with false by (symmetry; apply N.eqb_neq; assumption). reflexivity. }
  destruct Mid as (after & Mid & Ea). cbv beta zeta. unfold bytes in *. rewrite Mid. clear Mid.
  assert (En : (Z.of_N (lenN (ds ++ sf ++ r2)) - Z.of_N (lenN (sf ++ r2)) + after = Z.of_nat (length all))%Z).
  { unfold all. rewrite Ea, lenN_app, N2Z.inj_add, !lenN_Z, !app_length. lia. }
  rewrite En. assert (Nz : (Z.of_nat (length all) =? 0)%Z = false). { apply Z.eqb_neq. destruct all; [congruence|cbn [length]; lia]. }
  rewrite Nz. unfold scan, bytes in Hs. rewrite Hs. subst after.
  assert (Small : (length (skip_zeros all) <= 19)%nat -> number_ok {| n_exp := (- Z.of_nat (length fs) + e)%Z; n_man := nm all mod 2 ^ 64; n_many := false |} (dv ds fs e)).
  { intro L. unfold number_ok. cbn [n_many n_man n_exp].
    assert (L2 : nm all < 2 ^ 64).
    { rewrite <- nm_skip. eapply N.lt_le_trans; [apply nm_lt, skip_digs; unfold all; apply digs_app; auto|].
      apply N.le_trans with (10 ^ 19); [|vm_compute; discriminate]. apply N.pow_le_mono_r; [lia|]. unfold lenN. lia. }
    rewrite N.mod_small by assumption. split; [assumption|]. unfold dv. fold all. replace (- Z.of_nat (length fs) + e)%Z with (e - Z.of_nat (length fs))%Z by lia. reflexivity. }
  destruct (Z.of_nat (length all) <=? 19)%Z eqn:C1.
  { apply Z.leb_le in C1. eexists. split; [reflexivity|]. apply Small. destruct (zeros_split all) as [a E]. rewrite E in C1. rewrite app_length in C1. lia. }
  apply Z.leb_gt in C1. pose proof (lead_ok ds fs sf r2 (Z.of_nat (length all) - 19)%Z HM) as LD. fold all in LD.
  destruct (0 <? lead (ds ++ sf ++ r2) (Z.of_nat (length all) - 19))%Z eqn:C2.
  2: { apply Z.ltb_ge in C2. eexists. split; [reflexivity|]. apply Small. destruct LD as [[L1 L2]|[L1 _]]; [|rewrite L1; cbn; lia]. lia. }
  apply Z.ltb_lt in C2. destruct LD as [[L1 L2]|[_ L2]]; [|lia].
  assert (Big : (20 <= length (skip_zeros all))%nat) by lia. clear L2 C1 C2 Nz En Small.
  assert (Bn : 10 ^ 19 <= nm all).
  { rewrite <- nm_skip. assert (G : 10 ^ lenN (skip_zeros all) <= 10 * nm (skip_zeros all)).
    { apply nm_ge; [apply skip_digs; unfold all; apply digs_app; auto|apply skip_idem|assumption]. }
    assert (G2 : 10 ^ 20 <= 10 ^ lenN (skip_zeros all)) by (apply N.pow_le_mono_r; [lia|unfold lenN; lia]).
    change (10 ^ 20) with (10 * 10 ^ 19) in G2. lia. }
  destruct (try19_ok ds (sf ++ r2) H1 Hr1 0 ltac:(reflexivity)) as (d1 & d2 & E1 & E2 & E3 & E4). rewrite E2. rewrite N.mul_0_l, N.add_0_l in *.
  destruct (10 ^ 18 <=? nm d1) eqn:C3.
  - eexists. split; [reflexivity|]. unfold number_ok. cbn [n_many n_man n_exp]. split; [assumption|].
    apply (between_ok (nm d1) all (d2 ++ fs)).
    + apply digs_app. split; [|assumption]. rewrite E1 in H1. apply digs_app in H1. tauto.
    + unfold all. rewrite E1, <- app_assoc, nm_app. reflexivity.
    + rewrite lenN_app, N2Z.inj_add, !lenN_Z, !app_length. lia.
  - apply N.leb_gt in C3. assert (d2 = []) by (destruct E4; [lia|assumption]). subst d2. rewrite app_nil_r in E1. subst d1. cbn [app].
    destruct H4 as [->|(-> & -> & _)].
    2: { exfalso. unfold all in Bn. rewrite app_nil_r in Bn. assert (10 ^ 18 < 10 ^ 19) by reflexivity. lia. }
    cbn [app]. destruct (try19_ok fs r2 H2 H3 (nm ds)) as (f1 & f2 & F1 & F2 & F3 & F4). { eapply N.lt_trans; [exact C3|reflexivity]. }
    rewrite F2. eexists. split; [reflexivity|]. unfold number_ok. cbn [n_many n_man n_exp]. split; [assumption|].
    apply (between_ok _ all f2).
    + rewrite F1 in H2. apply digs_app in H2. tauto.
    + unfold all. rewrite F1, app_assoc, nm_app, (nm_app ds f1). reflexivity.
    + rewrite F1, !lenN_app, !N2Z.inj_add, !lenN_Z, !app_length. lia.
Qed.

(** ** The decimal *)
Lemma trailing_dot a b : trailing (a ++ 46 :: b) = trailing (a ++ b).
Proof.
  induction a as [|c a IH]; cbn [app trailing].
  - reflexivity.
  - rewrite IH. reflexivity.
Qed.
Lemma trailing_split r : digs r -> exists o, r = repeat 48 (N.to_nat (trailing r)) ++ o /\ match o with [] => True | c :: _ => c <> 48 end.
Proof.
  induction r as [|c r IH]; intro H; [exists []; repeat split|]. apply digs_cons in H. destruct H as [H1 H2]. apply digit_range in H1.
  cbn [trailing]. destruct (c =? 48) eqn:E.
  - apply N.eqb_eq in E. subst c. destruct (IH H2) as (o & E1 & E2). exists o. split; [|assumption].
    replace (N.to_nat (1 + trailing r)) with (S (N.to_nat (trailing r))) by lia. cbn [repeat app]. congruence.
  - replace (c =? 46) with false by (symmetry; apply N.eqb_neq; lia). exists (c :: r). split; [reflexivity|]. apply N.eqb_neq. assumption.
Qed.
Lemma trailing_app a b : digs a -> (exists c, In c a /\ c <> 48) -> trailing (a ++ b) = trailing a.
Proof.
  induction a as [|c a IH]; intros H (x & I & Nx); [contradiction|]. apply digs_cons in H. destruct H as [H1 H2]. apply digit_range in H1.
  cbn [app trailing]. destruct (c =? 48) eqn:E.
  - rewrite IH; [reflexivity|assumption|]. exists x. split; [|assumption]. destruct I as [->|I]; [apply N.eqb_eq in E; congruence|assumption].
  - replace (c =? 46) with false by (symmetry; apply N.eqb_neq; lia). reflexivity.
Qed.
Lemma repeat_rev (x : N) n : rev (repeat x n) = repeat x n.
Proof.
  induction n as [|n IH]; [reflexivity|]. cbn [repeat rev]. rewrite IH. clear IH. induction n as [|n IH]; [reflexivity|]. cbn [repeat app]. congruence.
Qed.
Lemma digs_rev a : digs a -> digs (rev a).
Proof. unfold digs. rewrite !forallb_forall. intros H x Hx. apply H, in_rev, Hx. Qed.

Lemma sig_tail sg : digs sg -> sg <> [] -> skip_zeros sg = sg -> 
  exists out z, sg = out ++ repeat 48 z /\ trailing (rev sg) = N.of_nat z /\ out <> [] /\ last (dn out) 0 <> 0 /\ hd_ok (dn out).
Proof.
  intros H1 H2 H3. destruct (trailing_split (rev sg) (digs_rev _ H1)) as (o & E1 & E2).
  set (z := N.to_nat (trailing (rev sg))) in *. assert (Es : sg = rev o ++ repeat 48 z).
  { rewrite <- (rev_involutive sg), E1, rev_app_distr, repeat_rev. reflexivity. }
  destruct sg as [|c0 r0] eqn:Sg; [congruence|]. rewrite <- Sg in *. assert (Hc : c0 <> 48) by (apply (skip_hd sg c0 r0); congruence).
  assert (Do : digs (rev o)) by (rewrite Es in H1; apply digs_app in H1; tauto).
  assert (On : rev o <> []). { intro C. rewrite C in Es. cbn [app] in Es. destruct z; [rewrite Sg in Es; discriminate|]. rewrite Sg in Es. cbn [repeat] in Es. inversion Es. congruence. }
  exists (rev o), z. split; [assumption|]. split; [subst z; rewrite Sg; lia|]. split; [assumption|]. split.
  - destruct o as [|c o]; [contradiction On; reflexivity|]. cbn [rev] in *. unfold dn. rewrite map_app. cbn [map]. rewrite last_last.
    apply digs_app in Do. destruct Do as [_ Do]. apply digs_cons in Do. destruct Do as [Do _]. apply digit_range in Do. lia.
  - destruct (rev o) as [|x y] eqn:Ro; [congruence|]. rewrite Sg in Es. cbn [app] in Es. inversion Es. subst x.
    apply digs_cons in Do. destruct Do as [Do _]. apply digit_range in Do. cbn [dn map hd_ok]. lia.
Qed.

Definition decimal_ok (d : big) (v : Q) : Prop :=
  (b_digits d = [] /\ (v == 0)%Q) \/
  exists out, digits_ok out /\ hd_ok out /\ last out 0 <> 0 /\ (v == dval out (b_point d))%Q /\
    b_digits d = firstn MAX_DIGITS out /\ b_trunc d = (MAX_DIGITS <? length out)%nat.

Lemma firstn_sub (s r2 p : bytes) : s = p ++ r2 -> firstn (length s - length r2) s = p.
Proof. intros ->. rewrite app_length, Nat.add_sub. rewrite firstn_app, Nat.sub_diag, firstn_all, firstn_O, app_nil_r; reflexivity. Qed.

Theorem parse_decimal_ok ds fs sf r2 e r3 : mant ds fs sf r2 -> scan r2 = Some (e, r3) ->
  exists d, parse_decimal (ds ++ sf ++ r2) = Ok d /\ decimal_ok d (dv ds fs e).
Proof.
  intros (H1 & H2 & H3 & H4) Hs.
  assert (Hr1 : stop (sf ++ r2)). { destruct H4 as [->|(-> & _ & _)]; [reflexivity|assumption]. }
  unfold parse_decimal.
  assert (S1 : span_digits (skip_zeros (ds ++ sf ++ r2)) = (skip_zeros ds, sf ++ r2)).
  { rewrite skip_app. destruct (skip_zeros ds) as [|c r] eqn:Sk.
    - rewrite skip_stop by assumption. apply span_stop. assumption.
    - rewrite <- Sk. apply span_exact; [apply skip_digs|]; assumption. }
  rewrite S1. clear S1.
  assert (Mid : exists point, (match sf ++ r2 with
    | c :: first =>
        if c =? 46 then
          let r := match skip_zeros ds with [] => skip_zeros first | _ => first end in
          let (f1, r1) := chunks r (lenN (skip_zeros ds)) in
          let (f2, r2) := span_digits r1 in
          (skip_zeros ds ++ f1 ++ f2, r2, (Z.of_N (lenN r2) - Z.of_N (lenN first))%Z)
        else (skip_zeros ds, sf ++ r2, 0%Z)
    | [] => (skip_zeros ds, sf ++ r2, 0%Z)
    end) = (skip_zeros (ds ++ fs), r2, point) /\ point = (- Z.of_nat (length fs))%Z).
  { destruct H4 as [->|(-> & -> & H4)].
    - cbn [app]. change (46 =? 46) with true. cbv iota zeta.
      set (r := match skip_zeros ds with [] => skip_zeros (fs ++ r2) | _ => fs ++ r2 end).
      assert (Er : exists f, r = f ++ r2 /\ digs f /\ skip_zeros ds ++ f = skip_zeros (ds ++ fs)).
      { unfold r. rewrite !skip_app. destruct (skip_zeros ds) as [|c0 q].
        - exists (skip_zeros fs). split; [|split; [apply skip_digs; assumption|reflexivity]].
          destruct (skip_zeros fs); [apply skip_stop; assumption|reflexivity].
        - exists fs. auto. }
      destruct Er as (f & Er & Df & Ef).
      pose proof (chunks_span r (lenN (skip_zeros ds))) as CS. destruct (chunks r (lenN (skip_zeros ds))) as [f1 r1].
      destruct (span_digits r1) as [f2 r2']. rewrite Er, span_exact in CS by assumption. inversion CS as [[C1 C2]]. subst r2'.
      eexists. split; [rewrite <- Ef, C1; reflexivity|]. rewrite lenN_app, N2Z.inj_add, !lenN_Z. lia.
    - exists 0%Z. split; [|reflexivity]. rewrite app_nil_r. cbn [app]. destruct r2 as [|c r]; [reflexivity|].
      replace (c =? 46) with false by (symmetry; apply N.eqb_neq; assumption). reflexivity. }
  destruct Mid as (point & Mid & Ep). unfold bytes in *. rewrite Mid. clear Mid.
  rewrite (firstn_sub _ r2 (ds ++ sf)) by (rewrite app_assoc; reflexivity).
  set (sg := skip_zeros (ds ++ fs)). assert (Dsg : digs sg) by (apply skip_digs, digs_app; auto).
  cbv zeta. match goal with |- context [match r2 with [] => 0%Z | c :: r => @?f c r end] => set (er := match r2 with [] => 0%Z | c :: r => f c r end) end.
  assert (Ee : er = e).
  { unfold er. unfold scan in Hs. destruct r2 as [|c r]; [inversion Hs; reflexivity|]. destruct ((c =? 101) || (c =? 69)); [|inversion Hs; reflexivity].
    unfold parse_scientific, bytes in *.
    destruct (match r with c :: r1 => (c =? 45, if (c =? 45) || (c =? 43) then r1 else r) | [] => (false, r) end) as [neg r1].
    destruct (span_digits r1) as [[|x ds'] r']; [discriminate|]. cbn [fst]. inversion Hs. reflexivity. }
  rewrite Ee. clear er Ee Hs.
  assert (V : (dv ds fs e == iz (nm sg) * 10 ^ (e - Z.of_nat (length fs)))%Q) by (unfold dv, sg; rewrite nm_skip; reflexivity).
  assert (Esg : skip_zeros (ds ++ fs) = sg) by reflexivity. clearbody sg.
  destruct sg as [|c0 rs] eqn:Sg.
  - cbn [bind]. eexists. split; [reflexivity|]. left. cbn [b_digits]. split; [reflexivity|]. rewrite V. change (nm []) with 0. change (iz 0) with 0%Q. ring.
  - rewrite <- Sg in *. assert (Sn : sg <> []) by (rewrite Sg; discriminate).
    destruct (sig_tail sg Dsg Sn) as (out & z & E1 & E2 & E3 & E4 & E5). { rewrite <- Esg. apply skip_idem. }
    assert (Ez : trailing (rev (ds ++ sf)) = N.of_nat z).
    { assert (X1 : trailing (rev (ds ++ sf)) = trailing (rev (ds ++ fs))).
      { destruct H4 as [->|(-> & -> & _)]; [|reflexivity]. rewrite !rev_app_distr. cbn [rev]. rewrite <- app_assoc. cbn [app]. apply trailing_dot. }
      rewrite X1. destruct (zeros_split (ds ++ fs)) as [a Ea]. rewrite Ea, Esg. rewrite rev_app_distr, trailing_app; [assumption|apply digs_rev; assumption|].
      exists c0. split; [apply in_rev; rewrite rev_involutive, Sg; left; reflexivity|]. apply (skip_hd (ds ++ fs) c0 rs). rewrite Esg. exact Sg. }
    rewrite Ez. assert (Ls : length sg = (length out + z)%nat) by (rewrite E1, app_length, repeat_length; reflexivity).
    replace (lenN sg <? N.of_nat z) with false by (symmetry; apply N.ltb_ge; unfold lenN; lia). cbn [bind].
    replace (length sg - N.to_nat (N.of_nat z))%nat with (length out) by lia.
    eexists. split; [reflexivity|]. right. exists (dn out). cbn [b_digits b_point b_trunc].
    assert (Do : digs out) by (rewrite E1 in Dsg; apply digs_app in Dsg; tauto).
    split; [apply digs_ok; assumption|]. split; [assumption|]. split; [assumption|]. split; [|split].
    + rewrite V, E1, nm_app, nm_zeros, N.add_0_r. unfold dval. fold (nm out). unfold dn. rewrite map_length.
      rewrite iz_mul, iz_10pow, <- Qmult_assoc, <- q10plus. unfold lenN. rewrite repeat_length.
      replace (point + Z.of_N (N.of_nat z) + Z.of_nat (length out) + e - Z.of_nat (length out))%Z with (Z.of_N (N.of_nat z) + (e - Z.of_nat (length fs)))%Z by lia. reflexivity.
    + rewrite E1. unfold dn. rewrite <- firstn_map. rewrite map_app. rewrite firstn_app. rewrite map_length.
      replace (Nat.min (length out) MAX_DIGITS - length out)%nat with 0%nat by lia. cbn [firstn]. rewrite app_nil_r.
      destruct (Nat.le_gt_cases (length out) MAX_DIGITS) as [Cl|Cl].
      * rewrite Nat.min_l by assumption. rewrite !firstn_all2; [reflexivity|rewrite map_length; assumption|rewrite map_length; lia].
      * rewrite Nat.min_r by lia. reflexivity.
    + unfold dn. rewrite map_length. reflexivity.
Qed.
