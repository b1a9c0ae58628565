(** Lemmas about the full number syntax of JSON. *)
From Verif Require Import Base Options Int Utf8 Types Json JsonNum JsonSpec JsonNumSpec BaseFacts IntFacts JsonFacts JsonSafe JsonMore.
From Coq Require Import ZifyBool ZifyNat ZifyN.
Local Open Scope N_scope.

Lemma value_from_value acc ds : value_from acc ds = acc * 10 ^ lenN ds + JsonNumSpec.value ds.
Proof.
  revert acc. unfold JsonNumSpec.value, value_from, lenN. induction ds as [|d ds IH]; intros acc; cbn [fold_left length].
  - cbn. lia.
  - rewrite IH, (IH (10 * 0 + (d - 48))). rewrite Nat2N.inj_succ, N.pow_succ_r'. generalize (10 ^ N.of_nat (length ds)). nia.
Qed.

Lemma value_app ds fs : JsonNumSpec.value (ds ++ fs) = JsonNumSpec.value ds * 10 ^ lenN fs + JsonNumSpec.value fs.
Proof.
  unfold JsonNumSpec.value at 1. rewrite fold_left_app. apply (value_from_value (JsonNumSpec.value ds) fs).
Qed.

Lemma value_lt ds : Forall digit ds -> JsonNumSpec.value ds < 10 ^ lenN ds.
Proof.
  intros H. rewrite <- (rev_involutive ds). rewrite <- (rev_involutive ds) in H. generalize dependent (rev ds). clear ds. intros ds.
  induction ds as [|d ds IH]; intros H; [reflexivity|]. cbn [rev] in *. rewrite Forall_app in H. destruct H as [H1 H2].
  inversion H2 as [|x l Hx _]; subst. specialize (IH H1). rewrite value_app, lenN_app.
  change (lenN [d]) with 1. rewrite N.pow_add_r, N.pow_1_r. unfold JsonNumSpec.value at 2. cbn [fold_left]. unfold digit in Hx. lia.
Qed.

Lemma lenN_length {A} (l : list A) : Z.of_N (lenN l) = Z.of_nat (length l).
Proof. unfold lenN. lia. Qed.

Lemma pow10_pos e : 1 <= 10 ^ e.
Proof. assert (10 ^ e <> 0) by (apply N.pow_nonzero; discriminate). lia. Qed.

(** ** Powers *)

Lemma pow10_some tb x e n : pow10 tb x e = Some n -> n = x * 10 ^ e /\ n < 2 ^ tb.
Proof.
  unfold pow10. destruct (_ <=? _); [discriminate|]. destruct (_ <=? _); [discriminate|].
  destruct (2 ^ tb <=? x * 10 ^ e) eqn:E; [discriminate|]. intros H. injection H as <-. split; [reflexivity|lia].
Qed.

Lemma pow_2_10 e : 2 ^ e <= 10 ^ e.
Proof. apply N.pow_le_mono_l. lia. Qed.

Lemma pow10_ok tb x e : 10 ^ e < 2 ^ tb -> x * 10 ^ e < 2 ^ tb -> pow10 tb x e = Some (x * 10 ^ e).
Proof.
  intros H1 H2. unfold pow10. destruct (tb <=? e) eqn:E.
  - pose proof (pow_2_10 e). assert (2 ^ tb <= 2 ^ e) by (apply N.pow_le_mono_r; lia). lia.
  - destruct (2 ^ tb <=? 10 ^ e) eqn:E1; [lia|]. destruct (2 ^ tb <=? x * 10 ^ e) eqn:E2; [lia|reflexivity].
Qed.

(** ** The fraction *)

Definition stops (r : bytes) : Prop := match r with [] => True | b :: _ => is_digit b = false end.

Lemma stops_or r : r = [] \/ (exists b r', r = b :: r' /\ ~ digit b) <-> stops r.
Proof.
  unfold stops, digit, is_digit, between. destruct r as [|b r]; [split; auto|]. split.
  - intros [H|(b' & r' & E & H)]; [discriminate|]. injection E as -> ->. lia.
  - intros H. right. exists b, r. split; [reflexivity|]. lia.
Qed.

Lemma zeros_split bs n r : zeros bs = (n, r) -> bs = repeat 48 (N.to_nat n) ++ r /\ match r with b :: _ => b <> 48 | [] => True end.
Proof.
  revert n r. induction bs as [|b bs IH]; intros n r; cbn [zeros]; intros H.
  - injection H as <- <-. split; [reflexivity|exact Logic.I].
  - destruct (b =? 48) eqn:E.
    + destruct (zeros bs) as [n0 r0] eqn:Ez. injection H as <- <-. destruct (IH n0 r0 eq_refl) as [-> H].
      assert (b = 48) by lia. subst. split; [|assumption].
      replace (N.to_nat (n0 + 1)) with (S (N.to_nat n0)) by lia. reflexivity.
    + injection H as <- <-. split; [reflexivity|lia].
Qed.

Lemma zeros_app n r : match r with b :: _ => b <> 48 | [] => True end -> zeros (repeat 48 n ++ r) = (N.of_nat n, r).
Proof.
  intros Hr. induction n as [|n IH]; cbn [repeat app zeros].
  - destruct r as [|b r]; [reflexivity|]. cbn. destruct (b =? 48) eqn:E; [lia|reflexivity].
  - cbn. rewrite IH. f_equal. lia.
Qed.

Lemma value_zeros n : JsonNumSpec.value (repeat 48 n) = 0.
Proof. unfold JsonNumSpec.value. induction n as [|n IH]; [reflexivity|exact IH]. Qed.

Lemma digits_zeros n : Forall digit (repeat 48 n).
Proof. induction n; constructor; [unfold digit; lia|assumption]. Qed.

Lemma fraction_sound tb : forall bs zs m ex m' ex' r, fraction true tb zs m ex bs = Ok (m', ex', r) -> m < 2 ^ tb ->
  exists fs z, bs = fs ++ r /\ Forall digit fs /\ stops r /\ m' < 2 ^ tb /\
    value_from (m * 10 ^ zs) fs = m' * 10 ^ z /\ ex' + z = ex + zs + lenN fs.
Proof.
  induction bs as [|b bs IH]; intros zs m ex m' ex' r H Hm; cbn [fraction] in H.
  - injection H as <- <- <-. exists [], zs. repeat split; auto. cbn. lia.
  - destruct (b =? 48) eqn:E0.
    + apply IH in H; [|assumption]. destruct H as (fs & z & -> & Hd & Hs & Hm' & Hv & Hx). assert (b = 48) by lia. subst b.
      exists (48 :: fs), z. split; [reflexivity|]. split; [constructor; [unfold digit; lia|assumption]|].
      split; [assumption|]. split; [assumption|]. split.
      * rewrite <- Hv. unfold value_from. cbn [fold_left]. f_equal. rewrite N.pow_add_r, N.pow_1_r. lia.
      * rewrite lenN_cons. lia.
    + destruct (is_digit b) eqn:Ed.
      * assert (Hb : digit b) by (unfold digit, is_digit, between in *; lia).
        assert (K : forall m1, m1 = m * 10 ^ zs ->
          (if 2 ^ tb <=? m1 * 10 then Err else
             if 2 ^ tb <=? m1 * 10 + (b - 48) then Panic
             else fraction true tb 0 (m1 * 10 + (b - 48)) (ex + zs + 1) bs) = Ok (m', ex', r) ->
          exists fs z, b :: bs = fs ++ r /\ Forall digit fs /\ stops r /\ m' < 2 ^ tb /\
            value_from (m * 10 ^ zs) fs = m' * 10 ^ z /\ ex' + z = ex + zs + lenN fs).
        { intros m1 -> K. destruct (_ <=? _); [discriminate|]. destruct (2 ^ tb <=? _) eqn:E1; [discriminate|].
          apply IH in K; [|lia]. destruct K as (fs & z & -> & Hd & Hs & Hm' & Hv & Hx). exists (b :: fs), z.
          split; [reflexivity|]. split; [now constructor|]. split; [assumption|]. split; [assumption|]. split.
          - rewrite <- Hv. unfold value_from. cbn [fold_left]. f_equal. change (10 ^ 0) with 1. lia.
          - rewrite lenN_cons. lia. }
        destruct (zs =? 0) eqn:Ez.
        -- apply (K m); [|assumption]. assert (zs = 0) by lia. subst zs. change (10 ^ 0) with 1. lia.
        -- destruct (pow10 tb m zs) as [m1|] eqn:Ep; [|discriminate]. apply pow10_some in Ep. destruct Ep as [Ep _].
           now apply (K m1).
      * injection H as <- <- <-. exists [], zs. split; [reflexivity|]. split; [constructor|]. split; [exact Ed|].
        split; [assumption|]. split; [reflexivity|]. cbn. lia.
Qed.

(** The fraction of a number: digits [fs] of which the mantissa keeps all but trailing zeros. *)
Definition mant (fs : bytes) (m ex : N) : Prop :=
  exists z, JsonNumSpec.value fs = m * 10 ^ z /\ ex + z = lenN fs.

Lemma frac_sound tb r' mx r1 : (let (z, r0) := zeros r' in fraction true tb 0 0 z r0) = Ok (mx, r1) ->
  exists fs, r' = fs ++ r1 /\ Forall digit fs /\ stops r1 /\ mant fs (fst mx) (snd mx).
Proof.
  destruct (zeros r') as [z r0] eqn:Ez. destruct mx as [m ex]. intros H. apply zeros_split in Ez. destruct Ez as [-> _].
  apply fraction_sound in H; [|assert (2 ^ tb <> 0) by (apply N.pow_nonzero; discriminate); lia].
  destruct H as (fs & z' & -> & Hd & Hs & _ & Hv & Hx). exists (repeat 48 (N.to_nat z) ++ fs).
  split; [now rewrite <- app_assoc|]. split; [apply Forall_app; split; [apply digits_zeros|assumption]|].
  split; [assumption|]. exists z'. cbn [fst snd]. split.
  - rewrite value_app, value_zeros. rewrite N.mul_0_l in *. rewrite <- Hv. unfold value_from, JsonNumSpec.value. lia.
  - rewrite lenN_app. unfold lenN at 1. rewrite repeat_length. lia.
Qed.

(** ** The exponent *)

Lemma negate_ok tb n z : negate tb n = Ok z -> z = (- Z.of_N n)%Z.
Proof. unfold negate. destruct (_ <? _); [discriminate|]. now intros [= <-]. Qed.
Lemma signed_ok tb n z : signed tb n = Ok z -> z = Z.of_N n.
Proof. unfold signed. destruct (_ <? _); [discriminate|]. now intros [= <-]. Qed.

Lemma exponent_sound bs e r c : exponent true bs = Ok (e, r) -> c = 101 \/ c = 69 -> exists s, c :: bs = s ++ r /\ expo true e s /\ stops r.
Proof.
  intros H Hc. unfold exponent in H.
  assert (K : forall neg sg b, (sg = [] \/ sg = [43] \/ sg = [45]) -> bs = sg ++ b ->
     neg = (if list_eq_dec N.eq_dec sg [45] then true else false) ->
     (let* (n, r') := digits true 32 0 b in let* z := if neg : bool then negate 32 n else signed 32 n in Ok (z, r')) = Ok (e, r) ->
     exists s, c :: bs = s ++ r /\ expo true e s /\ stops r).
  { intros neg sg b Hsg -> Hneg K. apply bind_ok in K. destruct K as ([n r'] & Hn & K). apply bind_ok in K.
    destruct K as (z & Hz & K). injection K as <- <-. apply digits_mod in Hn; [|reflexivity].
    destruct Hn as (es & -> & Hd & Hr & _ & _ & Hv). specialize (Hv eq_refl).
    exists (c :: sg ++ es). split; [cbn [app]; now rewrite <- app_assoc|]. split; [|now apply stops_or].
    right. exists c, sg, es. split; [assumption|]. split; [assumption|]. split; [assumption|]. split; [reflexivity|]. split; [reflexivity|].
    rewrite <- Hneg. rewrite Hv in Hz. unfold z_of. change (value_from 0 es) with (JsonNumSpec.value es) in Hz.
    destruct neg; [now apply negate_ok in Hz|now apply signed_ok in Hz]. }
  destruct bs as [|b bs]; [now apply (K false [] []); auto|].
  destruct (b =? 45) eqn:E1; [|destruct (b =? 43) eqn:E2].
  - apply N.eqb_eq in E1. subst b. now apply (K true [45] bs); auto.
  - apply N.eqb_eq in E2. subst b. now apply (K false [43] bs); auto.
  - now apply (K false [] (b :: bs)); auto.
Qed.

(** ** A number *)

(** The parts [q] are those of the number [ds.fs * 10 ^ e]. *)
Definition parts_of (ds fs : bytes) (e : Z) (q : parts) : Prop :=
  pt_base q = JsonNumSpec.value ds /\ mant fs (pt_m q) (pt_exp q) /\ pt_e q = e.

Lemma mant_nil : mant [] 0 0.
Proof. exists 0. split; reflexivity. Qed.

Lemma unsigned_full_sound tb bs q r : 4 <= tb -> unsigned_full true tb bs = Ok (q, r) ->
  exists ds fs e s, bs = s ++ r /\ decimal true ds fs e s /\ parts_of ds fs e q /\ Forall digit fs.
Proof.
  intros Ht H. unfold unsigned_full in H. apply bind_ok in H. destruct H as ([base r0] & Hb & H).
  apply unsigned_base_mod in Hb; [|assumption]. destruct Hb as (n & ds & -> & Hds & _ & _ & Hn). specialize (Hn eq_refl). subst n.
  apply bind_ok in H. destruct H as ([mx r1] & Hm & H). apply bind_ok in H. destruct H as ([e r2] & He & H).
  injection H as <- <-.
  assert (HF : exists fs sf, r0 = sf ++ r1 /\ frac true fs sf /\ mant fs (fst mx) (snd mx) /\ Forall digit fs).
  { unfold full_frac in Hm. destruct r0 as [|b r']; [injection Hm as <- <-; exists [], []; repeat split; [now left|apply mant_nil|constructor]|].
    destruct (b =? 46) eqn:E.
    - apply N.eqb_eq in E. subst b. apply frac_sound in Hm. destruct Hm as (fs & -> & Hd & _ & Hm).
      exists fs, (46 :: fs). split; [reflexivity|]. split; [right; auto|]. auto.
    - injection Hm as <- <-; exists [], []; repeat split; [now left|apply mant_nil|constructor]. }
  destruct HF as (fs & sf & -> & Hf & Hmant & Hd).
  assert (HE : exists se, r1 = se ++ r2 /\ expo true e se).
  { unfold full_exp in He. destruct r1 as [|b r']; [injection He as <- <-; exists []; split; [reflexivity|now left]|].
    destruct (_ || _) eqn:E.
    - apply exponent_sound with (c := b) in He; [|lia]. destruct He as (se & -> & He & _). eauto.
    - injection He as <- <-. exists []. split; [reflexivity|now left]. }
  destruct HE as (se & -> & He'). exists ds, fs, e, (ds ++ sf ++ se).
  split; [now rewrite <- !app_assoc|]. assert (V : JsonNumSpec.value ds = base) by apply Hds. split.
  - exists sf, se. split; [|auto]. unfold whole. now rewrite V.
  - split; [|assumption]. split; [now rewrite V|]. split; [assumption|reflexivity].
Qed.

Lemma ZN_pow10 e : Z.of_N (10 ^ e) = (10 ^ Z.of_N e)%Z.
Proof. rewrite N2Z.inj_pow. reflexivity. Qed.

Lemma equals_iff ds fs e m ex z n : JsonNumSpec.value fs = m * 10 ^ z -> ex + z = lenN fs ->
  equals ds fs e n <->
  (if (0 <=? e)%Z then JsonNumSpec.value ds * 10 ^ (lenN fs + Z.to_N e) + m * 10 ^ (z + Z.to_N e) = n * 10 ^ lenN fs
   else JsonNumSpec.value ds * 10 ^ lenN fs + m * 10 ^ z = n * 10 ^ (lenN fs + Z.to_N (- e))).
Proof.
  intros Hv Hk. unfold equals. rewrite value_app, Hv. rewrite <- lenN_length.
  set (k := lenN fs) in *. set (B := JsonNumSpec.value ds). clearbody k B. clear Hv.
  destruct (0 <=? e)%Z eqn:He.
  - (* e >= 0 *)
    assert (exists en, e = Z.of_N en) as [en ->] by (exists (Z.to_N e); lia). rewrite N2Z.id.
    destruct (k <=? en) eqn:Hke.
    + replace (Z.max 0 (Z.of_N en - Z.of_N k)) with (Z.of_N (en - k)) by lia.
      replace (Z.max 0 (Z.of_N k - Z.of_N en)) with 0%Z by lia. rewrite Z.pow_0_r, Z.mul_1_r, <- ZN_pow10, <- N2Z.inj_mul, N2Z.inj_iff.
      assert (E : (B * 10 ^ (k + en) + m * 10 ^ (z + en)) = (B * 10 ^ k + m * 10 ^ z) * 10 ^ (en - k) * 10 ^ k).
      { rewrite <- N.mul_assoc, <- N.pow_add_r. replace (en - k + k) with en by lia. rewrite N.mul_add_distr_r, <- !N.mul_assoc, <- !N.pow_add_r. reflexivity. }
      rewrite E. rewrite N.mul_cancel_r by (apply N.pow_nonzero; discriminate). reflexivity.
    + replace (Z.max 0 (Z.of_N en - Z.of_N k)) with 0%Z by lia.
      replace (Z.max 0 (Z.of_N k - Z.of_N en)) with (Z.of_N (k - en)) by lia. rewrite Z.pow_0_r, Z.mul_1_r, <- ZN_pow10, <- N2Z.inj_mul, N2Z.inj_iff.
      replace (n * 10 ^ k) with (n * 10 ^ (k - en) * 10 ^ en)
        by (rewrite <- N.mul_assoc, <- N.pow_add_r; f_equal; f_equal; lia).
      rewrite !N.pow_add_r, !N.mul_assoc, <- N.mul_add_distr_r. rewrite N.mul_cancel_r by (apply N.pow_nonzero; discriminate). reflexivity.
  - assert (exists en, e = (- Z.of_N en)%Z /\ 0 < en) as (en & -> & Hen) by (exists (Z.to_N (- e)); lia).
    replace (Z.to_N (- - Z.of_N en)) with en by lia.
    replace (Z.max 0 (- Z.of_N en - Z.of_N k)) with 0%Z by lia.
    replace (Z.max 0 (Z.of_N k - - Z.of_N en)) with (Z.of_N (k + en)) by lia.
    rewrite Z.pow_0_r, Z.mul_1_r, <- ZN_pow10, <- N2Z.inj_mul, N2Z.inj_iff. reflexivity.
Qed.

Lemma compute_sound oc tb ds fs e q n : parts_of ds fs e q -> compute oc tb q = Ok n -> equals ds fs e n.
Proof.
  intros (Hb & (z & Hv & Hk) & He) H. rewrite (equals_iff ds fs e _ _ z n Hv Hk). unfold compute in H. rewrite He, Hb in H. clear He.
  set (m := pt_m q) in *. set (ex := pt_exp q) in *. set (B := JsonNumSpec.value ds) in *. set (k := lenN fs) in *.
  clearbody m ex B k. destruct (e =? 0)%Z eqn:E0.
  - assert (e = 0%Z) by lia. subst e. destruct (m =? 0) eqn:Em; [|discriminate]. injection H as <-. assert (m = 0) by lia. subst m.
    rewrite !N.mul_0_l, !N.add_0_r. change (0 <=? 0)%Z with true. cbv iota. reflexivity.
  - destruct (0 <=? e)%Z eqn:E1.
    + destruct (_ <? 0)%Z eqn:E2; [discriminate|]. apply bind_ok in H. destruct H as (b & Hb1 & H). apply bind_ok in H.
      destruct H as (m1 & Hm1 & H). destruct (_ <=? _) eqn:E3; [discriminate|]. injection H as <-.
      destruct (pow10 tb m _) as [m2|] eqn:Ep; [|discriminate]. injection Hm1 as ->. apply pow10_some in Ep. destruct Ep as [-> _].
      assert (b = B * 10 ^ Z.to_N e).
      { destruct (B =? 0) eqn:EB; [injection Hb1 as <-; assert (B = 0) by lia; subst B; lia|].
        destruct (pow10 tb B (Z.to_N e)) as [b2|] eqn:Eb; [|discriminate]. injection Hb1 as ->. now apply pow10_some in Eb. }
      subst b. rewrite N.mul_add_distr_r, <- !N.mul_assoc, <- !N.pow_add_r. f_equal; f_equal; f_equal; lia.
    + destruct (m =? 0) eqn:Em; [|discriminate]. cbn [negb] in H. destruct (_ && oc); [discriminate|].
      unfold neg_pow10 in H. destruct (pow10 tb 1 (Z.to_N (- e))) as [d|] eqn:Ed; [|discriminate].
      apply pow10_some in Ed. destruct Ed as [-> _]. rewrite N.mul_1_l in H.
      destruct (B mod 10 ^ Z.to_N (- e) =? 0) eqn:Er; [|discriminate]. injection H as <-.
      assert (m = 0) by lia. subst m. rewrite N.mul_0_l, N.add_0_r.
      set (d := 10 ^ Z.to_N (- e)) in *. assert (Hd : d <> 0) by (apply N.pow_nonzero; discriminate).
      pose proof (N.div_mod B d Hd) as HD. assert (EB : B = B / d * d) by lia.
      rewrite N.pow_add_r. fold d. set (x := B / d) in *. clearbody x d. subst B. generalize (10 ^ k). intros y. nia.
Qed.

(** ** What is accepted *)

Lemma digits_stop oc tb ds acc rest : Forall digit ds -> stops rest ->
  value_from acc ds < 2 ^ tb -> digits oc tb acc (ds ++ rest) = Ok (value_from acc ds, rest).
Proof.
  intros Hd Hs Hv. rewrite digits_app by assumption. destruct rest as [|b r]; [reflexivity|]. cbn [digits].
  cbn [stops] in Hs. now rewrite Hs.
Qed.

Lemma unsigned_base_stop oc tb n s rest : int_text n s -> stops rest -> n < 2 ^ tb ->
  unsigned_base oc tb (s ++ rest) = Ok (n, rest).
Proof.
  intros (Hn & Hd & Hz & Hv) Hs Hb. destruct s as [|b r]; [congruence|].
  inversion Hd as [|x l Hx Hl]; subst. cbn [app unsigned_base].
  destruct (b =? 48) eqn:E.
  - assert (b = 48) by lia. subst b. specialize (Hz eq_refl). injection Hz as ->. reflexivity.
  - unfold digit in Hx. unfold is_digit_nonzero, between.
    destruct ((49 <=? b) && (b <=? 57)) eqn:F; [|lia].
    assert (V : JsonNumSpec.value (b :: r) = value_from (b - 48) r).
    { unfold JsonNumSpec.value, value_from. cbn. f_equal; lia. }
    rewrite V in *. now apply digits_stop.
Qed.

Lemma fraction_zeros oc tb n : forall zs m ex rest, stops rest ->
  fraction oc tb zs m ex (repeat 48 n ++ rest) = Ok (m, ex, rest).
Proof.
  induction n as [|n IH]; intros zs m ex rest Hs; cbn [repeat app].
  - destruct rest as [|b r]; [reflexivity|]. cbn [fraction stops] in *. rewrite Hs.
    destruct (b =? 48) eqn:E; [|reflexivity]. apply N.eqb_eq in E. subst b. discriminate Hs.
  - cbn [fraction]. change (48 =? 48) with true. cbv iota. now apply IH.
Qed.

Lemma fraction_digit oc tb m zs ex b r : is_digit b = true -> b <> 48 -> m <> 0 \/ zs = 0 ->
  m * 10 ^ zs * 10 + (b - 48) < 2 ^ tb ->
  fraction oc tb zs m ex (b :: r) = fraction oc tb 0 (m * 10 ^ zs * 10 + (b - 48)) (ex + zs + 1) r.
Proof.
  intros Hd Hb Hm Hv. cbn [fraction]. destruct (b =? 48) eqn:E0; [lia|]. rewrite Hd.
  assert (E : (if zs =? 0 then Some m else pow10 tb m zs) = Some (m * 10 ^ zs)).
  { destruct (zs =? 0) eqn:Ez.
    - assert (zs = 0) by lia. subst zs. change (10 ^ 0) with 1. now rewrite N.mul_1_r.
    - destruct Hm as [Hm|Hm]; [|lia]. apply pow10_ok; [|lia]. assert (1 * 10 ^ zs <= m * 10 ^ zs) by (apply N.mul_le_mono_r; lia). lia. }
  rewrite E. destruct (_ <=? _) eqn:E1; [lia|]. destruct (2 ^ tb <=? m * 10 ^ zs * 10 + (b - 48)) eqn:E2; [lia|reflexivity].
Qed.

Lemma fraction_ok oc tb t : forall zs m ex z rest, Forall digit t -> stops rest -> m <> 0 ->
  value_from (m * 10 ^ zs) t < 2 ^ tb ->
  exists m' ex' z', fraction oc tb zs m ex (t ++ repeat 48 z ++ rest) = Ok (m', ex', rest) /\
    value_from (m * 10 ^ zs) (t ++ repeat 48 z) = m' * 10 ^ z' /\ ex' + z' = ex + zs + lenN (t ++ repeat 48 z) /\
    (m' mod 10 <> 0 \/ m' = m).
Proof.
  induction t as [|b t IH]; intros zs m ex z rest Hd Hs Hm Hv.
  - exists m, ex, (zs + N.of_nat z). cbn [app]. rewrite fraction_zeros by assumption. split; [reflexivity|].
    assert (Hz : lenN (repeat 48 z) = N.of_nat z) by (unfold lenN; now rewrite repeat_length).
    rewrite value_from_value, value_zeros, Hz, N.pow_add_r. split; [lia|]. split; [lia|]. now right.
  - inversion Hd as [|? ? Hb Hd']; subst. cbn [app]. unfold digit in Hb.
    assert (Hv' : value_from (10 * (m * 10 ^ zs) + (b - 48)) t < 2 ^ tb) by exact Hv.
    pose proof (value_from_le t (10 * (m * 10 ^ zs) + (b - 48))) as L.
    destruct (N.eq_dec b 48) as [-> |Hb48].
    + destruct (IH (zs + 1) m ex z rest Hd' Hs Hm) as (m' & ex' & z' & H1 & H2 & H3 & H4).
      { rewrite N.pow_add_r, N.pow_1_r. replace (m * (10 ^ zs * 10)) with (10 * (m * 10 ^ zs) + (48 - 48)) by lia. exact Hv'. }
      exists m', ex', z'. cbn [fraction]. change (48 =? 48) with true. cbv iota. split; [exact H1|]. split.
      * rewrite <- H2. change (value_from (m * 10 ^ zs) (48 :: t ++ repeat 48 z)) with (value_from (10 * (m * 10 ^ zs) + (48 - 48)) (t ++ repeat 48 z)).
        f_equal. rewrite N.pow_add_r, N.pow_1_r. lia.
      * rewrite lenN_cons. split; [lia|assumption].
    + rewrite fraction_digit; [|unfold is_digit, between; lia|assumption|now left|lia].
      destruct (IH 0 (m * 10 ^ zs * 10 + (b - 48)) (ex + zs + 1) z rest Hd' Hs) as (m' & ex' & z' & H1 & H2 & H3 & H4); [lia| |].
      { change (10 ^ 0) with 1. rewrite N.mul_1_r. replace (m * 10 ^ zs * 10 + (b - 48)) with (10 * (m * 10 ^ zs) + (b - 48)) by lia. exact Hv'. }
      exists m', ex', z'. split; [exact H1|]. split.
      * rewrite <- H2. change (value_from (m * 10 ^ zs) (b :: t ++ repeat 48 z)) with (value_from (10 * (m * 10 ^ zs) + (b - 48)) (t ++ repeat 48 z)).
        f_equal. change (10 ^ 0) with 1. lia.
      * rewrite lenN_cons. split; [lia|]. left. destruct H4 as [H4| ->]; [assumption|].
        rewrite N.add_comm, N.mod_add by discriminate. rewrite N.mod_small by lia. lia.
Qed.

(** The mantissa of a fraction: its last digit is not zero. *)
Definition mant_last (fs : bytes) (m ex : N) : Prop := m mod 10 <> 0 \/ (m = 0 /\ ex = lenN fs).

Lemma frac_ok oc tb t z rest : Forall digit t -> stops rest -> JsonNumSpec.value t < 2 ^ tb ->
  forall fs, fs = t ++ repeat 48 z ->
  exists m ex, (let (n, r0) := zeros (fs ++ rest) in fraction oc tb 0 0 n r0) = Ok (m, ex, rest) /\
    mant fs m ex /\ mant_last fs m ex.
Proof.
  intros Hd Hs Hv fs Hfs. destruct (zeros fs) as [a fs1] eqn:Ez. apply zeros_split in Ez. destruct Ez as [Efs Hne].
  assert (H48 : match fs1 ++ rest with b :: _ => b <> 48 | [] => True end).
  { destruct fs1 as [|b fs1]; [|exact Hne]. cbn [app]. destruct rest as [|b r]; [exact Logic.I|]. cbn [stops] in Hs. intros ->. discriminate Hs. }
  assert (EZ : zeros (fs ++ rest) = (a, fs1 ++ rest)).
  { rewrite Efs. rewrite <- app_assoc, zeros_app by assumption. now rewrite N2Nat.id. }
  rewrite EZ. clear EZ.
  assert (La : lenN (repeat 48 (N.to_nat a)) = a) by (unfold lenN; rewrite repeat_length; lia).
  destruct fs1 as [|b fs1].
  - exists 0, a. split; [exact (fraction_zeros oc tb 0 0 0 a rest Hs)|].
    rewrite app_nil_r in Efs. split.
    + exists 0. rewrite Efs, value_zeros, La. split; lia.
    + right. rewrite Efs, La. split; reflexivity.
  - (* the first digit that is not zero *)
    assert (Ht : exists t1, t = repeat 48 (N.to_nat a) ++ b :: t1 /\ fs1 = t1 ++ repeat 48 z).
    { rewrite Hfs in Efs. symmetry in Efs. apply app_eq_app in Efs. destruct Efs as (l & [[E1 E2]|[E1 E2]]).
      - (* repeat a = t ++ l, repeat z = l ++ b :: fs1 *)
        exfalso. assert (In b (repeat 48 z)) by (rewrite E2; apply in_or_app; right; now left).
        apply repeat_spec in H. congruence.
      - destruct l as [|b' t1].
        + exfalso. cbn in E2. assert (In b (repeat 48 z)) by (rewrite <- E2; now left). apply repeat_spec in H. congruence.
        + cbn in E2. injection E2 as <- ->. eauto. }
    destruct Ht as (t1 & -> & ->). apply Forall_app in Hd. destruct Hd as [_ Hd]. inversion Hd as [|? ? Hb Hd1]; subst. unfold digit in Hb.
    rewrite value_app, value_zeros, N.mul_0_l, N.add_0_l in Hv.
    assert (Hv' : value_from (b - 48) t1 < 2 ^ tb).
    { replace (b - 48) with (10 * 0 + (b - 48)) by lia. exact Hv. }
    pose proof (value_from_le t1 (b - 48)) as L. cbn [app]. rewrite fraction_digit; [|unfold is_digit, between; lia|assumption|now right|].
    2:{ change (10 ^ 0) with 1. lia. }
    replace (0 * 10 ^ 0 * 10 + (b - 48)) with (b - 48) by (change (10 ^ 0) with 1; lia).
    replace (a + 0 + 1) with (a + 1) by lia. rewrite <- app_assoc.
    destruct (fraction_ok oc tb t1 0 (b - 48) (a + 1) z rest Hd1 Hs) as (m & ex & z' & H1 & H2 & H3 & H4); [lia| |].
    { change (10 ^ 0) with 1. now rewrite N.mul_1_r. }
    exists m, ex. split; [exact H1|]. change (10 ^ 0) with 1 in H2. rewrite N.mul_1_r in H2. split.
    + exists z'. rewrite <- app_assoc. cbn [app]. rewrite value_app, value_zeros, N.mul_0_l, N.add_0_l. split.
      * rewrite <- H2. unfold JsonNumSpec.value, value_from. cbn [fold_left]. f_equal; lia.
      * rewrite lenN_app, lenN_cons, La. lia.
    + left. destruct H4 as [H4| ->]; [assumption|]. rewrite N.mod_small by lia. lia.
Qed.

Lemma expo_ok oc e s rest : expo false e s -> s <> [] -> stops rest -> (- 2 ^ 31 <= e < 2 ^ 31)%Z ->
  exists c s', s = c :: s' /\ (c = 101 \/ c = 69) /\ exponent oc (s' ++ rest) = Ok (e, rest).
Proof.
  intros [[_ ->]|(c & sg & es & Hc & Hsg & Hd & Hes & -> & ->)] Hne Hs He; [congruence|].
  exists c, (sg ++ es). split; [reflexivity|]. split; [assumption|]. unfold exponent.
  assert (V : value_from 0 es = JsonNumSpec.value es) by reflexivity.
  assert (K : forall neg, neg = (if list_eq_dec N.eq_dec sg [45] then true else false) ->
    (let* (n, r') := digits oc 32 0 (es ++ rest) in
     let* z := if neg : bool then negate 32 n else signed 32 n in Ok (z, r')) = Ok (z_of neg (JsonNumSpec.value es), rest)).
  { intros neg Hneg. rewrite <- Hneg in He. rewrite digits_stop; try assumption.
    - cbn [bind]. rewrite V. unfold negate, signed, z_of in *. change (2 ^ (32 - 1)) with 2147483648. destruct neg.
      + destruct (_ <? _) eqn:E; [lia|reflexivity].
      + destruct (_ <? _) eqn:E; [lia|reflexivity].
    - rewrite V. change (2 ^ 32) with 4294967296. unfold z_of in He. destruct neg; lia. }
  destruct Hsg as [-> |[-> | ->]]; cbn [app].
  - destruct es as [|d es]; [discriminate (Hes eq_refl)|]. inversion Hd as [|? ? Hd1 _]; subst. unfold digit in Hd1.
    cbn [app] in *. destruct (d =? 45) eqn:E1; [lia|]. destruct (d =? 43) eqn:E2; [lia|]. exact (K false eq_refl).
  - exact (K false eq_refl).
  - exact (K true eq_refl).
Qed.

Lemma ends_stops rest : ends rest = true -> stops rest.
Proof. intros H. now apply ends_digit in H. Qed.

Lemma expo_stops l e se rest : expo l e se -> ends rest = true -> stops (se ++ rest).
Proof.
  intros [[_ ->]|(c & sg & es & Hc & _ & _ & _ & -> & _)] He; [now apply ends_stops|].
  cbn [app stops]. unfold is_digit, between. lia.
Qed.

Lemma frac_stops l l' fs sf e se rest : frac l fs sf -> expo l' e se -> ends rest = true -> stops (sf ++ se ++ rest).
Proof.
  intros [[_ ->]|(_ & _ & ->)] He Hr; [exact (expo_stops _ _ _ _ He Hr)|]. reflexivity.
Qed.

Lemma unsigned_full_ok oc tb ds fs t z e s rest : decimal false ds fs e s -> ends rest = true ->
  JsonNumSpec.value ds < 2 ^ tb -> fs = t ++ repeat 48 z -> JsonNumSpec.value t < 2 ^ tb -> (- 2 ^ 31 <= e < 2 ^ 31)%Z ->
  exists q, unsigned_full oc tb (s ++ rest) = Ok (q, rest) /\ parts_of ds fs e q /\ mant_last fs (pt_m q) (pt_exp q).
Proof.
  intros (sf & se & Hds & Hf & He & ->) Hr Hv Hfs Ht Hrange. unfold unsigned_full. rewrite <- !app_assoc.
  rewrite (unsigned_base_stop oc tb (JsonNumSpec.value ds)); [|exact Hds|now apply frac_stops with false false fs e|assumption].
  cbn [bind].
  assert (HF : exists m ex, full_frac oc tb (sf ++ se ++ rest) = Ok ((m, ex), se ++ rest) /\ mant fs m ex /\ mant_last fs m ex).
  { unfold full_frac. destruct Hf as [[-> ->]|(Hd & _ & ->)].
    - cbn [app]. exists 0, 0. split; [|split; [apply mant_nil|right; split; reflexivity]].
      destruct He as [[_ ->]|(c & sg & es & Hc & _ & _ & _ & -> & _)].
      + cbn [app]. destruct rest as [|b r]; [reflexivity|]. destruct (ends_other _ _ _ Hr eq_refl) as (Hb & _).
        destruct (b =? 46) eqn:E; [lia|reflexivity].
      + cbn [app]. destruct (c =? 46) eqn:E; [lia|reflexivity].
    - cbn [app]. change (46 =? 46) with true. cbv iota. rewrite Hfs in Hd. apply Forall_app in Hd. destruct Hd as [Hd _].
      destruct (frac_ok oc tb t z (se ++ rest) Hd (expo_stops _ _ _ _ He Hr) Ht fs Hfs) as (m & ex & H1 & H2). eauto. }
  destruct HF as (m & ex & -> & Hm & Hl). cbn [bind fst snd].
  assert (HE : full_exp oc (se ++ rest) = Ok (e, rest)).
  { unfold full_exp. pose proof He as He'. destruct He as [[-> ->]|(c & sg & es & Hc & _ & _ & _ & Ese & _)].
    - cbn [app]. destruct rest as [|b r]; [reflexivity|]. destruct (ends_other _ _ _ Hr eq_refl) as (_ & H1 & H2).
      destruct (_ || _) eqn:E; [lia|reflexivity].
    - destruct (expo_ok oc e se rest He') as (c' & s' & -> & Hc' & HE); [rewrite Ese; discriminate|now apply ends_stops|assumption|].
      cbn [app]. destruct (_ || _) eqn:E; [exact HE|lia]. }
  rewrite HE. cbn [bind]. eexists. split; [reflexivity|]. split; [|exact Hl].
  split; [reflexivity|]. split; [exact Hm|reflexivity].
Qed.

(** When the fraction is zero and the exponent positive, there are no more digits after the point than the
    exponent moves. *)
Definition enough (fs : bytes) (e : Z) : Prop := (0 < e)%Z -> JsonNumSpec.value fs = 0 -> (Z.of_nat (length fs) <= e)%Z.

Lemma mod_pow10 x y k : y < 10 ^ k -> (x * 10 ^ k + y) mod 10 ^ k = y.
Proof. intros H. rewrite N.add_comm, N.mod_add by (apply N.pow_nonzero; discriminate). now apply N.mod_small. Qed.

Lemma compute_ok oc tb ds fs e q n : parts_of ds fs e q -> mant_last fs (pt_m q) (pt_exp q) -> Forall digit fs ->
  equals ds fs e n -> n < 2 ^ tb -> JsonNumSpec.value ds < 2 ^ tb -> (- 2 ^ 31 < e)%Z -> n <> 0 \/ e = 0%Z -> enough fs e ->
  compute oc tb q = Ok n.
Proof.
  intros (Hb & (z & Hv & Hk) & He) Hl Hd Heq Hn Hds Hmin Hnz Hen. pose proof (value_lt fs Hd) as Hlt.
  rewrite (equals_iff ds fs e _ _ z n Hv Hk) in Heq. unfold compute. rewrite He, Hb. clear He Hb.
  unfold enough in Hen. rewrite <- lenN_length in Hen. unfold mant_last in Hl. rewrite Hv in *. clear Hv Hd.
  set (m := pt_m q) in *. set (ex := pt_exp q) in *. set (B := JsonNumSpec.value ds) in *. set (k := lenN fs) in *.
  clearbody m ex B k. clear ds fs.
  destruct (e =? 0)%Z eqn:E0.
  - assert (e = 0%Z) by lia. subst e. change (0 <=? 0)%Z with true in Heq. cbv iota in Heq. change (Z.to_N 0) with 0 in Heq.
    rewrite !N.add_0_r in Heq.
    assert (M : (B * 10 ^ k + m * 10 ^ z) mod 10 ^ k = m * 10 ^ z) by now apply mod_pow10.
    rewrite Heq, N.mod_mul in M by (apply N.pow_nonzero; discriminate). symmetry in M. apply N.eq_mul_0 in M.
    destruct M as [M|M]; [|exfalso; revert M; apply N.pow_nonzero; discriminate].
    subst m. change (0 =? 0) with true. cbv iota. rewrite N.mul_0_l, N.add_0_r in Heq.
    apply N.mul_cancel_r in Heq; [congruence|apply N.pow_nonzero; discriminate].
  - destruct (0 <=? e)%Z eqn:E1.
    + assert (exists en, e = Z.of_N en /\ 0 < en) as (en & -> & Hen0) by (exists (Z.to_N e); lia). rewrite N2Z.id in *.
      assert (Hex : ex <= en).
      { destruct Hl as [Hl|[Hm Hx]]; [|rewrite Hm in Hen; lia].
        destruct (N.le_gt_cases ex en) as [H|H]; [assumption|exfalso]. apply Hl.
        (* everything is a multiple of [10 ^ (z + en + 1)] *)
        assert (D : exists c, m * 10 ^ (z + en) = c * 10 ^ (z + en + 1)).
        { exists (n * 10 ^ (k - (z + en + 1)) - B * 10 ^ (k - (z + 1))).
          rewrite N.mul_sub_distr_r, <- !N.mul_assoc, <- !N.pow_add_r.
          replace (k - (z + en + 1) + (z + en + 1)) with k by lia. replace (k - (z + 1) + (z + en + 1)) with (k + en) by lia. lia. }
        destruct D as (c & D). rewrite (N.pow_add_r 10 (z + en) 1), N.pow_1_r, (N.mul_comm (10 ^ (z + en))), N.mul_assoc in D.
        apply N.mul_cancel_r in D; [|apply N.pow_nonzero; discriminate]. subst m. now apply N.mod_mul. }
      destruct (_ <? 0)%Z eqn:E2; [lia|].
      assert (En : n = B * 10 ^ en + m * 10 ^ (en - ex)).
      { apply (N.mul_cancel_r _ _ (10 ^ k)); [apply N.pow_nonzero; discriminate|]. rewrite <- Heq, N.mul_add_distr_r, <- !N.mul_assoc, <- !N.pow_add_r.
        f_equal; f_equal; f_equal; lia. }
      assert (Hn0 : n <> 0) by lia. pose proof (pow10_pos en) as P1. pose proof (pow10_pos (en - ex)) as P2.
      assert (P3 : 10 ^ (en - ex) <= 10 ^ en) by (apply N.pow_le_mono_r; lia).
      assert (EB : (if B =? 0 then Ok 0 else match pow10 tb B en with Some n => Ok n | None => Err end) = Ok (B * 10 ^ en)).
      { destruct (B =? 0) eqn:EB; [assert (B = 0) by lia; subst B; now rewrite N.mul_0_l|].
        assert (1 * 10 ^ en <= B * 10 ^ en) by (apply N.mul_le_mono_r; lia). rewrite pow10_ok by lia. reflexivity. }
      rewrite EB. cbn [bind]. replace (Z.to_N (Z.of_N en - Z.of_N ex)) with (en - ex) by lia.
      assert (P4 : 10 ^ (en - ex) < 2 ^ tb).
      { destruct (N.eq_dec m 0) as [Hm|Hm].
        - destruct (N.eq_dec B 0) as [HB|HB]; [subst m B; lia|]. assert (1 * 10 ^ en <= B * 10 ^ en) by (apply N.mul_le_mono_r; lia). lia.
        - assert (1 * 10 ^ (en - ex) <= m * 10 ^ (en - ex)) by (apply N.mul_le_mono_r; lia). lia. }
      rewrite pow10_ok by lia. cbn [bind]. rewrite <- En. destruct (_ <=? _) eqn:E3; [lia|reflexivity].
    + assert (exists en, e = (- Z.of_N en)%Z /\ 0 < en) as (en & -> & Hen0) by (exists (Z.to_N (- e)); lia).
      replace (Z.to_N (- - Z.of_N en)) with en in * by lia.
      rewrite N.pow_add_r, (N.mul_comm (10 ^ k)), N.mul_assoc in Heq.
      assert (M : (B * 10 ^ k + m * 10 ^ z) mod 10 ^ k = m * 10 ^ z) by now apply mod_pow10.
      rewrite Heq, N.mod_mul in M by (apply N.pow_nonzero; discriminate). symmetry in M. apply N.eq_mul_0 in M.
      destruct M as [M|M]; [|exfalso; revert M; apply N.pow_nonzero; discriminate].
      subst m. change (0 =? 0) with true. cbn [negb]. destruct (_ && oc) eqn:E2; [lia|].
      rewrite N.mul_0_l, N.add_0_r in Heq. apply N.mul_cancel_r in Heq; [|apply N.pow_nonzero; discriminate].
      assert (Hn0 : n <> 0) by lia. pose proof (pow10_pos en) as P1.
      assert (1 * 10 ^ en <= n * 10 ^ en) by (apply N.mul_le_mono_r; lia).
      unfold neg_pow10. rewrite pow10_ok by lia. rewrite N.mul_1_l. rewrite Heq.
      rewrite N.mod_mul, N.div_mul by (apply N.pow_nonzero; discriminate). reflexivity.
Qed.

Lemma strip fs : Forall digit fs -> exists t z, fs = t ++ repeat 48 z /\ (t = [] \/ JsonNumSpec.value t mod 10 <> 0).
Proof.
  induction fs as [|b fs IH] using rev_ind; intros H.
  - exists [], 0%nat. split; [reflexivity|now left].
  - apply Forall_app in H. destruct H as [H Hb]. inversion Hb as [|? ? Hb' _]; subst. destruct (N.eq_dec b 48) as [->|Hne].
    + destruct (IH H) as (t & z & -> & Ht). exists t, (S z). split; [|assumption]. rewrite <- app_assoc. f_equal. change [48] with (repeat 48 1).
      rewrite <- repeat_app. f_equal. lia.
    + exists (fs ++ [b]), 0%nat. split; [now rewrite app_nil_r|]. right. rewrite value_app. change (lenN [b]) with 1. rewrite N.pow_1_r.
      rewrite N.add_comm, N.mod_add by discriminate. unfold JsonNumSpec.value. cbn [fold_left]. red in Hb'.
      rewrite N.mod_small; lia.
Qed.

Lemma fits tb ds fs e n : Forall digit fs -> equals ds fs e n -> n < 2 ^ tb -> ((e < 0)%Z -> JsonNumSpec.value ds < 2 ^ tb) ->
  JsonNumSpec.value ds < 2 ^ tb /\ exists t z, fs = t ++ repeat 48 z /\ JsonNumSpec.value t < 2 ^ tb.
Proof.
  intros Hd Heq Hn Hds. pose proof (value_lt fs Hd) as Hlt. destruct (strip fs Hd) as (t & z & Efs & Ht).
  assert (Hv : JsonNumSpec.value fs = JsonNumSpec.value t * 10 ^ N.of_nat z).
  { rewrite Efs, value_app, value_zeros, N.add_0_r. unfold lenN. now rewrite repeat_length. }
  assert (Hk : lenN t + N.of_nat z = lenN fs) by (rewrite Efs; unfold lenN; rewrite app_length, repeat_length; lia).
  rewrite (equals_iff ds fs e _ _ _ n Hv Hk) in Heq. rewrite Hv in Hlt.
  assert (K : JsonNumSpec.value ds < 2 ^ tb /\ JsonNumSpec.value t < 2 ^ tb).
  2:{ split; [apply K|]. exists t, z. split; [assumption|apply K]. }
  assert (H0 : 0 < 2 ^ tb) by (apply N.neq_0_lt_0, N.pow_nonzero; discriminate).
  assert (Hl : JsonNumSpec.value t = 0 \/ JsonNumSpec.value t mod 10 <> 0) by (destruct Ht as [->|Ht]; [now left|now right]).
  clear Ht Efs Hv Hd. set (m := JsonNumSpec.value t) in *. set (B := JsonNumSpec.value ds) in *. set (k := lenN fs) in *. set (ex := lenN t) in *.
  set (zn := N.of_nat z) in *. clearbody m B k ex zn. clear ds fs t z.
  destruct (0 <=? e)%Z eqn:E1.
  - assert (exists en, e = Z.of_N en) as [en ->] by (exists (Z.to_N e); lia). rewrite N2Z.id in *. clear Hds.
    pose proof (pow10_pos k) as Pk. pose proof (pow10_pos en) as Pe.
    assert (L : forall x j, x * 10 ^ (k + j) <= n * 10 ^ k -> x <= n).
    { intros x j H. rewrite N.pow_add_r, (N.mul_comm (10 ^ k)), N.mul_assoc in H. apply N.mul_le_mono_pos_r in H; [|lia].
      pose proof (pow10_pos j). nia. }
    split; [specialize (L B en); lia|]. destruct Hl as [->|Hl]; [assumption|].
    assert (Hex : ex <= en).
    { destruct (N.le_gt_cases ex en) as [H|H]; [assumption|exfalso]. apply Hl.
      assert (D : exists c, m * 10 ^ (zn + en) = c * 10 ^ (zn + en + 1)).
      { exists (n * 10 ^ (k - (zn + en + 1)) - B * 10 ^ (k - (zn + 1))).
        rewrite N.mul_sub_distr_r, <- !N.mul_assoc, <- !N.pow_add_r.
        replace (k - (zn + en + 1) + (zn + en + 1)) with k by lia. replace (k - (zn + 1) + (zn + en + 1)) with (k + en) by lia. lia. }
      destruct D as (c & D). rewrite (N.pow_add_r 10 (zn + en) 1), N.pow_1_r, (N.mul_comm (10 ^ (zn + en))), N.mul_assoc in D.
      apply N.mul_cancel_r in D; [|apply N.pow_nonzero; discriminate]. subst m. now apply N.mod_mul. }
    specialize (L m (en - ex)). replace (k + (en - ex)) with (zn + en) in L by lia. lia.
  - split; [apply Hds; lia|].
    assert (M : (B * 10 ^ k + m * 10 ^ zn) mod 10 ^ k = m * 10 ^ zn) by now apply mod_pow10.
    rewrite Heq in M. rewrite N.pow_add_r, (N.mul_comm (10 ^ k)), N.mul_assoc, N.mod_mul in M by (apply N.pow_nonzero; discriminate).
    symmetry in M. apply N.eq_mul_0 in M. destruct M as [M|M]; [lia|exfalso; revert M; apply N.pow_nonzero; discriminate].
Qed.

(** ** Any input *)

Lemma zeros_sfx bs : sfx bs (snd (zeros bs)).
Proof.
  destruct (zeros bs) as [n r] eqn:E. apply zeros_split in E. destruct E as [-> _]. now exists (repeat 48 (N.to_nat n)).
Qed.

Lemma fraction_post oc tb np : (np = true -> oc = false) -> forall bs zs m ex, m < 2 ^ tb ->
  post np (fraction oc tb zs m ex bs) (fun x => fst (fst x) < 2 ^ tb /\ sfx bs (snd x)).
Proof.
  intros Hnp. induction bs as [|b r IH]; intros zs m ex Hm; cbn [fraction].
  - cbn. split; [assumption|apply sfx_refl].
  - assert (K : forall zs a ex, a < 2 ^ tb -> post np (fraction oc tb zs a ex r) (fun x => fst (fst x) < 2 ^ tb /\ sfx (b :: r) (snd x))).
    { intros zs' a ex' H. eapply post_weaken; [now apply IH|]. intros x [H1 H2]. split; [assumption|].
      eapply sfx_trans; [apply sfx_cons|exact H2]. }
    destruct (b =? 48); [now apply K|]. destruct (is_digit b); [|cbn; split; [assumption|apply sfx_refl]].
    destruct (if zs =? 0 then Some m else pow10 tb m zs) as [m1|]; [|exact I].
    destruct (_ <=? _); [exact I|]. destruct (2 ^ tb <=? m1 * 10 + (b - 48)) eqn:E2.
    + destruct oc; [cbn; destruct np; [now discriminate Hnp|reflexivity]|].
      apply K. apply N.mod_lt. apply N.pow_nonzero. discriminate.
    + apply K. lia.
Qed.

Lemma exponent_post oc np bs : (np = true -> oc = false) ->
  post np (exponent oc bs) (fun x => (- 2 ^ 31 <= fst x < 2 ^ 31)%Z /\ sfx bs (snd x)).
Proof.
  intros Hnp. unfold exponent.
  assert (K : forall neg r, sfx bs r -> post np (let* (n, r') := digits oc 32 0 r in
     let* z := if neg : bool then negate 32 n else signed 32 n in Ok (z, r'))
     (fun x => (- 2 ^ 31 <= fst x < 2 ^ 31)%Z /\ sfx bs (snd x))).
  { intros neg r Hr. eapply post_bind; [now apply digits_post|]. intros [n r']; cbn [fst snd]; intros [H1 H2].
    unfold negate, signed. change (2 ^ (32 - 1)) with 2147483648. change (2 ^ 31)%Z with 2147483648%Z.
    destruct neg; (destruct (_ <? _) eqn:E; [exact I|]); cbn [bind post fst snd]; (split; [lia|]); eapply sfx_trans; eauto. }
  destruct bs as [|b r]; [exact (K false [] (sfx_refl _))|]. destruct (b =? 45); [|destruct (b =? 43)].
  - exact (K true r (sfx_cons _ _)).
  - exact (K false r (sfx_cons _ _)).
  - exact (K false (b :: r) (sfx_refl _)).
Qed.

Definition parts_ok (tb : N) (q : parts) : Prop :=
  pt_base q < 2 ^ tb /\ pt_m q < 2 ^ tb /\ (- 2 ^ 31 <= pt_e q < 2 ^ 31)%Z.

Lemma unsigned_full_post oc tb np bs : (np = true -> oc = false) -> 4 <= tb ->
  post np (unsigned_full oc tb bs) (fun x => parts_ok tb (fst x) /\ psfx bs (snd x)).
Proof.
  intros Hnp Ht. unfold unsigned_full. assert (H0 : 0 < 2 ^ tb) by (apply N.neq_0_lt_0, N.pow_nonzero; discriminate).
  eapply post_bind; [now apply unsigned_base_post|]. intros [b r]; cbn [fst snd]; intros [H1 H2].
  eapply post_bind with (Q := fun x => fst (fst x) < 2 ^ tb /\ sfx r (snd x)).
  { unfold full_frac. destruct r as [|c r']; [cbn; split; [assumption|apply sfx_refl]|].
    destruct (c =? 46); [|cbn; split; [assumption|apply sfx_refl]].
    pose proof (zeros_sfx r') as Hz. destruct (zeros r') as [z r0]. cbn [snd] in Hz.
    eapply post_weaken; [now apply fraction_post|]. intros x [H3 H4]. split; [assumption|].
    eapply sfx_trans; [apply sfx_cons|]. eapply sfx_trans; eauto. }
  intros [mx r1]; cbn [fst snd]; intros [H3 H4].
  eapply post_bind with (Q := fun x => (- 2 ^ 31 <= fst x < 2 ^ 31)%Z /\ sfx r1 (snd x)).
  { unfold full_exp. destruct r1 as [|c r']; [cbn; split; [lia|apply sfx_refl]|].
    destruct (_ || _); [|cbn; split; [lia|apply sfx_refl]].
    eapply post_weaken; [now apply exponent_post|]. intros x [H5 H6]. split; [assumption|].
    eapply sfx_trans; [apply sfx_cons|exact H6]. }
  intros [e r2]; cbn [fst snd]; intros [H5 H6]. cbn [post fst snd]. split; [split; [assumption|split; assumption]|].
  eapply psfx_sfx_l; [exact H2|]. eapply sfx_trans; eauto.
Qed.

Lemma compute_post oc tb np q : (np = true -> oc = false) -> parts_ok tb q -> post np (compute oc tb q) (fun n => n < 2 ^ tb).
Proof.
  intros Hnp (Hb & Hm & He). unfold compute. destruct (_ =? 0)%Z; [destruct (_ =? 0); [exact Hb|exact I]|].
  destruct (0 <=? _)%Z.
  - destruct (_ <? 0)%Z; [exact I|]. eapply post_bind with (Q := fun _ => True).
    { destruct (_ =? 0); [exact I|]. destruct (pow10 _ _ _); exact I. }
    intros b _. eapply post_bind with (Q := fun _ => True); [destruct (pow10 _ _ _); exact I|].
    intros m _. destruct (_ <=? _) eqn:E; [exact I|]. cbn. lia.
  - destruct (negb _); [exact I|]. destruct (_ && oc) eqn:E.
    + cbn. destruct np; [|reflexivity]. rewrite (Hnp eq_refl) in E. lia.
    + unfold neg_pow10. destruct (pow10 tb 1 _) as [d|] eqn:Ed; [|exact I]. destruct (_ =? 0); [|exact I]. cbn.
      apply pow10_some in Ed. destruct Ed as [-> _]. rewrite N.mul_1_l.
      eapply N.le_lt_trans; [|exact Hb]. apply N.div_le_upper_bound; [apply N.pow_nonzero; discriminate|].
      pose proof (pow10_pos (Z.to_N (- pt_e q))). nia.
Qed.

Lemma signed_compute_post oc tb np neg q : (np = true -> oc = false) -> 4 <= tb -> parts_ok tb q ->
  post np (signed_compute oc tb neg q) (fun z => in_sb tb z = true).
Proof.
  intros Hnp Ht Hq. unfold signed_compute. eapply post_bind; [now apply compute_post|]. intros n Hn.
  pose proof (pow_half tb) as Hpw. assert (0 < 2 ^ (tb - 1)) by (apply N.neq_0_lt_0, N.pow_nonzero; discriminate).
  unfold negate, signed. destruct neg; (destruct (_ <? _) eqn:E; [exact I|]); cbn [post]; apply in_sb_iff; lia.
Qed.

Lemma parse_unsigned_full_post oc tb np bs : (np = true -> oc = false) -> 4 <= tb ->
  post np (parse_unsigned_full oc tb bs) (fun x => fst x < 2 ^ tb /\ psfx bs (snd x)).
Proof.
  intros Hnp Ht. unfold parse_unsigned_full. eapply post_bind; [now apply unsigned_full_post|].
  intros [q r]; cbn [fst snd]; intros [H1 H2]. eapply post_bind; [now apply compute_post|]. intros n Hn. cbn.
  split; [assumption|]. eapply sfx_psfx; [apply skip_ws_sfx|exact H2].
Qed.

Lemma signed_full_post oc tb np bs : (np = true -> oc = false) -> 4 <= tb ->
  post np (signed_full oc tb bs) (fun x => parts_ok tb (snd (fst x)) /\ psfx bs (snd x)).
Proof.
  intros Hnp Ht. unfold signed_full. destruct bs as [|b r]; [exact I|]. destruct (b =? 45).
  - eapply post_bind; [now apply unsigned_full_post|]. intros [q r']; cbn [fst snd]; intros [H1 H2]. cbn.
    split; [assumption|]. eapply psfx_trans; [apply psfx_cons|exact H2].
  - eapply post_bind; [now apply unsigned_full_post|]. intros [q r']; cbn [fst snd]; intros [H1 H2]. cbn. auto.
Qed.

Lemma parse_signed_full_post oc tb np bs : (np = true -> oc = false) -> 4 <= tb ->
  post np (parse_signed_full oc tb bs) (fun x => in_sb tb (fst x) = true /\ psfx bs (snd x)).
Proof.
  intros Hnp Ht. unfold parse_signed_full. eapply post_bind; [now apply signed_full_post|].
  intros [[neg q] r]; cbn [fst snd]; intros [H1 H2]. eapply post_bind; [now apply signed_compute_post|]. intros z Hz. cbn.
  split; [assumption|]. eapply sfx_psfx; [apply skip_ws_sfx|exact H2].
Qed.

(** ** Without a fraction and an exponent *)

Lemma digits_rest oc tb ds : forall acc rest n r, Forall digit ds -> stops rest ->
  digits oc tb acc (ds ++ rest) = Ok (n, r) -> r = rest.
Proof.
  induction ds as [|d ds IH]; intros acc rest n r Hd Hs H.
  - cbn [app] in H. destruct rest as [|b rest]; cbn [digits] in H; [now injection H|]. cbn [stops] in Hs. rewrite Hs in H. now injection H.
  - inversion Hd as [|? ? Hx Hd']; subst. cbn [app digits] in H. destruct (digit_byte d Hx) as (_ & _ & E & _). rewrite E in H.
    destruct (_ <=? _); [discriminate|]. destruct (_ <=? _); [destruct oc; [discriminate|]|]; now apply IH in H.
Qed.

Lemma unsigned_base_rest oc tb n s rest m r : int_text n s -> stops rest ->
  unsigned_base oc tb (s ++ rest) = Ok (m, r) -> r = rest.
Proof.
  intros (Hn & Hd & Hz & _) Hs H. destruct s as [|b s]; [congruence|]. inversion Hd as [|? ? _ Hd']; subst.
  cbn [app unsigned_base] in H. destruct (b =? 48) eqn:E.
  - assert (b = 48) by lia. subst b. specialize (Hz eq_refl). injection Hz as ->. cbn in H. now injection H.
  - destruct (is_digit_nonzero b); [|discriminate]. now apply digits_rest in H.
Qed.

Lemma unsigned_full_int oc tb n s rest : int_text n s -> ends rest = true ->
  unsigned_full oc tb (s ++ rest) =
  (let* (m, r) := unsigned_base oc tb (s ++ rest) in Ok ({| pt_base := m; pt_m := 0; pt_exp := 0; pt_e := 0 |}, r)).
Proof.
  intros Hs He. unfold unsigned_full. destruct (unsigned_base oc tb (s ++ rest)) as [[m r]| |] eqn:E; try reflexivity. cbn [bind].
  apply (unsigned_base_rest oc tb n s rest m r Hs (ends_stops _ He)) in E. subst r.
  assert (F : full_frac oc tb rest = Ok ((0, 0), rest)).
  { unfold full_frac. destruct rest as [|b r]; [reflexivity|]. destruct (ends_other _ _ _ He eq_refl) as (Hb & _).
    destruct (b =? 46) eqn:Eb; [lia|reflexivity]. }
  rewrite F. cbn [bind fst snd].
  assert (G : full_exp oc rest = Ok (0%Z, rest)).
  { unfold full_exp. destruct rest as [|b r]; [reflexivity|]. destruct (ends_other _ _ _ He eq_refl) as (_ & H1 & H2).
    destruct (_ || _) eqn:Eb; [lia|reflexivity]. }
  rewrite G. reflexivity.
Qed.

Lemma parse_unsigned_full_int oc tb w n s rest : space w -> int_text n s -> ends rest = true ->
  parse_unsigned_full oc tb (w ++ s ++ rest) = parse_unsigned oc tb (w ++ s ++ rest).
Proof.
  intros Hw Hs He. unfold parse_unsigned_full, parse_unsigned. rewrite skip_ws_space, (int_head_ws n s) by assumption.
  rewrite (unsigned_full_int oc tb n) by assumption.
  destruct (unsigned_base oc tb (s ++ rest)) as [[m r]| |]; reflexivity.
Qed.

Lemma parse_signed_full_int oc tb w neg n s rest : space w -> int_text n s -> ends rest = true ->
  parse_signed_full oc tb (w ++ (sign neg ++ s) ++ rest) = parse_signed oc tb (w ++ (sign neg ++ s) ++ rest).
Proof.
  intros Hw Hs He. unfold parse_signed_full. rewrite parse_signed_eq. rewrite skip_ws_space by assumption.
  destruct neg; cbn [sign app].
  - rewrite skip_ws_id by reflexivity. unfold signed_full. change (45 =? 45) with true. cbv iota.
    rewrite (unsigned_full_int oc tb n) by assumption.
    destruct (unsigned_base oc tb (s ++ rest)) as [[m r]| |]; reflexivity.
  - rewrite (int_head_ws n s) by assumption. destruct (not_minus n s rest Hs) as (b & r & E & Hb).
    unfold signed_full. rewrite E. destruct (b =? 45) eqn:E1; [lia|]. rewrite <- E.
    rewrite (unsigned_full_int oc tb n) by assumption.
    destruct (unsigned_base oc tb (s ++ rest)) as [[m r']| |]; reflexivity.
Qed.

(** ** Both directions for a type *)

Lemma decimal_head l ds fs e s : decimal l ds fs e s -> exists r, s = ds ++ r /\ whole ds.
Proof. intros (sf & se & H & _ & _ & ->). exists (sf ++ se). split; [reflexivity|assumption]. Qed.

Lemma frac_digits l fs sf : frac l fs sf -> Forall digit fs.
Proof. intros [[-> _]|(H & _)]; [constructor|assumption]. Qed.

Lemma decimal_digits l ds fs e s : decimal l ds fs e s -> Forall digit fs.
Proof. intros (sf & se & _ & H & _). now apply frac_digits in H. Qed.

Lemma unsigned_full_accepts oc tb ds fs e s n rest : decimal false ds fs e s -> ends rest = true ->
  equals ds fs e n -> n < 2 ^ tb -> ((e < 0)%Z -> JsonNumSpec.value ds < 2 ^ tb) -> (- 2 ^ 31 < e < 2 ^ 31)%Z ->
  n <> 0 \/ e = 0%Z -> enough fs e ->
  exists q, unsigned_full oc tb (s ++ rest) = Ok (q, rest) /\ compute oc tb q = Ok n.
Proof.
  intros Hd Hr Heq Hn Hds He Hz Hen. pose proof (decimal_digits _ _ _ _ _ Hd) as Hfd.
  destruct (fits tb ds fs e n Hfd Heq Hn Hds) as (Hb & t & z & Hfs & Ht).
  destruct (unsigned_full_ok oc tb ds fs t z e s rest Hd Hr Hb Hfs Ht) as (q & Hq & Hp & Hl); [lia|].
  exists q. split; [assumption|]. eapply compute_ok; eauto. lia.
Qed.

Lemma parse_unsigned_full_accepts oc tb w ds fs e s n rest : space w -> decimal false ds fs e s -> ends rest = true ->
  equals ds fs e n -> n < 2 ^ tb -> ((e < 0)%Z -> JsonNumSpec.value ds < 2 ^ tb) -> (- 2 ^ 31 < e < 2 ^ 31)%Z ->
  n <> 0 \/ e = 0%Z -> enough fs e ->
  parse_unsigned_full oc tb (w ++ s ++ rest) = Ok (n, rest).
Proof.
  intros Hw Hd Hr Heq Hn Hds He Hz Hen. unfold parse_unsigned_full. rewrite skip_ws_space by assumption.
  destruct (decimal_head _ _ _ _ _ Hd) as (s' & Es & Hds').
  replace (skip_ws (s ++ rest)) with (s ++ rest) by (rewrite Es, <- app_assoc; symmetry; eapply int_head_ws; exact Hds').
  destruct (unsigned_full_accepts oc tb ds fs e s n rest) as (q & H1 & H2); try assumption. rewrite H1. cbn [bind]. rewrite H2. reflexivity.
Qed.

Lemma signed_full_text oc tb neg ds fs e s rest q r : decimal false ds fs e s -> unsigned_full oc tb (s ++ rest) = Ok (q, r) ->
  signed_full oc tb (skip_ws ((sign neg ++ s) ++ rest)) = Ok (neg, q, r).
Proof.
  intros Hd H. destruct (decimal_head _ _ _ _ _ Hd) as (s' & Es & Hds'). destruct neg; cbn [sign app].
  - rewrite skip_ws_id by reflexivity. unfold signed_full. change (45 =? 45) with true. cbv iota. now rewrite H.
  - replace (skip_ws (s ++ rest)) with (s ++ rest) by (rewrite Es, <- app_assoc; symmetry; eapply int_head_ws; exact Hds').
    destruct (not_minus _ ds (s' ++ rest) Hds') as (b & r' & E & Hb). unfold signed_full.
    assert (E' : s ++ rest = b :: r') by (rewrite Es, <- app_assoc; exact E). rewrite E'. destruct (b =? 45) eqn:E1; [lia|].
    rewrite <- E', H. reflexivity.
Qed.

Lemma negate_in tb n : 1 <= tb -> in_sb tb (- Z.of_N n) = true -> negate tb n = Ok (- Z.of_N n)%Z.
Proof.
  intros Ht H. apply in_sb_iff in H. pose proof (pow_half tb Ht). unfold negate. destruct (_ <? _) eqn:E; [lia|reflexivity].
Qed.

Lemma signed_in tb n : 1 <= tb -> in_sb tb (Z.of_N n) = true -> signed tb n = Ok (Z.of_N n).
Proof.
  intros Ht H. apply in_sb_iff in H. pose proof (pow_half tb Ht). unfold signed. destruct (_ <? _) eqn:E; [lia|reflexivity].
Qed.

Lemma z_in_range tb neg n : 1 <= tb -> in_sb tb (z_of neg n) = true -> n < 2 ^ tb.
Proof.
  intros Ht H. apply in_sb_iff in H. pose proof (pow_half tb Ht) as P.
  assert (Q : 2 ^ tb = 2 * 2 ^ (tb - 1)) by (rewrite <- N.pow_succ_r'; f_equal; lia).
  assert (0 < 2 ^ (tb - 1)) by (apply N.neq_0_lt_0, N.pow_nonzero; discriminate).
  unfold z_of in H. destruct neg; lia.
Qed.

Lemma parse_signed_full_accepts oc tb w neg ds fs e s n rest : 1 <= tb -> space w -> decimal false ds fs e s -> ends rest = true ->
  equals ds fs e n -> in_sb tb (z_of neg n) = true -> ((e < 0)%Z -> JsonNumSpec.value ds < 2 ^ tb) -> (- 2 ^ 31 < e < 2 ^ 31)%Z ->
  n <> 0 \/ e = 0%Z -> enough fs e ->
  parse_signed_full oc tb (w ++ (sign neg ++ s) ++ rest) = Ok (z_of neg n, rest).
Proof.
  intros Ht Hw Hd Hr Heq Hn Hds He Hz Hen. unfold parse_signed_full. rewrite skip_ws_space by assumption.
  destruct (unsigned_full_accepts oc tb ds fs e s n rest) as (q & H1 & H2); try assumption; [eapply z_in_range; eassumption|].
  rewrite (signed_full_text oc tb neg ds fs e s rest q rest Hd H1). cbn [bind fst snd]. unfold signed_compute. rewrite H2. cbn [bind].
  unfold z_of in *. destruct neg; [rewrite negate_in by assumption|rewrite signed_in by assumption]; reflexivity.
Qed.

Lemma parse_unsigned_full_exact tb bs n r : 4 <= tb -> parse_unsigned_full true tb bs = Ok (n, r) ->
  n < 2 ^ tb /\ exists w ds fs e s, space w /\ bs = w ++ s ++ r /\ decimal true ds fs e s /\ equals ds fs e n.
Proof.
  intros Ht H. pose proof (parse_unsigned_full_post true tb false bs ltac:(discriminate) Ht) as P. rewrite H in P. cbn in P.
  split; [apply P|]. clear P. destruct (skip_ws_split bs) as (w & Hw & E). unfold parse_unsigned_full in H.
  apply bind_ok in H. destruct H as ([q r'] & H1 & H). apply bind_ok in H. destruct H as (m & H2 & H). injection H as -> ->.
  apply unsigned_full_sound in H1; [|assumption]. destruct H1 as (ds & fs & e & s & E1 & Hd & Hp & _).
  exists w, ds, fs, e, s. split; [assumption|]. split; [rewrite <- E1; exact E|]. split; [assumption|]. eapply compute_sound; eauto.
Qed.

Lemma signed_full_sound tb bs neg q r : 4 <= tb -> signed_full true tb bs = Ok (neg, q, r) ->
  exists ds fs e s, bs = (sign neg ++ s) ++ r /\ decimal true ds fs e s /\ parts_of ds fs e q.
Proof.
  intros Ht H. unfold signed_full in H. destruct bs as [|b r0]; [discriminate|]. destruct (b =? 45) eqn:Eb.
  - apply bind_ok in H. destruct H as ([q' r'] & H1 & H). injection H as <- <- <-. apply unsigned_full_sound in H1; [|assumption].
    destruct H1 as (ds & fs & e & s & E & Hd & Hp & _). exists ds, fs, e, s. cbn [sign app]. rewrite <- E. split; [f_equal; lia|]. auto.
  - apply bind_ok in H. destruct H as ([q' r'] & H1 & H). injection H as <- <- <-. apply unsigned_full_sound in H1; [|assumption].
    destruct H1 as (ds & fs & e & s & E & Hd & Hp & _). exists ds, fs, e, s. cbn [sign app]. auto.
Qed.

Lemma signed_compute_sound oc tb neg ds fs e q z : parts_of ds fs e q -> signed_compute oc tb neg q = Ok z ->
  exists n, z = z_of neg n /\ equals ds fs e n.
Proof.
  intros Hp H. unfold signed_compute in H. apply bind_ok in H. destruct H as (n & H1 & H). exists n.
  split; [|eapply compute_sound; eauto]. destruct neg; [now apply negate_ok in H|now apply signed_ok in H].
Qed.

Lemma parse_signed_full_exact tb bs z r : 4 <= tb -> parse_signed_full true tb bs = Ok (z, r) ->
  in_sb tb z = true /\ exists w neg ds fs e s n, space w /\ bs = w ++ (sign neg ++ s) ++ r /\ decimal true ds fs e s /\
    z = z_of neg n /\ equals ds fs e n.
Proof.
  intros Ht H. pose proof (parse_signed_full_post true tb false bs ltac:(discriminate) Ht) as P. rewrite H in P. cbn in P.
  split; [apply P|]. clear P. destruct (skip_ws_split bs) as (w & Hw & E). unfold parse_signed_full in H.
  apply bind_ok in H. destruct H as ([[neg q] r'] & H1 & H). cbn [fst snd] in H. apply bind_ok in H. destruct H as (m & H2 & H). injection H as -> ->.
  apply signed_full_sound in H1; [|assumption]. destruct H1 as (ds & fs & e & s & E1 & Hd & Hp).
  destruct (signed_compute_sound _ _ _ _ _ _ _ _ Hp H2) as (n & Hz & Heq).
  exists w, neg, ds, fs, e, s, n. split; [assumption|]. split; [rewrite <- E1; exact E|]. auto.
Qed.
