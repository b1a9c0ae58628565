(** The decoder of floating point numbers: the values and what it consumes, and longer inputs. *)
From Coq Require Import QArith Qabs Qround Lqa Qpower.
From Coq Require Import Lia.
From Verif Require Import Base BaseFacts Utf8 JsonNumSpec FloatSpec FloatTextSpec Dec2flt FloatFacts FloatFast FloatDigits FloatParse FloatDec FloatTop FloatWords.
Local Open Scope N_scope.

Lemma float_inv F bs x rest : std F -> json_decode_float F bs = Ok (x, rest) ->
  exists sg s b, bs = sg ++ s /\ (sg = [] \/ sg = [43] \/ sg = [45]) /\ x = signed (r_bin F) (if list_eq_dec N.eq_dec sg [45] then true else false) b /\
    ((rest = [] /\ special (r_bin F) s b) \/
     exists ds fs sf r2 e, s = ds ++ sf ++ r2 /\ mant ds fs sf r2 /\ ds ++ fs <> [] /\ scan r2 = Some (e, rest) /\ rounds_to (r_bin F) (dv ds fs e) b).
Proof.
  intros HF H. unfold json_decode_float in H.
  assert (Ho : dec2flt F bs = Ok (Some (x, rest))).
  { destruct (dec2flt F bs) as [[y|]| |]; cbn [bind] in H; try discriminate. injection H as ->. reflexivity. }
  clear H.
  destruct bs as [|c r]; [discriminate|].
  set (sg := if (c =? 45) || (c =? 43) then [c] else []). set (s := if (c =? 45) || (c =? 43) then r else c :: r).
  assert (E : c :: r = sg ++ s). { unfold sg, s. destruct ((c =? 45) || (c =? 43)); reflexivity. }
  assert (Hsg : sg = [] \/ sg = [43] \/ sg = [45]).
  { unfold sg. destruct (c =? 45) eqn:C1; [apply N.eqb_eq in C1; subst; right; right; reflexivity|].
      destruct (c =? 43) eqn:C2; [apply N.eqb_eq in C2; subst; right; left; reflexivity|left; reflexivity]. }
  assert (Neg : (if list_eq_dec N.eq_dec sg [45] then true else false) = (c =? 45)).
  { unfold sg. destruct (c =? 45) eqn:C1; [apply N.eqb_eq in C1; subst; reflexivity|].
    destruct (c =? 43) eqn:C2; [apply N.eqb_eq in C2; subst; reflexivity|reflexivity]. }
  destruct s as [|c0 s0] eqn:Es.
  { unfold dec2flt in Ho. fold s in Ho. rewrite Es in Ho. discriminate. }
  rewrite <- Es in *.
  assert (Sn : s <> []) by (rewrite Es; discriminate).
  destruct (parse_none_or s Sn) as (ds & fs & sf & r2 & E1 & HM & [[_ Hp]|(Hne & e' & r3 & Sc)]).
  - unfold dec2flt in Ho. fold s in Ho. rewrite Es in Ho at 1. unfold bytes in *. rewrite Hp in Ho. cbn [bind] in Ho.
    destruct (parse_inf_nan (r_bin F) s) as [b|] eqn:Pi; [|discriminate]. injection Ho as <- <-.
    apply inf_nan_ok in Pi. exists sg, s, b. split; [exact E|]. split; [assumption|].
    split; [rewrite Neg, neg_signed; reflexivity|]. left. auto.
  - destruct (dec2flt_ok F ds fs sf r2 e' r3 sg HF HM Hne Sc Hsg) as (b & Db & Rb).
    rewrite <- E1, <- E in Db. rewrite Db in Ho. injection Ho as <- <-.
    exists sg, s, b. split; [exact E|]. split; [assumption|]. split; [apply neg_signed|]. right.
    exists ds, fs, sf, r2, e'. auto.
Qed.

Lemma std_sizes F : std F -> infinity (r_bin F) + 2 ^ (mbits (r_bin F) - 1) < 2 ^ (ebits (r_bin F) + mbits (r_bin F)).
Proof. intros [-> | ->]; reflexivity. Qed.

Lemma float_post F bs x rest : std F -> json_decode_float F bs = Ok (x, rest) ->
  x < 2 ^ (1 + ebits (r_bin F) + mbits (r_bin F)) /\ exists pre, pre <> [] /\ bs = pre ++ rest.
Proof.
  intros HF H. pose proof (std_sizes F HF) as Sz. set (B := r_bin F) in *.
  assert (Sg : forall neg b, b <= infinity B + 2 ^ (mbits B - 1) -> signed B neg b < 2 ^ (1 + ebits B + mbits B)).
  { intros neg b Hb. rewrite <- N.add_assoc, N.pow_add_r. change (2 ^ 1) with 2. unfold signed.
    set (P := 2 ^ (ebits B + mbits B)) in *. destruct neg; lia. }
  destruct (float_inv F bs x rest HF H) as (sg & s & b & -> & Hsg & -> & [(-> & Sp)|(ds & fs & sf & r2 & e & -> & HM & Hne & Sc & R)]).
  - split.
    + apply Sg. destruct Sp as [[_ ->]|[_ ->]]; fold B; lia.
    + exists (sg ++ s). rewrite app_nil_r. split; [|reflexivity]. intro C. apply app_eq_nil in C. destruct C as [_ ->].
      destruct Sp as [[[W|W] _]|[W _]]; discriminate.
  - split.
    + apply Sg. destruct R as [R _]. fold B in R. lia.
    + destruct (scan_only r2 e rest Sc) as (e0 & se & -> & _ & _). exists (sg ++ ds ++ sf ++ se). split.
      * intro C. apply app_eq_nil in C. destruct C as [_ C]. apply app_eq_nil in C. destruct C as [-> C]. apply app_eq_nil in C. destruct C as [-> _].
        destruct HM as (_ & _ & _ & [HM|(_ & -> & _)]); [discriminate|]. now apply Hne.
      * rewrite <- !app_assoc. reflexivity.
Qed.

Lemma span_more s : forall r, snd (span_digits s) <> [] -> span_digits (s ++ r) = (fst (span_digits s), snd (span_digits s) ++ r).
Proof.
  induction s as [|c s IH]; intros r H; [now elim H|]. cbn [span_digits app] in *. destruct (is_digit c); [|reflexivity].
  destruct (span_digits s) as [d r'] eqn:E. cbn [fst snd] in *. rewrite (IH r H). reflexivity.
Qed.

Lemma scan_more r2 e rest more : scan r2 = Some (e, rest) -> rest <> [] -> scan (r2 ++ more) = Some (e, rest ++ more).
Proof.
  unfold scan. destruct r2 as [|c r]; [intros [= <- <-] H; now elim H|]. cbn [app].
  destruct ((c =? 101) || (c =? 69)); [|intros [= <- <-] _; reflexivity].
  unfold parse_scientific. intros H Hr.
  assert (G : forall (neg : bool) (s : bytes), match span_digits s with
      | ([], _) => None | (ds, r') => let e := fold_left exp_step ds 0%Z in Some ((if neg then (- e)%Z else e), r') end = Some (e, rest) ->
    match span_digits (s ++ more) with
      | ([], _) => None | (ds, r') => let e := fold_left exp_step ds 0%Z in Some ((if neg then (- e)%Z else e), r') end = Some (e, rest ++ more)).
  { intros neg s E. destruct (span_digits s) as [[|d ds] r'] eqn:Es; [discriminate|]. cbv zeta in E. injection E as E1 E2.
    rewrite (span_more s more); rewrite Es; cbn [fst snd]; [|congruence]. cbn [fold_left] in *. now rewrite E1, E2. }
  destruct r as [|x r]; [cbn in H; discriminate|]. cbn [app].
  destruct ((x =? 45) || (x =? 43)); [now apply (G (x =? 45))|now apply (G (x =? 45) (x :: r))].
Qed.

Theorem float_more F bs x rest more : std F -> json_decode_float F bs = Ok (x, rest) -> rest <> [] ->
  json_decode_float F (bs ++ more) = Ok (x, rest ++ more).
Proof.
  intros HF H Hr. destruct (float_inv F bs x rest HF H) as (sg & s & b & -> & Hsg & -> & [(-> & _)|(ds & fs & sf & r2 & e & -> & HM & Hne & Sc & R)]); [now elim Hr|].
  assert (Rn : r2 <> []). { intros ->. cbn in Sc. injection Sc as _ <-. now elim Hr. }
  assert (HM' : mant ds fs sf (r2 ++ more)).
  { destruct HM as (M1 & M2 & M3 & M4). split; [assumption|]. split; [assumption|]. destruct r2 as [|c r2]; [now elim Rn|]. split; [exact M3|exact M4]. }
  destruct (dec2flt_ok F ds fs sf (r2 ++ more) e (rest ++ more) sg HF HM' Hne (scan_more _ _ _ more Sc Hr) Hsg) as (b' & Db & Rb).
  rewrite (rounds_to_unique (r_bin F) _ b' b (std_ok F HF) Rb R) in Db. unfold json_decode_float.
  rewrite <- !app_assoc, Db. cbn [bind]. now rewrite neg_signed.
Qed.
