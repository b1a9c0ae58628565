(** Further facts about JSON: the text that is written is UTF-8, what integers are accepted, arrays
    of the wrong length, and the order and presence of members. *)
From Verif Require Import Base Options Int Utf8 Types Json JsonSpec BaseFacts Utf8Facts TypesFacts
  IntFacts StorageFacts DecFacts JsonFacts JsonText JsonDec JsonEnc JsonSafe.
From Coq Require Import ZifyBool ZifyNat ZifyN Permutation.
Local Open Scope N_scope.

(** ** UTF-8 *)

Lemma utf8_ascii s : Forall (fun b => b < 128) s -> utf8_valid s = true.
Proof.
  induction 1 as [|b s Hb _ IH]; [reflexivity|]. cbn [utf8_valid]. destruct (b <? 128) eqn:E; [exact IH|lia].
Qed.

Lemma utf8_cat a b : utf8_valid a = true -> utf8_valid b = true -> utf8_valid (a ++ b) = true.
Proof. intros Ha Hb. now rewrite utf8_app. Qed.

Lemma utf8_cons_ascii b s : b < 128 -> utf8_valid s = true -> utf8_valid (b :: s) = true.
Proof. intros Hb Hs. cbn [utf8_valid]. destruct (b <? 128) eqn:E; [exact Hs|lia]. Qed.

Lemma itoa_ascii n : utf8_valid (itoa n) = true.
Proof. apply utf8_ascii. apply int_text_ascii with n, itoa_text. Qed.

Lemma itoa_z_ascii z : utf8_valid (itoa_z z) = true.
Proof. destruct z; cbn [itoa_z]; [reflexivity|apply itoa_ascii|apply utf8_cons_ascii; [lia|apply itoa_ascii]]. Qed.

Lemma layout_ascii hi lo m k : Forall (fun b => b < 128) (layout hi lo m k).
Proof.
  assert (Hd : Forall (fun b => b < 128) (itoa m)) by (apply int_text_ascii with m, itoa_text).
  assert (Hz : forall n, Forall (fun b => b < 128) (zeros n)).
  { intros n. unfold zeros. apply Forall_forall. intros x Hx. apply repeat_spec in Hx. lia. }
  assert (He : forall z, Forall (fun b => b < 128) (itoa_z z)).
  { intros [|q|q]; cbn [itoa_z]; [constructor; [lia|constructor]|apply int_text_ascii with (Npos q), itoa_text|].
    constructor; [lia|]. apply int_text_ascii with (Npos q), itoa_text. }
  unfold layout. revert Hd. generalize (itoa m). intros ds Hd. cbv zeta.
  repeat match goal with |- context [if ?b then _ else _] => destruct b end.
  - apply Forall_app. split; [exact Hd|]. apply Forall_app. split; [apply Hz|]. repeat (constructor; try lia).
  - rewrite <- (firstn_skipn (Z.to_nat (Z.of_nat (length ds) + k)) ds) in Hd. apply Forall_app in Hd. destruct Hd as [H1 H2].
    apply Forall_app. split; [exact H1|]. constructor; [lia|exact H2].
  - apply Forall_app. split; [repeat (constructor; try lia)|]. apply Forall_app. split; [apply Hz|exact Hd].
  - destruct ds as [|d [|d2 ds]]; [constructor; [lia|apply He]| |].
    + inversion Hd; subst. constructor; [assumption|]. constructor; [lia|apply He].
    + inversion Hd as [|? ? H1 H2]; subst. constructor; [assumption|]. constructor; [lia|]. apply Forall_app. split; [exact H2|].
      constructor; [lia|apply He].
Qed.

Lemma float_text_utf8 F hi lo x : utf8_valid (float_text F hi lo x) = true.
Proof.
  apply utf8_ascii. unfold float_text. cbv zeta.
  set (s := if _ <=? x then [45] else []). assert (Hs : Forall (fun b => b < 128) s) by (subst s; destruct (_ <=? x); repeat (constructor; try lia)).
  clearbody s. repeat match goal with |- context [if ?b then _ else _] => destruct b end;
    try (repeat (constructor; try lia); fail); try (apply Forall_app; split; [exact Hs|repeat (constructor; try lia)]).
  destruct (ryu_digits F _) as [m k]. apply Forall_app. split; [exact Hs|apply layout_ascii].
Qed.

Lemma utf8_string s : utf8_valid s = true -> utf8_valid (encode_string s) = true.
Proof.
  intros H. destruct (utf8_chars s H) as (cs & Hc & ->). unfold encode_string. cbn [app].
  apply utf8_cons_ascii; [lia|]. apply utf8_cat; [|reflexivity].
  clear H. induction Hc as [|c cs Hc _ IH]; cbn [flat_map]; [reflexivity|]. rewrite flat_map_app.
  apply utf8_cat; [|exact IH]. destruct (utf8_enc_high c Hc) as [[E Hlt]|[_ Hh]].
  - rewrite E. cbn [flat_map]. rewrite app_nil_r. apply utf8_ascii. unfold escape_byte.
    repeat match goal with |- context [if ?b then _ else _] => destruct b eqn:? end;
      repeat (apply Forall_cons; [try lia|]); try apply Forall_nil; unfold hex_digit;
      match goal with |- (if ?b then _ else _) < _ => destruct b eqn:? end; lia.
  - rewrite escape_high by assumption. now apply utf8_enc_valid.
Qed.

Lemma utf8_sep l : Forall (fun b => utf8_valid b = true) l -> utf8_valid (comma_sep l) = true.
Proof.
  induction 1 as [|b l Hb Hl IH]; [reflexivity|]. cbn [comma_sep]. destruct l; [assumption|].
  apply utf8_cat; [assumption|]. apply utf8_cons_ascii; [lia|exact IH].
Qed.

Lemma utf8_brackets l : Forall (fun b => utf8_valid b = true) l -> utf8_valid (in_brackets l) = true.
Proof.
  intros H. unfold in_brackets. cbn [app]. apply utf8_cons_ascii; [lia|]. apply utf8_cat; [now apply utf8_sep|reflexivity].
Qed.

Lemma utf8_braces l : Forall (fun b => utf8_valid b = true) l -> utf8_valid (in_braces l) = true.
Proof.
  intros H. unfold in_braces. cbn [app]. apply utf8_cons_ascii; [lia|]. apply utf8_cat; [now apply utf8_sep|reflexivity].
Qed.

Lemma utf8_pair k v : utf8_valid k = true -> utf8_valid v = true -> utf8_valid (pair k v) = true.
Proof. intros Hk Hv. unfold pair. apply utf8_cat; [assumption|]. apply utf8_cons_ascii; [lia|assumption]. Qed.

Lemma utf8_quoted s : utf8_valid s = true -> utf8_valid (quoted s) = true.
Proof. intros H. unfold quoted. cbn [app]. apply utf8_cons_ascii; [lia|]. now apply utf8_cat. Qed.

Lemma jkenc_utf8 p t : wf p t -> forall v bs, has_type p t v = true -> jkenc p t v = Ok bs -> utf8_valid bs = true.
Proof.
  induction t using ty_ind'; intros Hwf v bs Hv E; cbn [jkenc] in E; try discriminate;
    try (destruct v; try discriminate; injection E as <-; apply utf8_quoted; (apply itoa_ascii || apply itoa_z_ascii)).
  - destruct v as [| | | |s| | | | |]; try discriminate. injection E as <-. cbn [has_type] in Hv. apply andb_true_iff in Hv. destruct Hv as [Hv _].
    apply andb_true_iff in Hv. now apply utf8_string.
  - now apply (IHt Hwf v).
  - destruct v as [| | | | | | | | |i x]; try discriminate. destruct x; try discriminate.
    destruct (nth_error tags i) as [k|] eqn:En; [|discriminate]. destruct Hwf as (Hw & Ht & _).
    rewrite forallb_forall in Ht. apply nth_error_In in En. exact (IHt Hw k bs (Ht k En) E).
Qed.

Lemma map_res_all {A B} (f : A -> res B) (Q : B -> Prop) l m :
  (forall a b, In a l -> f a = Ok b -> Q b) -> map_res f l = Ok m -> Forall Q m.
Proof.
  revert m. induction l as [|a l IH]; cbn [map_res]; intros m H E; [injection E as <-; constructor|].
  apply bind_ok in E. destruct E as (b & E1 & E). apply bind_ok in E. destruct E as (m' & E2 & E). injection E as <-.
  constructor; [now apply (H a); [left|]|]. apply IH; [|assumption]. intros; eapply H; [right|]; eassumption.
Qed.

Theorem jenc_utf8 p t : wf p t -> forall v bs, has_type p t v = true -> jenc p t v = Ok bs -> utf8_valid bs = true.
Proof.
  induction t using ty_ind'; intros Hwf v bs Hv E; cbn [jenc] in E; cbn [has_type] in Hv; cbn [wf] in Hwf;
    try discriminate; try (destruct v; try discriminate; injection E as <-; (apply itoa_ascii || apply itoa_z_ascii || apply float_text_utf8)).
  - destruct v; try discriminate. now injection E as <-.
  - destruct v as [|b| | | | | | | |]; try discriminate. injection E as <-. now destruct b.
  - destruct v; try discriminate. injection E as <-. apply utf8_string. now apply utf8_enc_valid.
  - destruct v as [| | | |s| | | | |]; try discriminate. injection E as <-. apply andb_true_iff in Hv. destruct Hv as [Hv _].
    apply andb_true_iff in Hv. now apply utf8_string.
  - destruct v; try discriminate. injection E as <-. apply utf8_brackets. apply Forall_map, Forall_forall.
    intros; apply itoa_ascii.
  - destruct v; try discriminate. injection E as <-. apply utf8_brackets. apply Forall_map, Forall_forall.
    intros; apply itoa_ascii.
  - destruct v; try discriminate; [now injection E as <-|]. now apply (IHt Hwf v).
  - now apply (IHt Hwf v).
  - destruct v; try discriminate. apply bind_ok in E. destruct E as (l & E1 & E). injection E as <-.
    apply utf8_brackets. apply andb_true_iff in Hv. rewrite forallb_forall in Hv.
    eapply map_res_all; [|exact E1]. intros a b Hin. apply (IHt Hwf). now apply Hv.
  - destruct v; try discriminate. apply bind_ok in E. destruct E as (l & E1 & E). injection E as <-.
    apply utf8_brackets. apply andb_true_iff in Hv. rewrite forallb_forall in Hv.
    eapply map_res_all; [|exact E1]. intros a b Hin. apply (IHt (proj1 Hwf)). now apply Hv.
  - destruct v; try discriminate. apply bind_ok in E. destruct E as (l & E1 & E). injection E as <-.
    apply utf8_brackets. rewrite !andb_true_iff, forallb_forall in Hv. destruct Hv as [[Hv _] _].
    eapply map_res_all; [|exact E1]. intros a b Hin. apply (IHt Hwf). now apply Hv.
  - destruct v; try discriminate. apply bind_ok in E. destruct E as (l & E1 & E). injection E as <-.
    apply utf8_brackets. destruct Hwf as [Hwf _]. apply allP_Forall in Hwf.
    revert vs Hv l E1 Hwf. induction H as [|t ts Ht _ IH]; intros [|v vs] Hv l E1 Hwf; cbn in Hv, E1; try discriminate.
    + injection E1 as <-. constructor.
    + apply bind_ok in E1. destruct E1 as (b & E1 & E2). apply bind_ok in E2. destruct E2 as (m & E2 & E3).
      injection E3 as <-. apply andb_true_iff in Hv. inversion Hwf; subst.
      constructor; [now apply (Ht H1 v)|]. now apply (IH vs).
  - destruct v; try discriminate. apply bind_ok in E. destruct E as (l & E1 & E). injection E as <-.
    apply utf8_braces. rewrite !andb_true_iff, forallb_forall in Hv. destruct Hv as [[Hv _] _].
    eapply map_res_all; [|exact E1]. intros [k x] b Hin E. cbn [fst snd] in E.
    apply Hv in Hin. cbn [fst snd] in Hin. apply andb_true_iff in Hin.
    apply bind_ok in E. destruct E as (kb & Ek & E). apply bind_ok in E. destruct E as (vb & Ev & E). injection E as <-.
    apply utf8_pair; [now apply (jkenc_utf8 p t1 (proj1 Hwf) k)|now apply (IHt2 (proj2 Hwf) x)].
  - destruct v; try discriminate. apply bind_ok in E. destruct E as (l & E1 & E). injection E as <-.
    apply utf8_brackets. destruct Hwf as [Hwf _]. apply allP_Forall in Hwf.
    revert vs Hv l E1 Hwf. induction H as [|t ts Ht _ IH]; intros [|v vs] Hv l E1 Hwf; cbn in Hv, E1; try discriminate.
    + injection E1 as <-. constructor.
    + apply bind_ok in E1. destruct E1 as (b & E1 & E2). apply bind_ok in E2. destruct E2 as (m & E2 & E3).
      injection E3 as <-. apply andb_true_iff in Hv. inversion Hwf; subst.
      constructor; [now apply (Ht H1 v)|]. now apply (IH vs).
  - destruct v; try discriminate. apply bind_ok in E. destruct E as (l & E1 & E). injection E as <-.
    apply utf8_braces. destruct Hwf as (Hk & Hf & _ & Hn & _). apply allP_Forall in Hf.
    revert vs Hv l E1 Hf Hn. induction H as [|ft fs Ht _ IH]; intros [|v vs] Hv l E1 Hf Hn; cbn in Hv, E1, Hn; try discriminate.
    + injection E1 as <-. constructor.
    + apply andb_true_iff in Hv. destruct Hv as [Hv1 Hv2]. apply andb_true_iff in Hn. destruct Hn as [Hn1 Hn2].
      inversion Hf; subst. destruct (fskip (fst ft) v); [now apply (IH vs)|].
      apply bind_ok in E1. destruct E1 as (b & E1 & E2). apply bind_ok in E2. destruct E2 as (m & E2 & E3).
      apply bind_ok in E3. destruct E3 as (m2 & E3 & E4). injection E4 as <-.
      constructor; [|now apply (IH vs)]. apply utf8_pair; [now apply (jkenc_utf8 p t Hk (fname (fst ft)))|now apply (Ht H1 v)].
  - destruct v as [| | | | | | | | |i x]; try discriminate. destruct x; try discriminate.
    destruct (nth_error tags i) as [k|] eqn:En; [|discriminate]. destruct Hwf as (Hw & Ht & _).
    rewrite forallb_forall in Ht. apply nth_error_In in En. exact (IHt Hw k bs (Ht k En) E).
  - destruct v as [| | | | | | | | |i x]; try discriminate. rewrite nth_error_map in E, Hv.
    destruct (nth_error vs i) as [tv|] eqn:En; cbn [option_map] in *; [|discriminate].
    destruct Hwf as (Hk & Hf & Hn & _). apply allP_Forall in Hf. rewrite forallb_forall in Hn. rewrite Forall_forall in *.
    apply nth_error_In in En. apply bind_ok in E. destruct E as (kb & Ek & E). apply bind_ok in E. destruct E as (vb & Ev & E).
    injection E as <-. apply utf8_braces. constructor; [|constructor].
    apply utf8_pair; [exact (jkenc_utf8 p t Hk (fst tv) kb (Hn tv En) Ek)|]. now apply (H tv En (Hf tv En) x).
Qed.

(** ** Integers *)

(** The accumulated value, for any build: the decimal value modulo the range. *)
Lemma digits_mod oc tb : forall bs acc n r, digits oc tb acc bs = Ok (n, r) -> acc < 2 ^ tb ->
  exists ds, bs = ds ++ r /\ Forall digit ds /\ (r = [] \/ exists b r', r = b :: r' /\ ~ digit b) /\
    n mod 2 ^ tb = value_from acc ds mod 2 ^ tb /\ n < 2 ^ tb /\ (oc = true -> n = value_from acc ds).
Proof.
  assert (Hp : 2 ^ tb <> 0) by (apply N.pow_nonzero; discriminate).
  induction bs as [|b bs IH]; intros acc n r E Ha; cbn [digits] in E.
  - injection E as <- <-. exists []. repeat split; auto.
  - destruct (is_digit b) eqn:Ed.
    + destruct (_ <=? _) eqn:E1; [discriminate|]. unfold is_digit, between in Ed.
      destruct (2 ^ tb <=? acc * 10 + (b - 48)) eqn:E2.
      * destruct oc; [discriminate|]. apply IH in E; [|now apply N.mod_lt].
        destruct E as (ds & -> & H1 & H2 & H3 & H4 & H5). exists (b :: ds).
        split; [reflexivity|]. split; [apply Forall_cons; [unfold digit; lia|assumption]|]. split; [assumption|].
        split; [|split; [assumption|discriminate]]. rewrite H3. cbn [value_from fold_left].
        fold (value_from ((acc * 10 + (b - 48)) mod 2 ^ tb) ds). fold (value_from (10 * acc + (b - 48)) ds).
        replace (acc * 10 + (b - 48)) with (10 * acc + (b - 48)) by lia.
        clear - Hp. revert Hp. generalize (10 * acc + (b - 48)) as x, (2 ^ tb) as m. clear. intros x m Hp.
        assert (G : forall a c, a mod m = c mod m -> value_from a ds mod m = value_from c ds mod m).
        { induction ds as [|d ds IH]; intros a c E; cbn [value_from fold_left]; [exact E|].
          apply IH. rewrite (N.add_mod (10 * a)), (N.add_mod (10 * c)), (N.mul_mod 10 a), (N.mul_mod 10 c) by assumption.
          now rewrite E. }
        apply G. now apply N.mod_mod.
      * apply IH in E; [|lia]. destruct E as (ds & -> & H1 & H2 & H3 & H4 & H5). exists (b :: ds).
        replace (acc * 10 + (b - 48)) with (10 * acc + (b - 48)) in * by lia.
        split; [reflexivity|]. split; [apply Forall_cons; [unfold digit; lia|assumption]|]. auto.
    + injection E as <- <-. exists []. repeat split; auto. right. exists b, bs. split; [reflexivity|].
      unfold is_digit, between, digit in *. lia.
Qed.

Lemma unsigned_base_mod oc tb bs n r : 4 <= tb -> unsigned_base oc tb bs = Ok (n, r) ->
  exists m s, bs = s ++ r /\ int_text m s /\ (m = 0 \/ r = [] \/ exists b r', r = b :: r' /\ ~ digit b) /\
    n = m mod 2 ^ tb /\ (oc = true -> n = m).
Proof.
  intros Ht E. unfold unsigned_base in E. destruct bs as [|b bs]; [discriminate|].
  assert (H16 : 2 ^ 4 <= 2 ^ tb) by (apply N.pow_le_mono_r; lia). change (2 ^ 4) with 16 in H16.
  destruct (b =? 48) eqn:E0.
  - injection E as <- <-. apply N.eqb_eq in E0. subst b. exists 0, [48]. split; [reflexivity|]. split; [exact (itoa_text 0)|].
    split; [now left|]. rewrite N.mod_0_l by lia. auto.
  - destruct (is_digit_nonzero b) eqn:Eb; [|discriminate]. unfold is_digit_nonzero, between in Eb.
    apply digits_mod in E; [|lia]. destruct E as (ds & -> & H1 & H2 & H3 & H4 & H5).
    exists (value_from (b - 48) ds), (b :: ds). split; [reflexivity|]. split.
    { split; [discriminate|]. split; [apply Forall_cons; [unfold digit; lia|assumption]|].
      split; [cbn [hd]; lia|]. unfold value, value_from. cbn [fold_left]. f_equal; lia. }
    split; [now right|]. rewrite N.mod_small in H3 by assumption. auto.
Qed.

Lemma skip_ws_split bs : exists w, space w /\ bs = w ++ skip_ws bs.
Proof.
  induction bs as [|b r IH]; cbn [skip_ws]; [exists []; split; [constructor|reflexivity]|].
  destruct (is_ws b) eqn:E; [|exists []; split; [constructor|reflexivity]].
  destruct IH as (w & Hw & IH). exists (b :: w). split; [|cbn; congruence].
  constructor; [unfold is_ws in E; lia|assumption].
Qed.

(** A number that does not fit is never accepted when overflow is checked. *)
Lemma digits_big tb ds : forall acc rest x, Forall digit ds -> acc < 2 ^ tb -> 2 ^ tb <= value_from acc ds ->
  digits true tb acc (ds ++ rest) <> Ok x.
Proof.
  induction ds as [|d ds IH]; intros acc rest x Hd Ha Hv E; cbn [value_from fold_left] in Hv; [lia|].
  inversion Hd as [|? ? Hd1 Hd2]; subst. cbn [app digits] in E. cbv zeta in E. unfold is_digit, between, digit in *.
  destruct (_ && _) eqn:Ed; [|lia]. destruct (_ <=? acc * 10) eqn:E1; [discriminate|].
  destruct (2 ^ tb <=? acc * 10 + (d - 48)) eqn:E2; [discriminate|]. apply IH in E; try assumption; [lia|].
  replace (acc * 10 + (d - 48)) with (10 * acc + (d - 48)) by lia. exact Hv.
Qed.

Lemma digits_app oc tb ds : forall acc rest, Forall digit ds -> value_from acc ds < 2 ^ tb ->
  digits oc tb acc (ds ++ rest) = digits oc tb (value_from acc ds) rest.
Proof.
  induction ds as [|d ds IH]; intros acc rest Hd Hv; [reflexivity|].
  inversion Hd as [|x l Hx Hl]; subst. cbn [app digits].
  destruct (digit_byte d Hx) as (_ & _ & E & _). rewrite E.
  cbn [value_from fold_left] in Hv |- *. pose proof (value_from_le ds (10 * acc + (d - 48))) as L. unfold value_from in L.
  destruct (2 ^ tb <=? acc * 10) eqn:A; [lia|]. cbv zeta.
  destruct (2 ^ tb <=? acc * 10 + (d - 48)) eqn:B; [lia|].
  replace (acc * 10 + (d - 48)) with (10 * acc + (d - 48)) by lia. apply IH; assumption.
Qed.

(** Only the last addition overflows. *)
Lemma unsigned_base_wrap oc tb n s rest : 4 <= tb -> int_text n s -> ends rest = true ->
  2 ^ tb <= n -> 10 * (n / 10) < 2 ^ tb ->
  unsigned_base oc tb (s ++ rest) = if oc then Panic else Ok (n - 2 ^ tb, rest).
Proof.
  intros Ht (Hn & Hd & Hz & Hv) He Hb Hq.
  assert (H16 : 2 ^ 4 <= 2 ^ tb) by (apply N.pow_le_mono_r; lia). change (2 ^ 4) with 16 in H16.
  destruct (@exists_last _ s Hn) as (s0 & d & ->).
  rewrite value_snoc in Hv. apply Forall_app in Hd. destruct Hd as [Hd0 Hd1]. inversion Hd1 as [|? ? Hd2 _]; subst.
  unfold digit in Hd2. assert (Hs0 : s0 <> []) by (intros ->; cbn in Hb; lia).
  destruct s0 as [|b r]; [congruence|]. inversion Hd0 as [|? ? Hb0 Hr]; subst. unfold digit in Hb0.
  cbn [app hd] in Hz. assert (Hb48 : b <> 48).
  { intros ->. specialize (Hz eq_refl). destruct r; discriminate. }
  cbn [app unsigned_base]. destruct (b =? 48) eqn:E0; [lia|].
  assert (Enz : is_digit_nonzero b = true) by (unfold is_digit_nonzero, between; lia). rewrite Enz.
  assert (V : value (b :: r) = value_from (b - 48) r).
  { unfold value, value_from. cbn. f_equal; lia. }
  rewrite V in *. rewrite <- app_assoc, digits_app; [|assumption|lia]. cbn [app digits].
  assert (Ed : is_digit d = true) by (unfold is_digit, between; lia). rewrite Ed.
  set (q := value_from (b - 48) r) in *.
  destruct (2 ^ tb <=? q * 10) eqn:E1; [lia|]. destruct (2 ^ tb <=? q * 10 + (d - 48)) eqn:E2; [|lia].
  destruct oc; [reflexivity|].
  assert (M : (q * 10 + (d - 48)) mod 2 ^ tb = 10 * q + (d - 48) - 2 ^ tb).
  { symmetry. apply N.mod_unique with 1; lia. }
  rewrite M. destruct rest as [|x rest]; [reflexivity|]. cbn [digits ends] in *.
  unfold is_digit. destruct (between 48 57 x); [discriminate|reflexivity].
Qed.

(** ** Arrays of the wrong length *)

Section Tight.
Context {tight : bool}.
Local Notation runs := (runs (tight := tight)).

Lemma seq_loop_stop {S} (step : S -> bytes -> res (S * bytes)) (e : res (S * bytes)) (Hbad : forall x, e <> Ok x) l1 j l2 :
  forall s, gelems tight (l1 ++ j :: l2) s -> forall st st' fuel first rest, runs step st l1 st' ->
  (forall b rest, gtext tight j b -> ends rest = true -> step st' (b ++ rest) = e) ->
  (length l1 < fuel)%nat -> seq_loop fuel step first st (s ++ 93 :: rest) = e.
Proof.
  induction l1 as [|j1 l1 IH]; intros b H st st' fuel first rest Hr He Hf; cbn [app length] in *;
    (destruct fuel as [|f]; [lia|]); inversion Hr as [|s0 j0 l0 s1 s2 Hs Hrl]; subst.
  - inversion H as [|w1 j' s w2 Hw1 Ht Hw2|w1 j' s w2 l' r Hw1 Ht Hw2 Hl Hne]; subst;
      rewrite <- !app_assoc; cbn [seq_loop]; rewrite (next_value_text (tight := tight) first w1 j) by assumption; cbn [bind];
      (rewrite He; [|assumption|apply ends_space; [assumption|reflexivity]]);
      (destruct e; [now elim (Hbad a)|reflexivity|reflexivity]).
  - inversion H as [|w1 j' s w2 Hw1 Ht Hw2|w1 j' s w2 l' r Hw1 Ht Hw2 Hl Hne]; subst.
    + match goal with K : [] = _ ++ _ :: _ |- _ => now apply app_cons_not_nil in K end.
    + rewrite <- !app_assoc. cbn [seq_loop]. rewrite (next_value_text (tight := tight) first w1 j1) by assumption.
      cbn [bind]. rewrite Hs; [|assumption|apply ends_space; [assumption|reflexivity]]. cbn [bind app].
      rewrite seq_loop_space by assumption. rewrite seq_loop_comma. eapply IH; [eassumption|eassumption|assumption|lia].
Qed.

Lemma dec_sequence_stop {S} (step : S -> bytes -> res (S * bytes)) (e : res (S * bytes)) w l1 j l2 s st st' rest :
  (forall x, e <> Ok x) -> space w -> gtext tight (JArr (l1 ++ j :: l2)) s -> runs step st l1 st' ->
  (forall b rest, gtext tight j b -> ends rest = true -> step st' (b ++ rest) = e) ->
  dec_sequence step st (w ++ s ++ rest) = e.
Proof.
  intros Hbad Hw H Hr He. inversion H as [| | | | | |l0 b Hb|]; subst. unfold dec_sequence. cbn [app].
  rewrite (expect_at KOBracket 91 _ w) by (assumption || reflexivity). cbn [bind].
  rewrite <- app_assoc. cbn [app]. pose proof (elems_length _ b Hb) as L. rewrite app_length in L.
  rewrite (seq_loop_stop step e Hbad l1 j l2 b Hb st st' _ true rest Hr He).
  - destruct e; [now elim (Hbad a)|reflexivity..].
  - rewrite app_length. cbn. lia.
Qed.

Lemma arr_runs oc n l bs : Forall2 (fun j b => j = JInt false b /\ b < 256) l bs -> lenN bs <= n ->
  runs (arr_step oc n) [] l bs.
Proof.
  intros Hl Hn. rewrite <- (map_id bs) at 1.
  apply (runs_bounded (fun j b => j = JInt false b /\ b < 256) _ (fun x => x) n) with (acc := []);
    [|assumption|change (lenN (@nil N)) with 0; lia].
  intros j b acc b0 r Ha [-> Hb] Hb0 Hr. inversion Hb0; subst. unfold arr_step.
  destruct (lenN acc <=? n) eqn:A; [|lia].
  pose proof (parse_unsigned_ok oc 8 [] b s r space_nil) as K. cbn [app sign] in *.
  rewrite K by (assumption || reflexivity || (cbn; lia)). cbn [bind].
  destruct (lenN acc <? n) eqn:B; [reflexivity|lia].
Qed.
End Tight.

(** ** Objects *)

Lemma Forall2_perm {A B} (R : A -> B -> Prop) l l' : Permutation l l' -> forall m, Forall2 R l m ->
  exists m', Permutation m m' /\ Forall2 R l' m'.
Proof.
  induction 1 as [|a l l' _ IH|a b l|l l' l'' _ IH1 _ IH2]; intros m H.
  - inversion H; subst. exists []. auto.
  - inversion H as [|? x ? m0 Hx Hm]; subst. destruct (IH m0 Hm) as (m' & P & F). exists (x :: m'). auto.
  - inversion H as [|? x ? m0 Hx Hm]; subst. inversion Hm as [|? y ? m1 Hy Hm1]; subst.
    exists (y :: x :: m1). split; [constructor|]. auto.
  - destruct (IH1 m H) as (m1 & P1 & F1). destruct (IH2 m1 F1) as (m2 & P2 & F2). exists m2.
    split; [now transitivity m1|assumption].
Qed.

Lemma field_value_perm f kvs kvs' x : NoDup (map fst kvs) -> Permutation kvs kvs' ->
  field_value f kvs x -> field_value f kvs' x.
Proof.
  intros Hd HP [(l1 & l2 & -> & Hn)|[Hn Hf]].
  - left. assert (Hin : In (fname f, x) kvs').
    { eapply Permutation_in; [exact HP|]. apply in_or_app. right. now left. }
    apply in_split in Hin. destruct Hin as (m1 & m2 & ->). exists m1, m2. split; [reflexivity|].
    assert (Hd' : NoDup (map fst (m1 ++ (fname f, x) :: m2))).
    { eapply Permutation_NoDup; [|exact Hd]. now apply Permutation_map. }
    rewrite map_app in Hd'. cbn in Hd'. apply NoDup_remove_2 in Hd'. intros Hin. apply Hd'. apply in_or_app. now right.
  - right. split; [|assumption]. intros Hin. apply Hn. eapply Permutation_in; [|exact Hin].
    apply Permutation_map. now symmetry.
Qed.

Lemma field_value_insert f l1 l2 k y x : k <> fname f -> field_value f (l1 ++ l2) x -> field_value f (l1 ++ (k, y) :: l2) x.
Proof.
  intros Hk [(m1 & m2 & E & Hn)|[Hn Hf]].
  - left. revert m1 E. induction l1 as [|a l1 IH]; intros m1 E; cbn [app] in *.
    + exists ((k, y) :: m1), m2. subst l2. auto.
    + destruct m1 as [|c m1]; cbn [app] in E; injection E as -> E.
      * exists [], (l1 ++ (k, y) :: l2). split; [reflexivity|]. rewrite map_app, in_app_iff. cbn. subst m2.
        rewrite map_app, in_app_iff in Hn. intros [H|[H|H]]; tauto.
      * destruct (IH m1 E) as (p1 & p2 & P1 & P2). exists (c :: p1), p2. split; [|assumption]. cbn. now rewrite P1.
  - right. split; [|assumption]. rewrite map_app, in_app_iff in *. cbn. tauto.
Qed.

(** ** What is inside the quotes *)

Lemma hex_bounds a x : hex a x -> 48 <= a < 103 /\ a <> 92.
Proof. destruct 1; lia. Qed.

(** No control character, and every quote is preceded by a backslash. *)
Lemma body_plain_bytes cs s : body cs s -> Forall (fun b => 32 <= b) s.
Proof.
  induction 1 as [|c cs s Hc Hc1 _ _ _ IH| c e cs s Hin _ IH|c h cs s Hh Hc _ IH|hi lo h1 h2 cs s H1 H2 _ _ _ IH].
  - constructor.
  - apply Forall_app. split; [|assumption]. destruct (utf8_enc_high c Hc) as [[-> _]|[_ Hh]].
    + now constructor.
    + eapply Forall_impl; [|exact Hh]. cbn. lia.
  - constructor; [lia|]. constructor; [|assumption].
    cbn in Hin. repeat destruct Hin as [Hin|Hin]; try contradiction; injection Hin as _ <-; lia.
  - constructor; [lia|]. constructor; [lia|]. apply Forall_app. split; [|assumption].
    destruct Hh as (a & b & c' & d & x & y & z & w & -> & A & B & C & D & _).
    apply hex_bounds in A, B, C, D. repeat (apply Forall_cons; [lia|]). constructor.
  - constructor; [lia|]. constructor; [lia|].
    destruct H1 as (a & b & c' & d & x & y & z & w & -> & A & B & C & D & _).
    destruct H2 as (a2 & b2 & c2 & d2 & x2 & y2 & z2 & w2 & -> & A2 & B2 & C2 & D2 & _).
    apply hex_bounds in A, B, C, D, A2, B2, C2, D2. cbn [app].
    repeat (apply Forall_cons; [lia|]). assumption.
Qed.

Lemma quote_after pre (a b : bytes) s :
  pre <> [] -> Forall (fun b => b <> 34) pre \/ (exists x, pre = x ++ [92; 34] /\ Forall (fun b => b <> 34) x) ->
  (forall a b, s = a ++ 34 :: b -> exists a', a = a' ++ [92]) ->
  pre ++ s = a ++ 34 :: b -> exists a', a = a' ++ [92].
Proof.
  intros _ Hp IH E.
  assert (K : forall pre, Forall (fun b => b <> 34) pre -> forall a, pre ++ s = a ++ 34 :: b ->
             exists a0, a = pre ++ a0 /\ s = a0 ++ 34 :: b).
  { clear. induction 1 as [|x pre Hx _ IH]; intros a E; [exists a; auto|].
    destruct a as [|y a]; cbn in E; injection E as -> E; [congruence|].
    destruct (IH a E) as (a0 & -> & ->). exists a0. auto. }
  destruct Hp as [Hp|(x & -> & Hx)].
  - destruct (K pre Hp a E) as (a0 & -> & Es). destruct (IH a0 b Es) as (a' & ->). exists (pre ++ a'). now rewrite app_assoc.
  - rewrite <- app_assoc in E. cbn [app] in E.
    assert (K2 : forall pre a, Forall (fun b => b <> 34) pre -> pre ++ 92 :: 34 :: s = a ++ 34 :: b ->
               a = pre ++ [92] \/ exists a0, a = pre ++ 92 :: 34 :: a0 /\ s = a0 ++ 34 :: b).
    { clear. induction pre as [|y pre IH]; intros a H E; cbn in E.
      - destruct a as [|z a]; cbn in E; [discriminate E|]. injection E as <- E.
        destruct a as [|z a]; cbn in E; [now left|]. injection E as <- E. right. exists a. auto.
      - inversion H; subst. destruct a as [|z a]; cbn in E; injection E as -> E; [congruence|].
        destruct (IH a) as [->|(a0 & -> & ->)]; auto. right. exists a0. auto. }
    destruct (K2 x a Hx E) as [->|(a0 & -> & Es)]; [now exists x|].
    destruct (IH a0 b Es) as (a' & ->). exists (x ++ 92 :: 34 :: a'). rewrite <- app_assoc. reflexivity.
Qed.

Lemma body_quotes cs s : body cs s -> forall a b, s = a ++ 34 :: b -> exists a', a = a' ++ [92].
Proof.
  induction 1 as [|c cs s Hc Hc1 Hc2 Hc3 _ IH| c e cs s Hin _ IH|c h cs s Hh Hc _ IH|hi lo h1 h2 cs s H1 H2 _ _ _ IH]; intros a b E.
  - now apply app_cons_not_nil in E.
  - eapply quote_after; [| |exact IH|exact E].
    + pose proof (utf8_enc_length c). destruct (utf8_enc c); [cbn in *; lia|discriminate].
    + left. destruct (utf8_enc_high c Hc) as [[-> _]|[_ Hh]]; [now repeat constructor|].
      eapply Forall_impl; [|exact Hh]. cbn. lia.
  - eapply (quote_after [92; e]); [discriminate| |exact IH|exact E].
    cbn in Hin. destruct Hin as [Hin|Hin].
    + injection Hin as _ <-. right. exists []. split; [reflexivity|constructor].
    + left. repeat destruct Hin as [Hin|Hin]; try contradiction; injection Hin as _ <-;
        repeat (apply Forall_cons; [lia|]); constructor.
  - change (92 :: 117 :: h ++ s) with ((92 :: 117 :: h) ++ s) in E.
    eapply quote_after; [| |exact IH|exact E]; [discriminate|]. left.
    destruct Hh as (a1 & b1 & c' & d & x & y & z & w & -> & A & B & C & D & _).
    apply hex_bounds in A, B, C, D. repeat (apply Forall_cons; [lia|]). constructor.
  - replace (92 :: 117 :: h1 ++ 92 :: 117 :: h2 ++ s) with ((92 :: 117 :: h1 ++ 92 :: 117 :: h2) ++ s) in E
      by (cbn; now rewrite <- app_assoc).
    eapply quote_after; [| |exact IH|exact E]; [discriminate|]. left.
    destruct H1 as (a1 & b1 & c' & d & x & y & z & w & -> & A & B & C & D & _).
    destruct H2 as (a2 & b2 & c2 & d2 & x2 & y2 & z2 & w2 & -> & A2 & B2 & C2 & D2 & _).
    apply hex_bounds in A, B, C, D, A2, B2, C2, D2. cbn [app].
    repeat (apply Forall_cons; [lia|]). constructor.
Qed.

(** ** Structs with a missing field *)

Lemma struct_text p oc tight kt fs l kvs w s rest :
  (has_float (TStruct kt fs) = true -> tight = true) -> wf p (TStruct kt fs) -> fs <> [] -> space w -> gtext tight (JObj l) s ->
  Forall2 (fun m kv => key_means p kt (fst m) (fst kv) /\
     (forall ft, In ft fs -> fname (fst ft) = fst kv -> means p (snd ft) (snd m) (snd kv))) l kvs ->
  jdec p oc (TStruct kt fs) (w ++ s ++ rest) =
  let* vs := fill (map fst fs) (map (fun n => last_from None n kvs) (map (fun ft => fname (fst ft)) fs)) in
  Ok (VList vs, rest).
Proof.
  intros Hfl Hwf Hne Hw Ht Hl. cbn [has_float] in Hfl.
  destruct Hwf as (Hk & Hf & _ & _ & Hd & _). apply allP_Forall in Hf. apply distinct_NoDup in Hd.
  inversion Ht as [| | | | | | |l0 b Hb]; subst. cbn [jdec].
  destruct fs as [|ft0 fs0] eqn:Efs; [congruence|].
  rewrite <- Efs in *. clear Efs ft0 fs0. cbn [app].
  rewrite (expect_at KOBrace 123 _ w) by (assumption || reflexivity). cbn [bind].
  rewrite <- app_assoc. cbn [app].
  set (names := map (fun ft => fname (fst ft)) fs) in *.
  set (ds := map (fun ft => jdec p oc (snd ft)) fs) in *.
  assert (I0 : map (fun _ : finfo * ty => @None val) fs = map (fun _ => None) names).
  { unfold names. now rewrite map_map. }
  rewrite (obj_loop_members _ l b Hb _ (fold_left (put names) kvs (map (fun _ => None) names)) _ true rest).
  - cbn [bind]. rewrite (puts_map names kvs Hd (fun _ => None)).
    pose proof (skip_entries_members (tight := tight) false [] [] rest (members_nil [] space_nil)) as K.
    cbn [app] in K. destruct (fill (map fst fs) _); cbn [bind]; [|reflexivity..]. now rewrite K.
  - rewrite I0.
    apply (oruns_fold (fun m kv => key_means p kt (fst m) (fst kv) /\
       (forall ft, In ft fs -> fname (fst ft) = fst kv -> means p (snd ft) (snd m) (snd kv)))); [|assumption].
    intros k j [a x] acc ks w2 w3 bs r [H1 H2] Hks Hw2 Hw3 Hti Hj Hr. cbn [fst snd] in *.
    pose proof (jkdec_ok p oc kt Hk k a [] ks (w2 ++ 58 :: w3 ++ bs ++ r) H1 space_nil Hks) as K.
    cbn [app] in K |- *. unfold jfield. rewrite K. cbn [bind]. unfold put. cbn [fst snd].
    destruct (find_name a names) as [i|] eqn:Ei.
    + apply find_name_some in Ei. unfold names in Ei. rewrite nth_error_map in Ei.
      destruct (nth_error fs i) as [ft|] eqn:En; [|discriminate]. cbn in Ei. injection Ei as <-.
      unfold ds. rewrite nth_error_map, En. cbn [option_map].
      rewrite (expect_at KColon 58 _ w2) by (assumption || reflexivity). cbn [bind].
      assert (Hin : In ft fs) by (apply nth_error_In in En; exact En).
      rewrite Forall_forall in Hf.
      assert (HfF : has_float (snd ft) = true -> tight = true) by (intros F; apply Hfl, existsb_exists; exists ft; auto).
      rewrite (jdec_ok p oc (snd ft) (Hf ft Hin) tight j x w3 bs r); try assumption; [reflexivity|intros F; apply Hti, HfF, float_has, F|].
      now apply H2.
    + rewrite (expect_at KColon 58 _ w2) by (assumption || reflexivity). cbn [bind].
      rewrite (skip_value_text (tight := tight) w3 j) by assumption. reflexivity.
  - pose proof (members_length l b Hb). rewrite app_length. cbn. lia.
Qed.

Lemma fill_missing (fs : list (finfo * ty)) kvs f t :
  In (f, t) fs -> fdefault f = None -> ~ In (fname f) (map fst kvs) ->
  fill (map fst fs) (map (fun n => last_from None n kvs) (map (fun ft => fname (fst ft)) fs)) = Err.
Proof.
  intros Hin Hd Hn. induction fs as [|ft fs IH]; [contradiction|]. cbn [map fill].
  destruct Hin as [->|Hin].
  - cbn [fst]. rewrite last_from_none by assumption. now rewrite Hd.
  - destruct (last_from None (fname (fst ft)) kvs); [|destruct (fdefault (fst ft))]; cbn [bind];
      rewrite ?(IH Hin); reflexivity.
Qed.

Lemma kvs_nodup p kt (l : list (list N * jtree)) (kvs : list (val * val)) (Q : list N * jtree -> val * val -> Prop) :
  Forall2 (fun m kv => key_means p kt (fst m) (fst kv) /\ Q m kv) l kvs ->
  (forall i i' m m' k, nth_error l i = Some m -> nth_error l i' = Some m' ->
     key_means p kt (fst m) k -> key_means p kt (fst m') k -> i = i') ->
  NoDup (map fst kvs).
Proof.
  intros Hl Hd. apply NoDup_nth_error. intros i i' Hi E. rewrite map_length in Hi.
  assert (G : forall l kvs, Forall2 (fun m kv => key_means p kt (fst m) (fst kv) /\ Q m kv) l kvs ->
     forall i kv, nth_error kvs i = Some kv -> exists m, nth_error l i = Some m /\ key_means p kt (fst m) (fst kv)).
  { clear. induction 1 as [|m kv l kvs [H _] _ IH]; intros [|i] kv0 E; cbn in E; try discriminate.
    - injection E as <-. exists m. auto.
    - now apply IH in E. }
  rewrite !nth_error_map in E.
  destruct (nth_error kvs i) as [kv|] eqn:E1; [|apply nth_error_None in E1; lia].
  destruct (nth_error kvs i') as [kv'|] eqn:E2; [|discriminate]. cbn in E. injection E as E.
  destruct (G l kvs Hl i kv E1) as (m & M1 & M2). destruct (G l kvs Hl i' kv' E2) as (m' & M3 & M4).
  rewrite <- E in M4. exact (Hd i i' m m' (fst kv) M1 M3 M2 M4).
Qed.
