(** What a successful decode says about longer inputs. *)
From Verif Require Import Base Options Int Utf8 Types Json JsonSpec BaseFacts Utf8Facts TypesFacts
  IntFacts StorageFacts DecFacts JsonFacts JsonText JsonDec JsonEnc FloatFast FloatExt JsonSafe.
From Coq Require Import ZifyBool ZifyNat ZifyN.
Local Open Scope N_scope.

(** [z = false]: more input never changes the result. [z = true]: unless all of the input was
    consumed. *)
Definition ext {A} (z : bool) (d : dec A) : Prop :=
  forall a b v r, d a = Ok (v, r) -> (z = true -> r <> []) -> d (a ++ b) = Ok (v, r ++ b).

Lemma ext_weaken {A} z (d : dec A) : ext false d -> ext z d.
Proof. intros H a b v r E _. apply H; [assumption|discriminate]. Qed.

(** [d] needs input *)
Definition needs {A} (d : dec A) : Prop := forall x, d [] <> Ok x.

Lemma ext_bind {A B} z (d : dec A) (f : A -> dec B) : ext true d -> (forall v, needs (f v)) -> (forall v, ext z (f v)) ->
  ext z (fun bs => let* (v, r) := d bs in f v r).
Proof.
  intros Hd Hn Hf a b v r E Hz. apply bind_ok in E. destruct E as ([v0 r0] & E1 & E2).
  rewrite (Hd a b v0 r0 E1); [|intros _ ->; now apply (Hn v0) in E2]. cbn [bind]. now apply Hf.
Qed.

Lemma ext_bind0 {A B} z (d : dec A) (f : A -> dec B) : ext false d -> (forall v, ext z (f v)) ->
  ext z (fun bs => let* (v, r) := d bs in f v r).
Proof.
  intros Hd Hf a b v r E Hz. apply bind_ok in E. destruct E as ([v0 r0] & E1 & E2).
  rewrite (Hd a b v0 r0 E1); [|discriminate]. cbn [bind]. now apply Hf.
Qed.

Lemma ext_map {A B} z (d : dec A) (f : A -> res B) : ext z d ->
  ext z (fun bs => let* (v, r) := d bs in let* y := f v in Ok (y, r)).
Proof.
  intros Hd a b v r E Hz. apply bind_ok in E. destruct E as ([v0 r0] & E1 & E2).
  apply bind_ok in E2. destruct E2 as (y & E2 & E3). injection E3 as -> ->.
  rewrite (Hd a b v0 r E1 Hz). cbn [bind]. rewrite E2. reflexivity.
Qed.

Lemma ext_ret {A} z (x : A) : ext z (fun bs => Ok (x, bs)).
Proof. intros a b v r E _. now injection E as <- <-. Qed.
Lemma ext_err {A} z : ext z (fun bs => Err : res (A * bytes)).
Proof. intros a b v r E. discriminate. Qed.

Lemma needs_bind {A B} (d : dec A) (f : A -> dec B) : needs d -> needs (fun bs => let* (v, r) := d bs in f v r).
Proof.
  intros H x E. apply bind_ok in E. destruct E as (y & E & _). now apply H in E.
Qed.

(** ** Tokens: functions that only return the remaining input *)

Definition unit_dec (f : bytes -> res bytes) : dec unit := fun bs => let* r := f bs in Ok (tt, r).
Definition xext (z : bool) (f : bytes -> res bytes) : Prop :=
  forall a b r, f a = Ok r -> (z = true -> r <> []) -> f (a ++ b) = Ok (r ++ b).

Lemma skip_ws_ext a b : skip_ws a <> [] -> skip_ws (a ++ b) = skip_ws a ++ b.
Proof.
  induction a as [|x a IH]; cbn [skip_ws app]; [congruence|]. destruct (is_ws x); [exact IH|reflexivity].
Qed.

Lemma expect_ext k : k <> KEof -> xext false (expect k).
Proof.
  intros Hk a b r E _. unfold expect, lex in *. destruct (skip_ws a) as [|x w] eqn:Ew.
  - cbn in E. destruct k; cbn in E; congruence.
  - rewrite skip_ws_ext by congruence. rewrite Ew. cbn [app tok] in *.
    destruct (token_eqb _ _); [|discriminate]. cbn in *. congruence.
Qed.

Lemma expect_nil k r : expect k [] = Ok r -> False.
Proof. unfold expect, lex. cbn. destruct k; cbn; discriminate. Qed.

Lemma parse_exact_ext lit : xext false (parse_exact lit).
Proof.
  intros a b r E _. unfold parse_exact in *. destruct (take_opt (lenN lit) a) as [[h r0]|] eqn:Et; [|discriminate].
  apply take_opt_some in Et. destruct Et as [-> Hl].
  destruct (list_eq_dec N.eq_dec h lit); [|discriminate]. injection E as ->. subst h.
  rewrite <- app_assoc, take_opt_app by reflexivity. destruct (list_eq_dec N.eq_dec lit lit); [reflexivity|congruence].
Qed.

Lemma next_value_ext first a b m r : next_value first a = Ok (m, r) -> next_value first (a ++ b) = Ok (m, r ++ b) /\ r <> [].
Proof.
  induction a as [|x a IH]; cbn [next_value app]; [discriminate|].
  destruct (is_ws x); [exact IH|].
  destruct (is_value (from_byte x)).
  - intros E. injection E as <- <-. split; [reflexivity|discriminate].
  - destruct (from_byte x); try discriminate.
    + destruct first; [discriminate|exact IH].
    + intros E. injection E as <- <-. split; [reflexivity|discriminate].
Qed.

Lemma next_key_ext first a b m r : next_key first a = Ok (m, r) -> next_key first (a ++ b) = Ok (m, r ++ b) /\ r <> [].
Proof.
  induction a as [|x a IH]; cbn [next_key app]; [discriminate|].
  destruct (is_ws x); [exact IH|].
  destruct (from_byte x); try discriminate;
    try (intros E; injection E as <- <-; split; [reflexivity|discriminate]).
  destruct first; [discriminate|exact IH].
Qed.

(** ** Strings *)

Lemma span_plain_ext a b h x r : span_plain a = (h, x :: r) -> span_plain (a ++ b) = (h, x :: r ++ b).
Proof.
  revert h. induction a as [|y a IH]; cbn [span_plain app]; intros h; [discriminate|].
  destruct (needs_escape y); [intros E; injection E as <- <- <-; reflexivity|].
  destruct (span_plain a) as [h' t] eqn:E. intros K. injection K as <- ->. now rewrite (IH h').
Qed.

Lemma parse_hex_ext : ext false parse_hex.
Proof.
  intros a b v r E _. unfold parse_hex in *. destruct a as [|x [|y [|z [|w a]]]]; try discriminate.
  cbn [app]. destruct (hex_val x), (hex_val y), (hex_val z), (hex_val w); try discriminate.
  now injection E as <- <-.
Qed.

Definition pair_rest (n1 : N) (r : bytes) : res (N * bytes) :=
  match r with
  | b1 :: b2 :: r' =>
      if (b1 =? 92) && (b2 =? 117) then
        let* (n2, r'') := parse_hex r' in
        if between 0xDC00 0xDFFF n2 then
          if char_valid ((n1 - 0xD800) * 1024 + (n2 - 0xDC00) + 0x10000)
          then Ok ((n1 - 0xD800) * 1024 + (n2 - 0xDC00) + 0x10000, r'') else Err
        else Err
      else Err
  | _ => Err
  end.

Lemma parse_u_eq bs : parse_u bs =
  let* (n1, r) := parse_hex bs in
  if between 0xDC00 0xDFFF n1 then Err
  else if between 0xD800 0xDBFF n1 then pair_rest n1 r else Ok (n1, r).
Proof.
  unfold parse_u. destruct (parse_hex bs) as [[n1 r]| |]; try reflexivity. cbn [bind].
  destruct (between 0xDC00 0xDFFF n1); [reflexivity|]. destruct (between 0xD800 0xDBFF n1); [|reflexivity].
  unfold pair_rest. destruct r as [|x r]; [reflexivity|].
  destruct (x =? 92) eqn:Ex.
  - apply N.eqb_eq in Ex. subst x. destruct r as [|y r]; [reflexivity|].
    destruct (y =? 117) eqn:Ey; [apply N.eqb_eq in Ey; subst y; reflexivity|].
    cbn [andb]. destruct y as [|y]; [reflexivity|].
    do 7 (destruct y as [y|y|]; try reflexivity; try (cbn in Ey; discriminate)).
  - destruct x as [|x]; [destruct r; reflexivity|].
    do 7 (destruct x as [x|x|]; try (destruct r; reflexivity); try (cbn in Ex; discriminate)).
Qed.

Lemma parse_u_ext : ext false parse_u.
Proof.
  intros a b v r E _. rewrite parse_u_eq in *. apply bind_ok in E. destruct E as ([n1 r1] & E1 & E2).
  rewrite (parse_hex_ext a b n1 r1 E1) by discriminate. cbn [bind].
  destruct (between 0xDC00 0xDFFF n1); [discriminate|]. destruct (between 0xD800 0xDBFF n1).
  - unfold pair_rest in *. destruct r1 as [|x [|y r1]]; try discriminate. cbn [app].
    destruct (_ && _); [|discriminate]. apply bind_ok in E2. destruct E2 as ([n2 r2] & E2 & E3).
    rewrite (parse_hex_ext r1 b n2 r2 E2) by discriminate. cbn [bind].
    destruct (between 0xDC00 0xDFFF n2); [|discriminate]. destruct (char_valid _); [|discriminate].
    now injection E3 as <- <-.
  - now injection E2 as <- <-.
Qed.

Lemma parse_escape_ext : ext false parse_escape.
Proof.
  intros a b v r E _. unfold parse_escape in *. destruct a as [|x a]; [discriminate|]. cbn [app].
  repeat match goal with |- context [if ?c then _ else _] => destruct c; [try (now injection E as <- <-)|] end;
    try discriminate.
  apply bind_ok in E. destruct E as ([c r1] & E1 & E2). injection E2 as <- <-.
  now rewrite (parse_u_ext a b c r1 E1) by discriminate.
Qed.

Lemma str_loop_ext fuel fuel' : (fuel <= fuel')%nat -> forall scratch a b v r, str_loop fuel scratch a = Ok (v, r) ->
  str_loop fuel' scratch (a ++ b) = Ok (v, r ++ b).
Proof.
  revert fuel'. induction fuel as [|fuel IH]; intros [|fuel'] Hf scratch a b v r E; try (cbn in E; discriminate); [lia|].
  cbn [str_loop] in *. destruct (span_plain a) as [seg [|x t]] eqn:Es; [discriminate|].
  rewrite (span_plain_ext a b seg x t Es).
  destruct (x =? 34).
  - destruct (utf8_valid seg); [|discriminate]. now injection E as <- <-.
  - destruct (x =? 92); [|discriminate]. destruct (utf8_valid seg); [|discriminate].
    apply bind_ok in E. destruct E as ([c r1] & E1 & E2).
    rewrite (parse_escape_ext t b c r1 E1) by discriminate. cbn [bind]. apply IH; [lia|assumption].
Qed.

Lemma skip_str_ext fuel fuel' : (fuel <= fuel')%nat -> forall a b r, skip_str_loop fuel a = Ok r ->
  skip_str_loop fuel' (a ++ b) = Ok (r ++ b).
Proof.
  revert fuel'. induction fuel as [|fuel IH]; intros [|fuel'] Hf a b r E; try (cbn in E; discriminate); [lia|].
  cbn [skip_str_loop] in *. destruct (span_plain a) as [seg [|x t]] eqn:Es; [discriminate|].
  rewrite (span_plain_ext a b seg x t Es). cbn [snd] in *.
  destruct (x =? 34); [now injection E as <-|]. destruct (x =? 92); [|discriminate].
  apply bind_ok in E. destruct E as ([c r1] & E1 & E2).
  rewrite (parse_escape_ext t b c r1 E1) by discriminate. cbn [bind]. apply IH; [lia|assumption].
Qed.

Lemma parse_string_ext : ext false parse_string.
Proof.
  intros a b v r E _. unfold parse_string in *. apply bind_ok in E. destruct E as (r1 & E1 & E2).
  rewrite (expect_ext KString ltac:(discriminate) a b r1 E1) by discriminate. cbn [bind].
  eapply str_loop_ext; [|exact E2]. rewrite app_length. lia.
Qed.

Lemma parse_string_nil : needs parse_string.
Proof. intros x E. unfold parse_string in E. apply bind_ok in E. destruct E as (r & E & _). now apply expect_nil in E. Qed.

Lemma decode_char_ext : ext false decode_char.
Proof.
  intros a b v r E _. unfold decode_char in *. apply bind_ok in E. destruct E as ([s r1] & E1 & E2).
  rewrite (parse_string_ext a b s r1 E1) by discriminate. cbn [bind].
  destruct (utf8_next s) as [[c [|]]|]; try discriminate. now injection E2 as <- <-.
Qed.

(** ** Numbers *)

Lemma digits_ext oc tb acc : ext true (digits oc tb acc).
Proof.
  intros a b v r E Hz. specialize (Hz eq_refl). revert acc E. induction a as [|x a IH]; intros acc; cbn [digits app].
  - intros E. injection E as <- <-. congruence.
  - destruct (is_digit x); [|intros E; now injection E as <- <-].
    destruct (_ <=? _); [discriminate|]. destruct (_ <=? _); [destruct oc; [discriminate|]|]; apply IH.
Qed.

Lemma unsigned_base_ext oc tb : ext true (unsigned_base oc tb).
Proof.
  intros a b v r E Hz. unfold unsigned_base in *. destruct a as [|x a]; [discriminate|]. cbn [app].
  destruct (x =? 48); [now injection E as <- <-|]. destruct (is_digit_nonzero x); [|discriminate].
  now apply digits_ext.
Qed.

Lemma parse_unsigned_ext oc tb : ext true (parse_unsigned oc tb).
Proof.
  intros a b v r E Hz. unfold parse_unsigned in *. destruct (skip_ws a) as [|x w] eqn:Ew; [discriminate|].
  rewrite skip_ws_ext by congruence. rewrite Ew. now apply unsigned_base_ext.
Qed.

Lemma parse_signed_ext oc tb : ext true (parse_signed oc tb).
Proof.
  intros a b v r E Hz. rewrite parse_signed_eq in *. destruct (skip_ws a) as [|x w] eqn:Ew; [discriminate|].
  rewrite skip_ws_ext by congruence. rewrite Ew. cbn [app]. destruct (x =? 45).
  - exact (ext_map true (unsigned_base oc tb) (negate tb) (unsigned_base_ext oc tb) w b v r E Hz).
  - exact (ext_map true (unsigned_base oc tb) (signed tb) (unsigned_base_ext oc tb) (x :: w) b v r E Hz).
Qed.

(** ** Skipping *)

Lemma skip_digits_ext a b : skip_digits a <> [] -> skip_digits (a ++ b) = skip_digits a ++ b.
Proof.
  induction a as [|x a IH]; cbn [skip_digits app]; [congruence|]. destruct (is_digit x); [exact IH|reflexivity].
Qed.

Definition sn_sign (bs : bytes) : bytes := match bs with b :: r => if b =? 45 then r else bs | [] => [] end.
Definition sn_frac (bs : bytes) : bytes := match bs with b :: r => if b =? 46 then skip_digits r else bs | [] => [] end.
Definition sn_exp (bs : bytes) : bytes :=
  match bs with
  | b :: r =>
      if (b =? 101) || (b =? 69) then
        skip_digits (match r with
                     | c :: r' => if (c =? 45) || (c =? 43) then r' else r
                     | [] => r end)
      else bs
  | [] => []
  end.
Definition sn_int (r0 : bytes) : res bytes :=
  match r0 with
  | [] => Err
  | b :: r => if b =? 48 then Ok r else if is_digit_nonzero b then Ok (skip_digits r) else Err
  end.

Lemma skip_number_eq bs : skip_number bs = let* r1 := sn_int (sn_sign bs) in Ok (sn_exp (sn_frac r1)).
Proof.
  unfold skip_number. cbv zeta.
  assert (E1 : (match bs with 45 :: r => r | _ => bs end) = sn_sign bs).
  { destruct bs as [|x r]; [reflexivity|]. unfold sn_sign. destruct (x =? 45) eqn:Ex;
      [apply N.eqb_eq in Ex; now subst x|].
    destruct x as [|x]; [reflexivity|]. do 6 (destruct x as [x|x|]; try reflexivity; try (cbn in Ex; discriminate)). }
  rewrite E1. match goal with |- bind ?x _ = _ => change x with (sn_int (sn_sign bs)) end.
  destruct (sn_int (sn_sign bs)) as [r1| |]; try reflexivity. cbn [bind].
  assert (E2 : (match r1 with 46 :: r => skip_digits r | _ => r1 end) = sn_frac r1).
  { destruct r1 as [|x r]; [reflexivity|]. unfold sn_frac. destruct (x =? 46) eqn:Ex;
      [apply N.eqb_eq in Ex; now subst x|].
    destruct x as [|x]; [reflexivity|]. do 6 (destruct x as [x|x|]; try reflexivity; try (cbn in Ex; discriminate)). }
  match goal with |- (match ?m with [] => Ok [] | _ => _ end) = _ => assert (E3 : m = sn_frac r1) by exact E2; rewrite E3 end.
  unfold sn_exp. destruct (sn_frac r1) as [|x r]; [reflexivity|]. now destruct (_ || _).
Qed.

Lemma sn_exp_ext a b : sn_exp a <> [] -> sn_exp (a ++ b) = sn_exp a ++ b.
Proof.
  unfold sn_exp. destruct a as [|x a]; [congruence|]. cbn [app]. destruct (_ || _); [|reflexivity].
  destruct a as [|c a]; [cbn; congruence|]. cbn [app]. destruct (_ || _); intros H.
  - now apply skip_digits_ext.
  - now apply (skip_digits_ext (c :: a)).
Qed.

Lemma sn_exp_nil : sn_exp [] = [].
Proof. reflexivity. Qed.

Lemma sn_frac_ext a b : sn_frac a <> [] -> sn_frac (a ++ b) = sn_frac a ++ b.
Proof.
  unfold sn_frac. destruct a as [|x a]; [congruence|]. cbn [app]. destruct (x =? 46); [|reflexivity].
  apply skip_digits_ext.
Qed.

Lemma skip_number_ext : xext true skip_number.
Proof.
  intros a b r E Hz. specialize (Hz eq_refl). rewrite skip_number_eq in *.
  apply bind_ok in E. destruct E as (r1 & E1 & E2). injection E2 as <-.
  assert (H2 : sn_frac r1 <> []) by (intros E; rewrite E in Hz; now apply Hz).
  assert (H1 : r1 <> []) by (intros ->; now apply H2).
  assert (K : sn_int (sn_sign (a ++ b)) = Ok (r1 ++ b)).
  { destruct a as [|x a]; [discriminate|]. cbn [app sn_sign] in *.
    assert (G : forall y, sn_int y = Ok r1 -> sn_int (y ++ b) = Ok (r1 ++ b)).
    { intros [|z y]; [discriminate|]. cbn [sn_int app]. destruct (z =? 48); [intros E; now injection E as ->|].
      destruct (is_digit_nonzero z); [|discriminate]. intros E. injection E as <-. f_equal. now apply skip_digits_ext. }
    destruct (x =? 45); [now apply G|]. now apply (G (x :: a)). }
  rewrite K. cbn [bind]. rewrite sn_frac_ext by assumption. now rewrite sn_exp_ext.
Qed.

Lemma skip1_ext : xext false skip1.
Proof. intros [|x a] b r E _; [discriminate|]. cbn in *. congruence. Qed.

Lemma skip_all_nil fuel :
  (forall r, skip_any fuel [] <> Ok r) /\ (forall f r, skip_seq fuel f [] <> Ok r) /\ (forall f r, skip_obj fuel f [] <> Ok r).
Proof. destruct fuel; repeat split; intros; cbn; discriminate. Qed.

Lemma skip_all_ext fuel : forall fuel', (fuel <= fuel')%nat ->
  (forall a b r, skip_any fuel a = Ok r -> r <> [] -> skip_any fuel' (a ++ b) = Ok (r ++ b)) /\
  (forall first a b r, skip_seq fuel first a = Ok r -> skip_seq fuel' first (a ++ b) = Ok (r ++ b)) /\
  (forall first a b r, skip_obj fuel first a = Ok r -> skip_obj fuel' first (a ++ b) = Ok (r ++ b)).
Proof.
  induction fuel as [|fuel IH]; intros [|fuel'] Hf; try lia; try (repeat split; intros; cbn in *; discriminate).
  destruct (IH fuel') as (IHa & IHs & IHo); [lia|]. clear IH. repeat split.
  - intros a b r E Hr. cbn [skip_any] in *. unfold lex in *. destruct (skip_ws a) as [|x w] eqn:Ew; [discriminate|].
    rewrite skip_ws_ext by congruence. rewrite Ew. cbn [tok app] in *.
    destruct (from_byte x); try discriminate.
    + cbn [skip1 bind] in *. now apply IHo.
    + cbn [skip1 bind] in *. now apply IHs.
    + cbn [skip1 bind] in *. eapply skip_str_ext; [|exact E]. rewrite app_length. lia.
    + exact (skip_number_ext (x :: w) b r E (fun _ => Hr)).
    + exact (parse_exact_ext lit_null (x :: w) b r E (fun _ => Hr)).
    + exact (parse_exact_ext lit_true (x :: w) b r E (fun _ => Hr)).
    + exact (parse_exact_ext lit_false (x :: w) b r E (fun _ => Hr)).
  - intros first a b r E. cbn [skip_seq] in *. apply bind_ok in E. destruct E as ([m r0] & E1 & E2).
    destruct (next_value_ext first a b m r0 E1) as [K _]. rewrite K. cbn [bind]. destruct m.
    + apply bind_ok in E2. destruct E2 as (r1 & E2 & E3).
      rewrite (IHa r0 b r1 E2); [|intros ->; now apply skip_all_nil in E3]. cbn [bind]. now apply IHs.
    + now apply expect_ext.
  - intros first a b r E. cbn [skip_obj] in *. apply bind_ok in E. destruct E as ([m r0] & E1 & E2).
    destruct (next_key_ext first a b m r0 E1) as [K _]. rewrite K. cbn [bind]. destruct m.
    + apply bind_ok in E2. destruct E2 as (r1 & E2 & E3). apply bind_ok in E3. destruct E3 as (r2 & E3 & E4).
      apply bind_ok in E4. destruct E4 as (r3 & E4 & E5).
      rewrite (IHa r0 b r1 E2); [|intros ->; now apply expect_nil in E3]. cbn [bind].
      rewrite (expect_ext KColon ltac:(discriminate) r1 b r2 E3) by discriminate. cbn [bind].
      rewrite (IHa r2 b r3 E4); [|intros ->; now apply skip_all_nil in E5]. cbn [bind]. now apply IHo.
    + now apply expect_ext.
Qed.

Lemma skip_value_ext : xext true skip_value.
Proof.
  intros a b r E Hr. unfold skip_value, skip_fuel in *. eapply skip_all_ext; [|exact E|now apply Hr].
  rewrite app_length. lia.
Qed.
Lemma skip_rest_ext first : xext false (skip_rest first).
Proof.
  intros a b r E _. unfold skip_rest, skip_fuel in *. eapply skip_all_ext; [|exact E]. rewrite app_length. lia.
Qed.
Lemma skip_entries_ext first : xext false (skip_entries first).
Proof.
  intros a b r E _. unfold skip_entries, skip_fuel in *. eapply skip_all_ext; [|exact E]. rewrite app_length. lia.
Qed.

(** ** Loops *)

Section Loops.
  Context {S : Type} (step : S -> bytes -> res (S * bytes)).
  Hypothesis Hstep : forall s, ext true (step s).

  Lemma seq_loop_ext fuel : forall fuel' first s a b s' r, (fuel <= fuel')%nat ->
    seq_loop fuel step first s a = Ok (s', r) -> seq_loop fuel' step first s (a ++ b) = Ok (s', r ++ b).
  Proof.
    induction fuel as [|fuel IH]; intros [|fuel'] first s a b s' r Hf E; try (cbn in E; discriminate); [lia|].
    cbn [seq_loop] in *. apply bind_ok in E. destruct E as ([m r0] & E1 & E2).
    destruct (next_value_ext first a b m r0 E1) as [K _]. rewrite K. cbn [bind]. destruct m.
    - apply bind_ok in E2. destruct E2 as ([s1 r1] & E2 & E3).
      rewrite (Hstep s r0 b s1 r1 E2).
      + cbn [bind]. apply IH; [lia|assumption].
      + intros _ ->. destruct fuel; cbn in E3; discriminate.
    - now injection E2 as <- <-.
  Qed.

  Lemma obj_loop_ext fuel : forall fuel' first s a b s' r, (fuel <= fuel')%nat ->
    obj_loop fuel step first s a = Ok (s', r) -> obj_loop fuel' step first s (a ++ b) = Ok (s', r ++ b).
  Proof.
    induction fuel as [|fuel IH]; intros [|fuel'] first s a b s' r Hf E; try (cbn in E; discriminate); [lia|].
    cbn [obj_loop] in *. apply bind_ok in E. destruct E as ([m r0] & E1 & E2).
    destruct (next_key_ext first a b m r0 E1) as [K _]. rewrite K. cbn [bind]. destruct m.
    - apply bind_ok in E2. destruct E2 as ([s1 r1] & E2 & E3).
      rewrite (Hstep s r0 b s1 r1 E2).
      + cbn [bind]. apply IH; [lia|assumption].
      + intros _ ->. destruct fuel; cbn in E3; discriminate.
    - now injection E2 as <- <-.
  Qed.

  Lemma dec_sequence_ext s : ext false (dec_sequence step s).
  Proof.
    intros a b v r E _. unfold dec_sequence in *. apply bind_ok in E. destruct E as (r0 & E1 & E2).
    apply bind_ok in E2. destruct E2 as ([s1 r1] & E2 & E3). apply bind_ok in E3. destruct E3 as (r2 & E3 & E4).
    injection E4 as <- <-.
    rewrite (expect_ext KOBracket ltac:(discriminate) a b r0 E1) by discriminate. cbn [bind].
    rewrite (seq_loop_ext (Datatypes.S (length r0)) (Datatypes.S (length (r0 ++ b))) _ _ _ b _ _ ltac:(rewrite app_length; lia) E2). cbn [bind].
    now rewrite (skip_rest_ext false r1 b r2 E3) by discriminate.
  Qed.

  Lemma dec_object_ext s : ext false (dec_object step s).
  Proof.
    intros a b v r E _. unfold dec_object in *. apply bind_ok in E. destruct E as (r0 & E1 & E2).
    apply bind_ok in E2. destruct E2 as ([s1 r1] & E2 & E3). apply bind_ok in E3. destruct E3 as (r2 & E3 & E4).
    injection E4 as <- <-.
    rewrite (expect_ext KOBrace ltac:(discriminate) a b r0 E1) by discriminate. cbn [bind].
    rewrite (obj_loop_ext (Datatypes.S (length r0)) (Datatypes.S (length (r0 ++ b))) _ _ _ b _ _ ltac:(rewrite app_length; lia) E2). cbn [bind].
    now rewrite (skip_entries_ext false r1 b r2 E3) by discriminate.
  Qed.
End Loops.

Lemma next_list_ext ds : Forall (ext true) ds -> forall first, ext true (next_list ds first).
Proof.
  induction 1 as [|d ds Hd Hds IH]; intros first a b v r E Hz; specialize (Hz eq_refl); cbn [next_list] in *.
  - now injection E as <- <-.
  - apply bind_ok in E. destruct E as ([m r0] & E1 & E2).
    destruct (next_value_ext first a b m r0 E1) as [K _]. rewrite K. cbn [bind]. destruct m; [|discriminate].
    apply bind_ok in E2. destruct E2 as ([v1 r1] & E2 & E3). apply bind_ok in E3. destruct E3 as ([vs r2] & E3 & E4).
    injection E4 as <- <-.
    rewrite (Hd r0 b v1 r1 E2).
    + cbn [bind]. now rewrite (IH false r1 b vs r2 E3 (fun _ => Hz)).
    + intros _ ->. destruct ds; cbn in E3; [injection E3 as <- <-; congruence|discriminate].
Qed.

Lemma dec_tuple_ext ds : Forall (ext true) ds -> ext false (dec_tuple ds).
Proof.
  intros H a b v r E _. unfold dec_tuple in *. apply bind_ok in E. destruct E as (r0 & E1 & E2).
  apply bind_ok in E2. destruct E2 as ([s1 r1] & E2 & E3). apply bind_ok in E3. destruct E3 as (r2 & E3 & E4).
  injection E4 as <- <-.
  rewrite (expect_ext KOBracket ltac:(discriminate) a b r0 E1) by discriminate. cbn [bind].
  rewrite (next_list_ext ds H true r0 b s1 r1 E2); [|intros _ ->; now apply skip_all_nil in E3]. cbn [bind].
  now rewrite (skip_rest_ext _ r1 b r2 E3) by discriminate.
Qed.

(** ** Keys and values *)

Lemma jkdec_ext p oc t : ext false (jkdec p oc t).
Proof.
  assert (U : forall tb, ext false (key_unsigned oc tb)).
  { intros tb a b v r E _. unfold key_unsigned in *. apply bind_ok in E. destruct E as ([s r1] & E1 & E2).
    rewrite (parse_string_ext a b s r1 E1) by discriminate. cbn [bind].
    apply bind_ok in E2. destruct E2 as ([n r2] & E2 & E3). rewrite E2. cbn [bind]. now injection E3 as <- <-. }
  assert (Sg : forall tb, ext false (key_signed oc tb)).
  { intros tb a b v r E _. unfold key_signed in *. apply bind_ok in E. destruct E as ([s r1] & E1 & E2).
    rewrite (parse_string_ext a b s r1 E1) by discriminate. cbn [bind].
    apply bind_ok in E2. destruct E2 as ([n r2] & E2 & E3). rewrite E2. cbn [bind]. now injection E3 as <- <-. }
  induction t using ty_ind'; cbn [jkdec]; try apply ext_err; auto.
  - intros a b v r E _. apply bind_ok in E. destruct E as ([x r1] & E1 & E2).
    rewrite (U _ a b x r1 E1) by discriminate. cbn [bind].
    destruct x as [| |[|n]| | | | | | |]; try discriminate; now injection E2 as <- <-.
  - intros a b v r E _. apply bind_ok in E. destruct E as ([s r1] & E1 & E2).
    rewrite (parse_string_ext a b s r1 E1) by discriminate. cbn [bind]. now injection E2 as <- <-.
  - intros a b v r E _. apply bind_ok in E. destruct E as ([k r1] & E1 & E2).
    rewrite (IHt a b k r1 E1) by discriminate. cbn [bind].
    destruct (find_name k tags); [|discriminate]. now injection E2 as <- <-.
Qed.

Lemma jfield_ext dk names ds s : ext false dk -> Forall (ext true) ds -> ext true (jfield dk names ds s).
Proof.
  intros Hk Hd a b v r E Hz. unfold jfield in *. apply bind_ok in E. destruct E as ([k r0] & E1 & E2).
  rewrite (Hk a b k r0 E1) by discriminate. cbn [bind].
  destruct (find_name k names) as [i|].
  - destruct (nth_error ds i) as [d|] eqn:En; [|discriminate].
    apply bind_ok in E2. destruct E2 as (r1 & E2 & E3). apply bind_ok in E3. destruct E3 as ([x r2] & E3 & E4).
    injection E4 as <- <-. rewrite (expect_ext KColon ltac:(discriminate) r0 b r1 E2) by discriminate. cbn [bind].
    rewrite Forall_forall in Hd. apply nth_error_In in En. now rewrite (Hd d En r1 b x r2 E3 Hz).
  - apply bind_ok in E2. destruct E2 as (r1 & E2 & E3). apply bind_ok in E3. destruct E3 as (r2 & E3 & E4).
    injection E4 as <- <-. rewrite (expect_ext KColon ltac:(discriminate) r0 b r1 E2) by discriminate. cbn [bind].
    now rewrite (skip_value_ext r1 b r2 E3 Hz).
Qed.

Ltac step1 L := match goal with E : bind _ _ = Ok _ |- _ =>
  apply bind_ok in E; let x := fresh "x" in let r := fresh "r" in let E1 := fresh "E" in
  destruct E as ([x r] & E1 & E); rewrite (L _ _ _ _ E1); cbn [bind] end.

Lemma float_ext' F : std F -> ext true (Dec2flt.json_decode_float F).
Proof. intros HF a b v r E H. apply (float_more F); auto. Qed.

Lemma jdec_nil p oc t x : jdec p oc t [] <> Ok x.
Proof.
  revert x. induction t using ty_ind'; intros x E; cbn [jdec] in E; try discriminate;
    try (cbv zeta in E; apply bind_ok in E; destruct E as (y & E & _); cbn in E;
         try (now apply IHt in E); discriminate).
  - now apply IHt in E.
  - destruct fs; cbn in E; discriminate.
Qed.

Theorem jdec_ext p oc t : ext (negb (delimited t)) (jdec p oc t).
Proof.
  assert (W : forall t, ext (negb (delimited t)) (jdec p oc t) -> ext true (jdec p oc t)).
  { intros u H a b v r E Hr. apply H; [assumption|]. intros _. now apply Hr. }
  induction t using ty_ind'; cbn [delimited negb]; intros a b v r E Hz; cbn [jdec] in *; try discriminate.
  - apply bind_ok in E. destruct E as (r1 & E1 & E). injection E as <- <-.
    now rewrite (skip_value_ext a b r1 E1 Hz).
  - unfold lex in *. destruct (skip_ws a) as [|x w] eqn:Ew; [discriminate|].
    rewrite skip_ws_ext by congruence. rewrite Ew. cbn [tok app] in *.
    destruct (from_byte x); try discriminate; apply bind_ok in E; destruct E as (r1 & E1 & E); injection E as <- <-.
    + change (x :: w ++ b) with ((x :: w) ++ b). now rewrite (parse_exact_ext lit_true (x :: w) b r1 E1) by discriminate.
    + change (x :: w ++ b) with ((x :: w) ++ b). now rewrite (parse_exact_ext lit_false (x :: w) b r1 E1) by discriminate.
  - step1 decode_char_ext; [now injection E as <- <-|discriminate].
  - step1 (parse_unsigned_ext oc (bits w)); injection E as <- <-; [reflexivity|exact Hz].
  - step1 (parse_signed_ext oc (bits w)); injection E as <- <-; [reflexivity|exact Hz].
  - step1 (parse_unsigned_ext oc (usize_bits p)); injection E as <- <-; [reflexivity|exact Hz].
  - step1 (parse_signed_ext oc (usize_bits p)); injection E as <- <-; [reflexivity|exact Hz].
  - step1 (float_ext' Dec2flt.F32 (or_introl eq_refl)); injection E as <- <-; [reflexivity|exact Hz].
  - step1 (float_ext' Dec2flt.F64 (or_intror eq_refl)); injection E as <- <-; [reflexivity|exact Hz].
  - step1 (parse_unsigned_ext oc (bits w)); destruct (_ =? 0); try discriminate; injection E as <- <-; [reflexivity|exact Hz].
  - step1 parse_string_ext; [now injection E as <- <-|discriminate].
  - assert (B : forall s, ext true (byte_step oc s)).
    { intros s a0 b0 v0 r0 E0 Hz0. unfold byte_step in *. apply bind_ok in E0. destruct E0 as ([n r1] & E1 & E2).
      injection E2 as <- <-. now rewrite (parse_unsigned_ext oc 8 a0 b0 n r1 E1 Hz0). }
    step1 (dec_sequence_ext (byte_step oc) B []); [now injection E as <- <-|discriminate].
  - assert (B : forall s, ext true (arr_step oc n s)).
    { intros s a0 b0 v0 r0 E0 Hz0. unfold arr_step in *. destruct (_ <=? _); [|discriminate].
      apply bind_ok in E0. destruct E0 as ([m r1] & E1 & E2). destruct (_ <? _); [|discriminate].
      injection E2 as <- <-. now rewrite (parse_unsigned_ext oc 8 a0 b0 m r1 E1 Hz0). }
    step1 (dec_sequence_ext (arr_step oc n) B []); [|discriminate].
    destruct (_ =? _); [|discriminate]. now injection E as <- <-.
  - unfold lex in *. destruct (skip_ws a) as [|x w] eqn:Ew.
    + cbn [tok] in E. apply bind_ok in E. destruct E as ([y r1] & E1 & E). now apply jdec_nil in E1.
    + rewrite skip_ws_ext by congruence. rewrite Ew. cbn [tok app] in *.
      assert (K : forall E0 : (let* (v, r') := jdec p oc t (x :: w) in Ok (VSome v, r')) = Ok (v, r),
        (let* (v, r') := jdec p oc t (x :: w ++ b) in Ok (VSome v, r')) = Ok (v, r ++ b)).
      { intros E0. apply bind_ok in E0. destruct E0 as ([y r1] & E1 & E2). injection E2 as <- <-.
        change (x :: w ++ b) with ((x :: w) ++ b). now rewrite (IHt (x :: w) b y r1 E1 Hz). }
      destruct (from_byte x); try (apply K; exact E).
      apply bind_ok in E. destruct E as (r1 & E1 & E). injection E as <- <-.
      change (x :: w ++ b) with ((x :: w) ++ b). now rewrite (parse_exact_ext lit_null (x :: w) b r1 E1) by discriminate.
  - now apply IHt.
  - match type of E with context [dec_sequence ?st _ _] => assert (B : forall s, ext true (st s)) end.
    { intros s a0 b0 v0 r0 E0 Hz0. apply bind_ok in E0. destruct E0 as ([n r1] & E1 & E2).
      injection E2 as <- <-. now rewrite (W t IHt a0 b0 n r1 E1 Hz0). }
    step1 (dec_sequence_ext _ B []); [now injection E as <- <-|discriminate].
  - match type of E with context [dec_sequence ?st _ _] => assert (B : forall s, ext true (st s)) end.
    { intros s a0 b0 v0 r0 E0 Hz0. apply bind_ok in E0. destruct E0 as ([y r1] & E1 & E2).
      destruct (_ <? _) eqn:El; [|discriminate].
      injection E2 as <- <-. rewrite (W t IHt a0 b0 y r1 E1 Hz0). reflexivity. }
    step1 (dec_sequence_ext _ B []); [|discriminate].
    destruct (_ =? _); [|discriminate]. now injection E as <- <-.
  - match type of E with context [dec_sequence ?st _ _] => assert (B : forall s, ext true (st s)) end.
    { intros s a0 b0 v0 r0 E0 Hz0. apply bind_ok in E0. destruct E0 as ([n r1] & E1 & E2).
      injection E2 as <- <-. now rewrite (W t IHt a0 b0 n r1 E1 Hz0). }
    step1 (dec_sequence_ext _ B []); [now injection E as <- <-|discriminate].
  - assert (B : Forall (ext true) (map (jdec p oc) ts)).
    { apply Forall_map. rewrite Forall_forall in *. intros t Ht. apply W, H, Ht. }
    step1 (dec_tuple_ext _ B); [now injection E as <- <-|discriminate].
  - match type of E with context [dec_object ?st _ _] => assert (B : forall s, ext true (st s)) end.
    { intros s a0 b0 v0 r0 E0 Hz0. apply bind_ok in E0. destruct E0 as ([k r1] & E1 & E2).
      rewrite (jkdec_ext p oc t1 a0 b0 k r1 E1) by discriminate. cbn [bind].
      apply bind_ok in E2. destruct E2 as (r2 & E2 & E3). apply bind_ok in E3. destruct E3 as ([y r3] & E3 & E4).
      injection E4 as <- <-. rewrite (expect_ext KColon ltac:(discriminate) r1 b0 r2 E2) by discriminate. cbn [bind].
      now rewrite (W t2 IHt2 r2 b0 y r3 E3 Hz0). }
    step1 (dec_object_ext _ B []); [now injection E as <- <-|discriminate].
  - assert (B : Forall (ext true) (map (fun ft => jdec p oc (snd ft)) fs)).
    { apply Forall_map. rewrite Forall_forall in *. intros t Ht. apply W, (H t Ht). }
    step1 (dec_tuple_ext _ B); [now injection E as <- <-|discriminate].
  - destruct fs as [|ft0 fs0] eqn:Efs.
    + apply bind_ok in E. destruct E as (r1 & E1 & E). apply bind_ok in E. destruct E as (r2 & E2 & E).
      injection E as <- <-. rewrite (expect_ext KOBrace ltac:(discriminate) a b r1 E1) by discriminate. cbn [bind].
      now rewrite (skip_entries_ext true r1 b r2 E2) by discriminate.
    + rewrite <- Efs in *. clear Efs ft0 fs0.
      apply bind_ok in E. destruct E as (r1 & E1 & E). apply bind_ok in E. destruct E as ([s r2] & E2 & E).
      apply bind_ok in E. destruct E as (vs & E3 & E). apply bind_ok in E. destruct E as (r3 & E4 & E).
      injection E as <- <-. rewrite (expect_ext KOBrace ltac:(discriminate) a b r1 E1) by discriminate. cbn [bind].
      assert (B : Forall (ext true) (map (fun ft => jdec p oc (snd ft)) fs)).
      { apply Forall_map. rewrite Forall_forall in *. intros t' Ht. apply W, (H t' Ht). }
      rewrite (obj_loop_ext (jfield (jkdec p oc t) (map (fun ft => fname (fst ft)) fs) (map (fun ft => jdec p oc (snd ft)) fs))
                 (fun s => jfield_ext _ _ _ s (jkdec_ext p oc t) B) (Datatypes.S (length r1)) (Datatypes.S (length (r1 ++ b)))
                 _ _ _ b _ _ ltac:(rewrite app_length; lia) E2). cbn [bind].
      rewrite E3. cbn [bind]. now rewrite (skip_entries_ext false r2 b r3 E4) by discriminate.
  - step1 IHt; destruct (find_name _ tags); try discriminate; injection E as <- <-; [reflexivity|exact Hz].
  - apply bind_ok in E. destruct E as (r0 & E1 & E). apply bind_ok in E. destruct E as ([k r1] & E2 & E).
    rewrite (expect_ext KOBrace ltac:(discriminate) a b r0 E1) by discriminate. cbn [bind].
    rewrite (jkdec_ext p oc t r0 b k r1 E2) by discriminate. cbn [bind].
    destruct (find_name k (map fst vs)) as [i|]; [|discriminate]. rewrite nth_error_map in *.
    destruct (nth_error vs i) as [tv|] eqn:En; cbn [option_map] in *; [|discriminate].
    apply bind_ok in E. destruct E as (r2 & E3 & E). apply bind_ok in E. destruct E as ([x r3] & E4 & E).
    apply bind_ok in E. destruct E as (r4 & E5 & E). injection E as <- <-.
    rewrite (expect_ext KColon ltac:(discriminate) r1 b r2 E3) by discriminate. cbn [bind].
    rewrite Forall_forall in H. apply nth_error_In in En.
    rewrite (W _ (H tv En) r2 b x r3 E4); [|intros _ ->; now apply expect_nil in E5]. cbn [bind].
    now rewrite (expect_ext KCBrace ltac:(discriminate) r3 b r4 E5) by discriminate.
Qed.

(** Decoding a proper prefix of a document never succeeds. *)
Lemma jdec_prefix p oc t a b v : delimited t = true -> b <> [] -> jdec p oc t (a ++ b) = Ok (v, []) ->
  forall x, jdec p oc t a <> Ok x.
Proof.
  intros Hd Hb E [v' r] E'. pose proof (jdec_ext p oc t) as X. rewrite Hd in X.
  rewrite (X a b v' r E') in E by discriminate. injection E as _ E. destruct r, b; cbn in E; congruence.
Qed.
