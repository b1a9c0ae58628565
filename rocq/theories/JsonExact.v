(** The JSON string parser accepts nothing but JSON strings. *)
From Verif Require Import Base Options Int Utf8 Types Json JsonSpec BaseFacts Utf8Facts TypesFacts
  IntFacts StorageFacts DecFacts JsonFacts JsonText JsonDec JsonEnc JsonSafe.
From Coq Require Import ZifyBool ZifyNat ZifyN.
Local Open Scope N_scope.

Lemma body_app cs s cs' s' : body cs s -> body cs' s' -> body (cs ++ cs') (s ++ s').
Proof.
  intros B B'. induction B; cbn [app]; auto.
  - rewrite <- app_assoc. now constructor.
  - now constructor.
  - rewrite <- app_assoc. now constructor.
  - rewrite <- !app_assoc. cbn [app]. rewrite <- app_assoc. now constructor.
Qed.

Lemma plain_body cs : Forall (fun c => char_valid c = true) cs -> Forall plain (str_bytes cs) ->
  body cs (str_bytes cs).
Proof.
  induction 1 as [|c cs Hc _ IH]; intros P; [constructor|].
  unfold str_bytes in *. cbn [flat_map] in *. apply Forall_app in P as [P1 P2].
  assert (32 <= c /\ c <> 34 /\ c <> 92) as (A & B & C).
  { destruct (utf8_enc_high c Hc) as [[X Y]|[X Y]]; [|lia].
    rewrite X in P1. inversion P1 as [|? ? Q _]; subst. unfold plain, needs_escape in Q. lia. }
  constructor; auto.
Qed.

Lemma hex_val_inv a x : hex_val a = Some x -> hex a x.
Proof.
  unfold hex_val, between. intros H.
  destruct ((48 <=? a) && (a <=? 57)) eqn:E1.
  { injection H as <-. replace a with (48 + (a - 48)) at 1 by lia. constructor. lia. }
  destruct ((65 <=? a) && (a <=? 70)) eqn:E2.
  { injection H as <-. replace a with (55 + (a - 55)) at 1 by lia. constructor. lia. }
  destruct ((97 <=? a) && (a <=? 102)) eqn:E3; [|discriminate].
  injection H as <-. replace a with (87 + (a - 87)) at 1 by lia. constructor. lia.
Qed.

Lemma parse_hex_inv bs n r : parse_hex bs = Ok (n, r) -> exists h, bs = h ++ r /\ hex4 h n /\ n < 65536.
Proof.
  unfold parse_hex. destruct bs as [|a [|b [|c [|d bs]]]]; try discriminate.
  destruct (hex_val a) as [x|] eqn:A; [|discriminate]. destruct (hex_val b) as [y|] eqn:B; [|discriminate].
  destruct (hex_val c) as [z|] eqn:C; [|discriminate]. destruct (hex_val d) as [w|] eqn:D; [|discriminate].
  intros H. injection H as <- <-. apply hex_val_inv in A, B, C, D.
  exists [a; b; c; d]. split; [reflexivity|]. split.
  - exists a, b, c, d, x, y, z, w. repeat split; auto. lia.
  - assert (forall u v, hex u v -> v < 16) as Q by (intros u v []; lia).
    apply Q in A, B, C, D. lia.
Qed.

Lemma parse_u_inv bs c r : parse_u bs = Ok (c, r) ->
  exists s, bs = s ++ r /\ forall cs t, body cs t -> body (c :: cs) (92 :: 117 :: s ++ t).
Proof.
  unfold parse_u. intros H. apply bind_ok in H as ([n1 r1] & P & H).
  apply parse_hex_inv in P as (h & -> & H4 & L). unfold between in H.
  destruct ((0xDC00 <=? n1) && (n1 <=? 0xDFFF)) eqn:E1; [discriminate|].
  destruct ((0xD800 <=? n1) && (n1 <=? 0xDBFF)) eqn:E2.
  - destruct r1 as [|b r1]; [discriminate|].
    destruct (N.eq_dec b 92) as [->|NE].
    2: { exfalso. revert H. clear -NE. destruct b as [|p]; [discriminate|].
         repeat (destruct p as [p|p|]; try discriminate). congruence. }
    destruct r1 as [|b r1]; [discriminate|].
    destruct (N.eq_dec b 117) as [->|NE].
    2: { exfalso. revert H. clear -NE. destruct b as [|p]; [discriminate|].
         repeat (destruct p as [p|p|]; try discriminate). congruence. }
    apply bind_ok in H as ([n2 r2] & P & H).
    apply parse_hex_inv in P as (h' & -> & H4' & L').
    destruct ((0xDC00 <=? n2) && (n2 <=? 0xDFFF)) eqn:E3; [|discriminate].
    match type of H with (if ?q then _ else _) = _ => destruct q; [|discriminate] end.
    injection H as <- <-. exists (h ++ 92 :: 117 :: h'). split.
    + rewrite <- app_assoc. cbn [app]. reflexivity.
    + intros cs t B. rewrite <- app_assoc. cbn [app].
      replace ((n1 - 55296) * 1024 + (n2 - 56320) + 65536) with (0x10000 + (n1 - 0xD800) * 0x400 + (n2 - 0xDC00)) by lia.
      apply body_pair; auto; lia.
  - injection H as <- <-. exists h. split; auto. intros cs t B. apply body_u; auto.
    apply char_valid_iff. lia.
Qed.

Lemma parse_escape_inv bs c r : parse_escape bs = Ok (c, r) ->
  exists s x, bs = s ++ r /\ c = utf8_enc x /\ forall cs t, body cs t -> body (x :: cs) (92 :: s ++ t).
Proof.
  unfold parse_escape. destruct bs as [|b bs]; [discriminate|]. intros H.
  destruct (b =? 117) eqn:U.
  { assert (b = 117) by lia. subst b. cbn in H. apply bind_ok in H as ([x r1] & P & H).
    injection H as <- <-. apply parse_u_inv in P as (s & -> & F).
    exists (117 :: s), x. split; [reflexivity|]. split; auto. }
  repeat match type of H with
  | (if b =? ?k then _ else _) = _ =>
      destruct (b =? k) eqn:?;
      [assert (b = k) by lia; subst b; injection H as <- <-;
       match goal with |- context [utf8_enc] => idtac end|]
  end; try discriminate;
  match goal with
  | |- exists s x, ?e :: ?bs = s ++ ?bs /\ [?c] = _ /\ _ =>
      exists [e], c; split; [reflexivity|]; split; [reflexivity|];
      intros cs t B; apply body_short; auto; cbn; tauto
  end.
Qed.

Lemma str_loop_inv fuel : forall scratch bs s rest, bytes_ok bs = true ->
  str_loop fuel scratch bs = Ok (s, rest) ->
  exists cs inner, body cs inner /\ bs = inner ++ 34 :: rest /\ s = scratch ++ str_bytes cs.
Proof.
  induction fuel as [|fuel IH]; intros scratch bs s rest BO H; [discriminate|]. cbn [str_loop] in H.
  pose proof (span_plain_eq bs) as SP. destruct (span_plain bs) as [seg r]. destruct SP as (-> & PL & NX).
  rewrite bytes_ok_app in BO. apply andb_prop in BO as [B1 B2].
  destruct r as [|b r]; [discriminate|].
  destruct (b =? 34) eqn:Q.
  - assert (b = 34) by lia. subst b. destruct (utf8_valid seg) eqn:U; [|discriminate].
    injection H as <- <-. destruct (utf8_str seg B1 U) as (cs & Hc & ->).
    exists cs, (str_bytes cs). split; [now apply plain_body|]. auto.
  - destruct (b =? 92) eqn:K; [|discriminate]. assert (b = 92) by lia. subst b.
    destruct (utf8_valid seg) eqn:U; [|discriminate].
    apply bind_ok in H as ([c r2] & P & H). destruct (utf8_str seg B1 U) as (cs & Hc & ->).
    apply parse_escape_inv in P as (e & x & -> & -> & F).
    rewrite bytes_ok_cons, bytes_ok_app in B2. apply andb_prop in B2 as [_ B2]. apply andb_prop in B2 as [_ B2].
    apply IH in H as (cs2 & inner & B & -> & ->); auto.
    exists (cs ++ x :: cs2), (str_bytes cs ++ 92 :: e ++ inner). split.
    + apply body_app; [now apply plain_body|]. now apply F.
    + split.
      * rewrite <- !app_assoc. cbn [app]. now rewrite <- app_assoc.
      * unfold str_bytes. rewrite flat_map_app. cbn [flat_map]. now rewrite <- !app_assoc.
Qed.

Lemma skip_ws_inv bs : exists w, space w /\ bs = w ++ skip_ws bs.
Proof.
  induction bs as [|b bs (w & S & E)]; cbn [skip_ws].
  - exists []. split; [constructor|reflexivity].
  - destruct (is_ws b) eqn:W.
    + exists (b :: w). split; [constructor; auto; unfold is_ws in W; lia|]. cbn [app]. now rewrite <- E.
    + exists []. split; [constructor|reflexivity].
Qed.

Lemma expect_string_inv bs r : expect KString bs = Ok r -> exists w, space w /\ bs = w ++ 34 :: r.
Proof.
  unfold expect, lex. intros H. destruct (skip_ws_inv bs) as (w & S & E). exists w. split; auto. rewrite E. f_equal.
  destruct (skip_ws bs) as [|b q]; cbn [tok] in H; [discriminate|].
  assert (b = 34).
  { unfold from_byte in H.
    repeat match type of H with (if token_eqb (if ?c then _ else _) _ then _ else _) = _ =>
      let E := fresh in destruct c eqn:E; [try (cbn in H; discriminate)|] end; try (cbn in H; discriminate). lia. }
  subst b. cbn in H. injection H as ->. reflexivity.
Qed.

Lemma parse_string_inv bs s rest : bytes_ok bs = true -> parse_string bs = Ok (s, rest) ->
  exists w cs inner, space w /\ body cs inner /\ bs = w ++ (34 :: inner ++ [34]) ++ rest /\ s = str_bytes cs.
Proof.
  intros BO H. unfold parse_string in H. apply bind_ok in H as (r & X & H).
  apply expect_string_inv in X as (w & S & ->).
  rewrite bytes_ok_app, bytes_ok_cons in BO. apply andb_prop in BO as [_ BO]. apply andb_prop in BO as [_ BO].
  apply str_loop_inv in H as (cs & inner & B & -> & ->); auto.
  exists w, cs, inner. repeat split; auto. cbn [app]. now rewrite <- app_assoc.
Qed.
