(** Lemmas about [Utf8]. *)
From Verif Require Import Base Utf8 Json.
From Coq Require Import ZifyBool ZifyNat ZifyN.
Local Open Scope N_scope.
Ltac Zify.zify_post_hook ::= Z.to_euclidean_division_equations.

Lemma utf8_app_aux n : forall a b, (length a < n)%nat -> utf8_valid a = true ->
  utf8_valid (a ++ b) = utf8_valid b.
Proof.
  induction n as [|n IH]; intros a b Hl Ha; [lia|].
  destruct a as [|b0 r0]; [reflexivity|].
  destruct (b0 <? 128) eqn:E0.
  { cbn [app utf8_valid length] in *. rewrite E0 in *. apply IH; [lia|assumption]. }
  destruct r0 as [|b1 [|b2 [|b3 r]]]; cbn [app utf8_valid length] in *; rewrite E0 in *.
  - discriminate.
  - destruct (between 194 223 b0) eqn:E1; [|discriminate]. rewrite andb_true_iff in Ha.
    destruct Ha as [Hc _]. rewrite Hc. reflexivity.
  - destruct (between 194 223 b0) eqn:E1.
    { rewrite andb_true_iff in Ha. destruct Ha as [Hc Ha]. rewrite Hc. cbn [andb].
      apply (IH [b2] b); [cbn; lia|assumption]. }
    destruct (between 224 239 b0) eqn:E2; [|discriminate]. rewrite !andb_true_iff in Ha.
    destruct Ha as [[Hc Hd] _]. rewrite Hc, Hd. reflexivity.
  - destruct (between 194 223 b0) eqn:E1.
    { rewrite andb_true_iff in Ha. destruct Ha as [Hc Ha]. rewrite Hc. cbn [andb].
      apply (IH (b2 :: b3 :: r) b); [cbn; lia|assumption]. }
    destruct (between 224 239 b0) eqn:E2.
    { rewrite !andb_true_iff in Ha. destruct Ha as [[Hc Hd] Ha]. rewrite Hc, Hd. cbn [andb].
      apply (IH (b3 :: r) b); [cbn; lia|assumption]. }
    rewrite !andb_true_iff in Ha. destruct Ha as [[[[H1 H2] H3] H4] Ha].
    rewrite H1, H2, H3, H4. cbn [andb]. apply IH; [lia|assumption].
Qed.

Lemma utf8_app a b : utf8_valid a = true -> utf8_valid (a ++ b) = utf8_valid b.
Proof. apply utf8_app_aux with (n := S (length a)). lia. Qed.

Lemma char_valid_iff c : char_valid c = true <-> c < 0xD800 \/ 0xE000 <= c < 0x110000.
Proof. unfold char_valid, between. lia. Qed.

Lemma utf8_enc_valid c : char_valid c = true -> utf8_valid (utf8_enc c) = true.
Proof.
  rewrite char_valid_iff. intros H. unfold utf8_enc.
  destruct (c <? 0x80) eqn:E1; [cbn [utf8_valid]; destruct (c <? 128); [reflexivity|lia]|].
  destruct (c <? 0x800) eqn:E2.
  { cbn [utf8_valid]. destruct (192 + c / 64 <? 128) eqn:A; [lia|].
    unfold cont, between. destruct ((194 <=? 192 + c / 64) && (192 + c / 64 <=? 223)) eqn:B; [|lia].
    lia. }
  destruct (c <? 0x10000) eqn:E3.
  { cbn [utf8_valid]. destruct (224 + c / 4096 <? 128) eqn:A; [lia|].
    unfold second3, cont, between.
    destruct ((194 <=? 224 + c / 4096) && (224 + c / 4096 <=? 223)) eqn:B; [lia|].
    destruct ((224 <=? 224 + c / 4096) && (224 + c / 4096 <=? 239)) eqn:D; [|lia].
    destruct (224 + c / 4096 =? 224) eqn:F; destruct (224 + c / 4096 =? 237) eqn:G; try lia. }
  cbn [utf8_valid]. destruct (240 + c / 262144 <? 128) eqn:A; [lia|].
  unfold second4, cont, between.
  destruct ((194 <=? 240 + c / 262144) && (240 + c / 262144 <=? 223)) eqn:B; [lia|].
  destruct ((224 <=? 240 + c / 262144) && (240 + c / 262144 <=? 239)) eqn:D; [lia|].
  destruct (240 + c / 262144 =? 240) eqn:F; destruct (240 + c / 262144 =? 244) eqn:G; lia.
Qed.

Lemma utf8_flat cs : Forall (fun c => char_valid c = true) cs -> utf8_valid (flat_map utf8_enc cs) = true.
Proof.
  induction 1 as [|c cs Hc _ IH]; cbn; [reflexivity|]. rewrite utf8_app; [assumption|].
  now apply utf8_enc_valid.
Qed.

Lemma utf8_next_enc c r : char_valid c = true -> utf8_next (utf8_enc c ++ r) = Some (c, r).
Proof.
  rewrite char_valid_iff. intros H. unfold utf8_enc.
  destruct (c <? 0x80) eqn:E1; [cbn; now rewrite E1|].
  destruct (c <? 0x800) eqn:E2.
  { cbn [app utf8_next]. destruct (192 + c / 64 <? 128) eqn:A; [lia|].
    destruct (192 + c / 64 <? 224) eqn:B; [|lia]. f_equal. f_equal. lia. }
  destruct (c <? 0x10000) eqn:E3.
  { cbn [app utf8_next]. destruct (224 + c / 4096 <? 128) eqn:A; [lia|].
    destruct (224 + c / 4096 <? 224) eqn:B; [lia|].
    destruct (224 + c / 4096 <? 240) eqn:D; [|lia]. f_equal. f_equal. lia. }
  cbn [app utf8_next]. destruct (240 + c / 262144 <? 128) eqn:A; [lia|].
  destruct (240 + c / 262144 <? 224) eqn:B; [lia|].
  destruct (240 + c / 262144 <? 240) eqn:D; [lia|]. f_equal. f_equal. lia.
Qed.

(** The first character of a valid string. *)
Lemma utf8_cons bs : utf8_valid bs = true -> bs <> [] ->
  exists c r, char_valid c = true /\ bs = utf8_enc c ++ r /\ utf8_valid r = true.
Proof.
  intros H Hn. destruct bs as [|b0 r0]; [congruence|]. cbn [utf8_valid] in H.
  destruct (b0 <? 128) eqn:E0.
  { exists b0, r0. rewrite char_valid_iff. unfold utf8_enc. rewrite E0. split; [lia|]. auto. }
  destruct r0 as [|b1 r1]; [discriminate|].
  destruct (between 194 223 b0) eqn:E1.
  { rewrite andb_true_iff in H. destruct H as [Hc H]. unfold cont, between in *.
    remember ((b0 - 192) * 64 + (b1 - 128)) as c eqn:Ec. exists c, r1. rewrite char_valid_iff. split; [lia|]. split; [|assumption].
    unfold utf8_enc. destruct (c <? 0x80) eqn:A; [lia|]. destruct (c <? 0x800) eqn:B; [|lia].
    cbn [app]. repeat (apply f_equal2; [lia|]); reflexivity. }
  destruct r1 as [|b2 r2]; [discriminate|].
  destruct (between 224 239 b0) eqn:E2.
  { rewrite !andb_true_iff in H. destruct H as [[Hs Hc] H]. unfold second3, cont, between in *.
    remember ((b0 - 224) * 4096 + (b1 - 128) * 64 + (b2 - 128)) as c eqn:Ec. exists c, r2. rewrite char_valid_iff.
    destruct (b0 =? 224) eqn:F; [|destruct (b0 =? 237) eqn:G].
    all: split; [lia|]; split; [|assumption].
    all: unfold utf8_enc; destruct (c <? 0x80) eqn:A; [lia|]; destruct (c <? 0x800) eqn:B; [lia|];
      destruct (c <? 0x10000) eqn:D; [|lia]; cbn [app]; repeat (apply f_equal2; [lia|]); reflexivity. }
  destruct r2 as [|b3 r3]; [discriminate|].
  rewrite !andb_true_iff in H. destruct H as [[[[H0 Hs] Hc] Hd] H]. unfold second4, cont, between in *.
  remember ((b0 - 240) * 262144 + (b1 - 128) * 4096 + (b2 - 128) * 64 + (b3 - 128)) as c eqn:Ec. exists c, r3.
  rewrite char_valid_iff.
  destruct (b0 =? 240) eqn:F; [|destruct (b0 =? 244) eqn:G].
  all: split; [lia|]; split; [|assumption].
  all: unfold utf8_enc; destruct (c <? 0x80) eqn:A; [lia|]; destruct (c <? 0x800) eqn:B; [lia|];
    destruct (c <? 0x10000) eqn:D; [lia|]; cbn [app]; repeat (apply f_equal2; [lia|]); reflexivity.
Qed.

Lemma utf8_enc_length c : (1 <= length (utf8_enc c))%nat.
Proof. unfold utf8_enc. repeat destruct (_ <? _); cbn; lia. Qed.

Lemma utf8_chars bs : utf8_valid bs = true ->
  exists cs, Forall (fun c => char_valid c = true) cs /\ bs = flat_map utf8_enc cs.
Proof.
  remember (length bs) as n eqn:E. assert (Hn : (length bs <= n)%nat) by lia. clear E.
  revert bs Hn. induction n as [|n IH]; intros bs Hn H.
  - destruct bs; [|cbn in Hn; lia]. exists []. split; [constructor|reflexivity].
  - destruct bs as [|b r]; [exists []; split; [constructor|reflexivity]|].
    destruct (utf8_cons _ H) as (c & r' & Hc & E & Hr); [discriminate|].
    destruct (IH r') as (cs & Hcs & E'); [|assumption|].
    { rewrite E, app_length in Hn. pose proof (utf8_enc_length c). lia. }
    exists (c :: cs). split; [now constructor|]. cbn. now rewrite E, E'.
Qed.

Lemma utf8_enc_byte c : char_valid c = true -> bytes_ok (utf8_enc c) = true.
Proof.
  rewrite char_valid_iff. intros H. unfold utf8_enc.
  destruct (c <? 0x80) eqn:E1; [cbn; unfold byte_ok; lia|].
  destruct (c <? 0x800) eqn:E2; [cbn [bytes_ok forallb]; unfold byte_ok; lia|].
  destruct (c <? 0x10000) eqn:E3; cbn [bytes_ok forallb]; unfold byte_ok; lia.
Qed.

(** A character is either itself or made of bytes outside ASCII. *)
Lemma utf8_enc_high c : char_valid c = true -> utf8_enc c = [c] /\ c < 128 \/ (128 <= c /\ Forall (fun b => 128 <= b) (utf8_enc c)).
Proof.
  rewrite char_valid_iff. intros H. unfold utf8_enc.
  destruct (c <? 0x80) eqn:E1; [left; split; [reflexivity|lia]|]. right. split; [lia|].
  destruct (c <? 0x800) eqn:E2; [repeat constructor; lia|].
  destruct (c <? 0x10000) eqn:E3; repeat constructor; lia.
Qed.
