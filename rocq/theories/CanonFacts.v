(** Lemmas: with fixed-width options, what the storage decoder accepts is what the encoder emits. *)
From Verif Require Import Base Options Int Utf8 Types Storage IntSpec StorageSpec BaseFacts IntFacts TypesFacts
  DecFacts StorageFacts.
Local Open Scope N_scope.

Definition canon {A} (e : A -> res bytes) (d : dec A) : Prop :=
  forall bs v rest, bytes_ok bs = true -> d bs = Ok (v, rest) ->
    exists pre, bs = pre ++ rest /\ e v = Ok pre.

Lemma canon_byte : canon (fun b => Ok [b]) read_byte.
Proof.
  intros [|b bs] v rest _ E; cbn in E; [discriminate|]. injection E as -> ->. exists [v]. auto.
Qed.

Lemma canon_bytes n bs v rest : read_bytes n bs = Ok (v, rest) -> bs = v ++ rest /\ lenN v = n.
Proof.
  unfold read_bytes. destruct (take_opt n bs) as [[h t]|] eqn:E; intros H; [|discriminate].
  injection H as -> ->. now apply take_opt_some.
Qed.

Lemma ok_suffix pre rest : bytes_ok (pre ++ rest) = true -> bytes_ok rest = true.
Proof. intros H. now apply bytes_ok_split in H. Qed.

Section Fixed.
Context (p : plat) (o : N).
Context (Hi : integer_value o = IFixed) (Hl : length_value o <> WVariable) (Hn : is_native_fixed p o = false).

Lemma canon_unsigned w : canon (fun n => Ok (encode_unsigned p o w n)) (decode_unsigned p o w).
Proof.
  intros bs v rest Hb E. unfold decode_unsigned in E. rewrite Hi in E.
  destruct (read_int_sound _ _ _ _ _ _ Hb E) as (_ & h & -> & _ & Eh). exists h. split; [reflexivity|].
  unfold encode_unsigned. rewrite Hi, write_int_eq. now rewrite Eh.
Qed.

Lemma canon_signed w : canon (fun z => Ok (encode_signed p o w z)) (decode_signed p o w).
Proof.
  intros bs v rest Hb E. unfold decode_signed in E. rewrite Hi in E.
  apply bind_ok in E. destruct E as ([n r] & E & E'). injection E' as <- <-.
  destruct (read_int_sound _ _ _ _ _ _ Hb E) as (Hlt & h & -> & _ & Eh). exists h. split; [reflexivity|].
  unfold encode_signed. rewrite Hi, write_int_eq, to_u_to_s; [now rewrite Eh| |].
  - pose proof (bits_gt w). lia.
  - now rewrite pow_bits.
Qed.

Lemma canon_usize : canon (encode_usize p o) (decode_usize p o).
Proof.
  intros bs v rest Hb E. unfold decode_usize, encode_usize in *.
  destruct (length_value o) eqn:L; [congruence|..];
    apply bind_ok in E; destruct E as ([n r] & E & E');
    destruct (n <? 2 ^ usize_bits p); try discriminate; injection E' as -> ->;
    destruct (read_int_sound _ _ _ _ _ _ Hb E) as (Hlt & h & -> & _ & Eh); exists h; (split; [reflexivity|]);
    rewrite <- pow_bits in Hlt; cbv zeta;
    (destruct (N.ltb_spec v (2 ^ bits (width_int (length_value o)))) as [_|]; rewrite L in *; [|lia]) ||
    (apply N.ltb_lt in Hlt; rewrite Hlt); rewrite write_int_eq; now rewrite <- Eh.
Qed.

Lemma canon_count e d n : canon e d -> forall bs vs rest, bytes_ok bs = true ->
  dec_count n d bs = Ok (vs, rest) ->
  exists pre, bs = pre ++ rest /\ concat_res e vs = Ok pre /\ lenN vs = n.
Proof.
  intros C. induction n as [|n IH] using N.peano_ind; intros bs vs rest Hb E.
  - rewrite dec_count_nil in E. injection E as <- <-. exists []. auto.
  - rewrite dec_count_succ in E. apply bind_ok in E. destruct E as ([v r] & E1 & E).
    apply bind_ok in E. destruct E as ([vs' r'] & E2 & E). injection E as <- <-.
    destruct (C bs v r Hb E1) as (a & -> & Ea). apply ok_suffix in Hb.
    destruct (IH r vs' r' Hb E2) as (b & -> & Eb & El). exists (a ++ b).
    split; [now rewrite app_assoc|]. cbn [concat_res]. rewrite Ea, Eb. split; [reflexivity|].
    rewrite lenN_cons. lia.
Qed.

Lemma canon_list es ds : Forall2 (fun (e : val -> res bytes) d => canon e d) es ds -> forall bs vs rest, bytes_ok bs = true ->
  dec_list ds bs = Ok (vs, rest) ->
  exists pre, bs = pre ++ rest /\ enc_list es vs = Ok pre.
Proof.
  induction 1 as [|e d es ds C _ IH]; intros bs vs rest Hb E; cbn [dec_list] in E.
  - injection E as <- <-. exists []. auto.
  - apply bind_ok in E. destruct E as ([v r] & E1 & E).
    apply bind_ok in E. destruct E as ([vs' r'] & E2 & E). injection E as <- <-.
    destruct (C bs v r Hb E1) as (a & -> & Ea). apply ok_suffix in Hb.
    destruct (IH r vs' r' Hb E2) as (b & -> & Eb). exists (a ++ b).
    split; [now rewrite app_assoc|]. cbn [enc_list]. now rewrite Ea, Eb.
Qed.

Lemma sel_enc_off t e : sel_enc p o t e = e.
Proof. unfold sel_enc. now rewrite Hn. Qed.
Lemma sel_dec_off t d : sel_dec p o t d = d.
Proof. unfold sel_dec. now rewrite Hn. Qed.

Ltac go E := apply bind_ok in E; let x := fresh "x" in let r := fresh "r" in let E1 := fresh "E" in
  destruct E as ([x r] & E1 & E).

Theorem storage_canon t : forall pk, rigid pk t = true -> canon (enc p o pk t) (dec_ p o pk t).
Proof.
  induction t using ty_ind'; intros pk R bs v rest Hb E; cbn [rigid] in R; try discriminate;
    cbn [dec_ enc] in *; cbv zeta in E |- *.
  - go E. destruct (N.eqb_spec x 0) as [->|]; [|discriminate]. injection E as <- <-.
    exact (canon_usize _ _ _ Hb E0).
  - go E. destruct (canon_byte _ _ _ Hb E0) as (pre & -> & Ep). injection Ep as <-.
    exists [x]. destruct x as [|[]]; try discriminate; injection E as <- <-; auto.
  - go E. destruct (canon_unsigned _ _ _ _ Hb E0) as (pre & -> & Ep).
    destruct (char_valid x); [|discriminate]. injection E as <- <-. exists pre. auto.
  - destruct w; go E; injection E as <- <-;
      [destruct (canon_byte _ _ _ Hb E0) as (pre & -> & Ep)|destruct (canon_unsigned _ _ _ _ Hb E0) as (pre & -> & Ep)..];
      exists pre; auto.
  - destruct w; go E; injection E as <- <-;
      [destruct (canon_byte _ _ _ Hb E0) as (pre & -> & Ep)|destruct (canon_signed _ _ _ _ Hb E0) as (pre & -> & Ep)..];
      exists pre; auto. split; [reflexivity|]. injection Ep as <-.
    rewrite to_u_to_s; [reflexivity|lia|]. rewrite bytes_ok_app, bytes_ok_cons in Hb.
    apply andb_prop in Hb. destruct Hb as [Hb _]. apply andb_prop in Hb. destruct Hb as [Hb _].
    unfold byte_ok in Hb. apply N.ltb_lt in Hb. exact Hb.
  - go E. injection E as <- <-. exact (canon_usize _ _ _ Hb E0).
  - go E. injection E as <- <-. destruct (canon_usize _ _ _ Hb E0) as (pre & -> & Ep). exists pre. split; [reflexivity|].
    rewrite to_u_to_s; [assumption|pose proof (usize_bits_ge p); lia|].
    pose proof (sound_usize (pan := False) p o _ Hb) as S. rewrite E0 in S. apply S.
  - go E. injection E as <- <-. destruct (canon_unsigned _ _ _ _ Hb E0) as (pre & -> & Ep). exists pre. auto.
  - go E. injection E as <- <-. destruct (canon_unsigned _ _ _ _ Hb E0) as (pre & -> & Ep). exists pre. auto.
  - rewrite Hn in E. go E. destruct (N.eqb_spec x 0); [discriminate|]. injection E as <- <-.
    destruct w;
      [destruct (canon_byte _ _ _ Hb E0) as (pre & -> & Ep)|destruct (canon_unsigned _ _ _ _ Hb E0) as (pre & -> & Ep)..];
      exists pre; auto.
  - go E. go E. destruct (utf8_valid x0); [|discriminate]. injection E as <- <-.
    destruct (canon_usize _ _ _ Hb E0) as (pre & -> & Ep). apply canon_bytes in E1. destruct E1 as [-> Eln].
    exists (pre ++ x0). rewrite Eln, Ep. split; [now rewrite app_assoc|reflexivity].
  - go E. go E. injection E as <- <-.
    destruct (canon_usize _ _ _ Hb E0) as (pre & -> & Ep). apply canon_bytes in E1. destruct E1 as [-> Eln].
    exists (pre ++ x0). rewrite Eln, Ep. split; [now rewrite app_assoc|reflexivity].
  - go E. injection E as <- <-. apply canon_bytes in E0. destruct E0 as [-> _]. exists x. auto.
  - destruct pk; [|discriminate]. cbn [andb] in R. rewrite sel_enc_off. rewrite sel_dec_off in E.
    destruct bs as [|b bs]; [injection E as <- <-; exists []; auto|].
    go E. injection E as <- <-. destruct (IHt true R _ _ _ Hb E0) as (pre & Ep & Eq).
    exists pre. rewrite Eq. auto.
  - rewrite sel_dec_off in E. exact (IHt pk R _ _ _ Hb E).
  - rewrite Hn in E |- *. cbn [andb] in E |- *. go E. injection E as <- <-. unfold dec_seq in E0. go E0.
    destruct (canon_usize _ _ _ Hb E) as (a & -> & Ea). apply ok_suffix in Hb.
    destruct (canon_count _ _ _ (IHt pk R) _ _ _ Hb E0) as (b & -> & Eb & El).
    exists (a ++ b). rewrite sel_enc_off, El, Ea, Eb. split; [now rewrite app_assoc|reflexivity].
  - rewrite Hn. cbn [andb]. rewrite sel_dec_off in E. go E. go E.
    destruct (N.eqb_spec x n) as [->|]; [|discriminate]. injection E as <- <-. rewrite N.min_id in E1.
    destruct (canon_usize _ _ _ Hb E0) as (a & -> & Ea). apply ok_suffix in Hb.
    destruct (canon_count _ _ _ (IHt pk R) _ _ _ Hb E1) as (b & -> & Eb & El).
    exists (a ++ b). rewrite sel_enc_off, El, Ea, Eb. split; [now rewrite app_assoc|reflexivity].
  - go E. go E. destruct (N.eqb_spec x (lenN ts)) as [->|]; [|discriminate]. injection E as <- <-.
    rewrite N.min_id in E1. unfold lenN in E1. rewrite Nat2N.id in E1.
    rewrite <- (map_length (fun t' => sel_dec p o t' (dec_ p o pk t')) ts) in E1. rewrite firstn_all in E1.
    destruct (canon_usize _ _ _ Hb E0) as (a & -> & Ea). apply ok_suffix in Hb.
    destruct (canon_list (map (fun t' => sel_enc p o t' (enc p o pk t')) ts)
                (map (fun t' => sel_dec p o t' (dec_ p o pk t')) ts)) with (bs := r) (vs := x0) (rest := r0)
      as (b & -> & Eb); [|assumption..|].
    { rewrite forallb_forall in R. rewrite Forall_forall in H. apply Forall2_map_in. intros t Ht.
      rewrite sel_enc_off, sel_dec_off. apply H; auto. }
    exists (a ++ b). rewrite Ea, Eb. split; [now rewrite app_assoc|reflexivity].
  - rewrite Hn in E |- *. cbn [andb] in E |- *. go E. injection E as <- <-.
    destruct (canon_list (map (fun ft => enc p o true (snd ft)) fs)
                (map (fun ft => pack_field (fst ft) (dec_ p o true (snd ft))) fs)) with (bs := bs) (vs := x) (rest := r)
      as (b & -> & Eb); [|assumption..|].
    { rewrite forallb_forall in R. rewrite Forall_forall in H. apply Forall2_map_in. intros t Ht. unfold pack_field.
      apply H; auto. }
    exists b. auto.
  - go E. destruct (find_name x tags) as [i|] eqn:Ef; [|discriminate]. injection E as <- <-.
    apply find_name_some in Ef. rewrite Ef. exact (IHt pk R _ _ _ Hb E0).
  - apply andb_prop in R. destruct R as [Rk Rv].
    assert (Dk : (if f then sel_dec p o t (dec_ p o pk t) else dec_ p o pk t) = dec_ p o pk t)
      by (destruct f; [apply sel_dec_off|reflexivity]).
    assert (Ek : (if f then sel_enc p o t (enc p o pk t) else enc p o pk t) = enc p o pk t)
      by (destruct f; [apply sel_enc_off|reflexivity]).
    rewrite Ek. rewrite Dk in E. go E.
    destruct (find_name x (map fst vs)) as [i|] eqn:Ef; [|discriminate].
    apply find_name_some in Ef. rewrite nth_error_map in Ef.
    destruct (nth_error vs i) as [tv|] eqn:En; [|discriminate]. cbn in Ef. injection Ef as <-.
    rewrite nth_error_map, En in E. cbn [option_map] in E. go E. injection E as <- <-.
    assert (Ed : (if f then sel_dec p o (snd tv) (dec_ p o pk (snd tv)) else dec_ p o pk (snd tv)) = dec_ p o pk (snd tv))
      by (destruct f; [apply sel_dec_off|reflexivity]).
    rewrite Ed in E1. destruct (IHt pk Rk _ _ _ Hb E0) as (a & -> & Ea). apply ok_suffix in Hb.
    apply nth_error_In in En as Hin. rewrite Forall_forall in H. rewrite forallb_forall in Rv.
    destruct (H tv Hin pk (Rv tv Hin) _ _ _ Hb E1) as (b & -> & Eb).
    exists (a ++ b). rewrite nth_error_map, En. cbn [option_map fst snd].
    assert (Ee : (if f then sel_enc p o (snd tv) (enc p o pk (snd tv)) else enc p o pk (snd tv)) = enc p o pk (snd tv))
      by (destruct f; [apply sel_enc_off|reflexivity]).
    rewrite Ee, Ea, Eb. split; [now rewrite app_assoc|reflexivity].
Qed.
End Fixed.
