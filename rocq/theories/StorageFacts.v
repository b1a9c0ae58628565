(** Proofs about [Storage]. *)
From Verif Require Import Base Options Int Utf8 Types Storage StorageSpec
  BaseFacts OptionsFacts IntFacts TypesFacts.
From Coq Require Import ZifyBool ZifyNat ZifyN.
Local Open Scope N_scope.

(** ** Native memory *)

Lemma to_ne_fixed p n v : to_ne p n v = fixed_bytes (native_bo p) n v.
Proof. unfold to_ne. destruct (native_bo p); reflexivity. Qed.

Lemma of_ne_fixed p h : of_ne p h = of_fixed (native_bo p) h.
Proof. unfold of_ne. destruct (native_bo p); reflexivity. Qed.

Lemma read_ne p n v rest : v < 256 ^ N.of_nat n ->
  (let* (h, r) := read_bytes (N.of_nat n) (to_ne p n v ++ rest) in Ok (of_ne p h, r)) = Ok (v, rest).
Proof.
  intros Hv. unfold read_bytes. rewrite to_ne_fixed.
  rewrite <- (fixed_bytes_len (native_bo p) n v), take_opt_app. cbn [bind].
  rewrite of_ne_fixed, of_fixed_fixed by assumption. reflexivity.
Qed.

Lemma read_ne_map {A} p n v rest (f : N -> A) : v < 256 ^ N.of_nat n ->
  (let* (h, r) := read_bytes (N.of_nat n) (to_ne p n v ++ rest) in Ok (f (of_ne p h), r)) = Ok (f v, rest).
Proof.
  intros Hv. pose proof (read_ne p n v rest Hv) as H.
  destruct (read_bytes _ _) as [[h r]| |]; cbn in *; try discriminate.
  inversion H; subst. reflexivity.
Qed.

Lemma usize_pow p : 2 ^ usize_bits p = 256 ^ N.of_nat (usize_bytes p).
Proof. unfold usize_bits, usize_bytes. destruct (ptr p); reflexivity. Qed.

Lemma concat_raw p t vs :
  concat_res (fun v => Ok (raw p t v)) vs = Ok (concat (map (raw p t) vs)).
Proof. induction vs as [|v vs IH]; cbn; [reflexivity|]. rewrite IH. reflexivity. Qed.

Lemma enc_list_raw (rs : list (val -> bytes)) vs : length rs = length vs ->
  enc_list (map (fun r v => Ok (r v)) rs) vs = Ok (raw_list rs vs).
Proof.
  revert vs; induction rs as [|r rs IH]; intros [|v vs] H; cbn in *; try discriminate;
    [reflexivity|]. rewrite IH by lia. reflexivity.
Qed.

(** Build [rts] from a per-element fact. *)
Lemma rts_map {A} (l : list A) (P : A -> val -> bool) e d tail :
  (forall x, In x l -> rt false (P x) (e x) (d x)) ->
  rts tail (map P l) (map e l) (map d l).
Proof.
  induction l as [|x l IH]; cbn; intros H; [exact I|]. split.
  - destruct (map P l); [apply rt_weaken|]; apply H; now left.
  - apply IH. intros y Hy. apply H. now right.
Qed.

Lemma rts_map_tail {A} (l : list A) (P : A -> val -> bool) e d tail (ok : A -> bool -> bool) :
  last_tail tail (map ok l) = true ->
  (forall x b, In x l -> ok x b = true -> rt b (P x) (e x) (d x)) ->
  rts tail (map P l) (map e l) (map d l).
Proof.
  induction l as [|x l IH]; cbn [map rts last_tail]; intros Hl H; [exact I|].
  destruct l as [|y l].
  - cbn in *. split; [|exact I]. apply H; auto.
  - cbn [map] in *. apply andb_true_iff in Hl. destruct Hl as [Hx Hl]. split.
    + apply H; [now left|assumption].
    + apply IH; [exact Hl|]. intros z b Hz. apply H. now right.
Qed.

Lemma raw_rt p t : bw_dec t = true ->
  rt false (has_type p t) (fun v => Ok (raw p t v)) (raw_dec p t).
Proof.
  induction t using ty_ind'; cbn [bw_dec]; intros Hb; try discriminate Hb;
    intros v bs rest Hv _ He; inversion He; subst; clear He; cbn [has_type] in Hv;
    cbn [raw raw_dec].
  - destruct v; try discriminate. reflexivity.
  - destruct v; try discriminate. apply (read_ne_map p (nbytes w) n rest VN).
    rewrite <- pow_bits. lia.
  - destruct v; try discriminate. apply in_sb_s in Hv. pose proof (bits_gt w).
    rewrite (read_ne_map p (nbytes w) _ rest (fun n => VZ (to_s (bits w) n))).
    + rewrite to_s_to_u by (assumption || lia). reflexivity.
    + rewrite <- pow_bits. apply to_u_lt. lia.
  - destruct v; try discriminate. apply (read_ne_map p (usize_bytes p) n rest VN).
    rewrite <- usize_pow. lia.
  - destruct v; try discriminate. apply in_sb_s in Hv. pose proof (usize_bits_ge p).
    rewrite (read_ne_map p (usize_bytes p) _ rest (fun n => VZ (to_s (usize_bits p) n))).
    + rewrite to_s_to_u by (assumption || lia). reflexivity.
    + rewrite <- usize_pow. apply to_u_lt. lia.
  - destruct v; try discriminate. apply (read_ne_map p 4 n rest VN).
    change (256 ^ N.of_nat 4) with (2 ^ 32). lia.
  - destruct v; try discriminate. apply (read_ne_map p 8 n rest VN).
    change (256 ^ N.of_nat 8) with (2 ^ 64). lia.
  - destruct v; try discriminate. apply andb_true_iff in Hv. destruct Hv as [Hv Hl].
    apply N.eqb_eq in Hl. subst n.
    rewrite (dec_count_rt (has_type p t) (fun v => Ok (raw p t v))) with (vs := vs);
      [reflexivity| |assumption|apply concat_raw].
    now apply IHt.
  - destruct v; try discriminate.
    apply andb_true_iff in Hb. destruct Hb as [_ Hb]. rewrite forallb_forall in Hb.
    rewrite Forall_forall in H.
    rewrite (dec_list_rt false (map (fun ft => has_type p (snd ft)) fs)
              (map (fun ft v => Ok (raw p (snd ft) v)) fs)
              (map (fun ft => raw_dec p (snd ft)) fs)) with (vs := vs);
      [reflexivity| |assumption|discriminate|].
    + apply (rts_map fs (fun ft => has_type p (snd ft)) (fun ft v => Ok (raw p (snd ft) v))
               (fun ft => raw_dec p (snd ft))).
      intros ft Hft. now apply (H ft Hft), Hb.
    + rewrite <- enc_list_raw.
      * now rewrite map_map.
      * apply all2_length in Hv. rewrite !map_length in *. assumption.
Qed.

(** ** Types whose encodings are never empty *)

Lemma raw_sized_ne p t v : bw_as t = true -> has_type p t v = true -> raw_sized t = true ->
  raw p t v <> [].
Proof.
  assert (Hne : forall n x, (0 < n)%nat -> to_ne p n x <> []).
  { intros n x Hn E. rewrite to_ne_fixed in E. pose proof (fixed_bytes_len (native_bo p) n x) as L.
    rewrite E in L. cbn in L. lia. }
  assert (Hu : (0 < usize_bytes p)%nat) by (unfold usize_bytes; destruct (ptr p); lia).
  assert (Hw : forall w, (0 < nbytes w)%nat) by (intros []; cbn; lia).
  intros Hb. assert (Hb' : bw_enc t = true \/ exists t', t = TBox t' /\ bw_enc t' = true).
  { destruct t; cbn in Hb; auto. right. eauto. }
  assert (Main : forall t v, bw_enc t = true -> has_type p t v = true -> raw_sized t = true ->
                   raw p t v <> []).
  { clear t v Hb Hb'. induction t using ty_ind'; cbn [bw_enc]; intros v Hb Hv Hs;
      try discriminate Hb; try discriminate Hs; cbn [has_type] in Hv; destruct v; try discriminate;
      cbn [raw]; try (apply Hne; auto; lia).
    - cbn [raw_sized] in Hs. apply andb_true_iff in Hs, Hv. destruct Hs as [Hn Hs], Hv as [Hv Hl].
      destruct vs as [|x vs]; [unfold lenN in Hl; cbn [length] in Hl; lia|]. cbn in *. apply andb_true_iff in Hv.
      destruct Hv as [Hx _]. specialize (IHt x Hb Hx Hs).
      destruct (raw p t x); [congruence|discriminate].
    - cbn [raw_sized] in Hs. apply andb_true_iff in Hb. destruct Hb as [_ Hb].
      revert vs Hv. induction fs as [|ft fs IHf]; cbn in *; [discriminate|].
      intros [|x vs] Hv; [discriminate|]. apply andb_true_iff in Hv, Hb.
      destruct Hv as [Hx Hv], Hb as [Hb1 Hb2]. inversion H; subst.
      apply orb_true_iff in Hs. intros E. apply app_eq_nil in E. destruct E as [E1 E2].
      destruct Hs as [Hs|Hs].
      + exact (H2 x Hb1 Hx Hs E1).
      + exact (IHf H3 Hb2 Hs vs Hv E2). }
  intros Hv Hs. destruct Hb' as [Hb'|[t' [-> Hb']]].
  - now apply Main.
  - cbn in *. now apply Main.
Qed.

Lemma cont_encode_ne v : cont_encode v <> [].
Proof. rewrite cont_encode_eq. destruct (v <? 128); discriminate. Qed.

Lemma fixed_bytes_ne bo n v : (0 < n)%nat -> fixed_bytes bo n v <> [].
Proof.
  intros Hn E. pose proof (fixed_bytes_len bo n v) as L. rewrite E in L. cbn in L. lia.
Qed.

Lemma encode_unsigned_ne p o w v : encode_unsigned p o w v <> [].
Proof.
  unfold encode_unsigned. destruct (integer_value o); [apply cont_encode_ne|].
  rewrite write_int_eq. apply fixed_bytes_ne. destruct w; cbn; lia.
Qed.

Lemma encode_signed_ne p o w v : encode_signed p o w v <> [].
Proof.
  unfold encode_signed. destruct (integer_value o); [apply cont_encode_ne|].
  rewrite write_int_eq. apply fixed_bytes_ne. destruct w; cbn; lia.
Qed.

Lemma encode_usize_ne p o v bs : encode_usize p o v = Ok bs -> bs <> [].
Proof.
  assert (Hf : forall w, (if v <? 2 ^ bits (width_int w)
    then Ok (write_int p (byteorder_value o) (nbytes (width_int w)) v) else Err) = Ok bs -> bs <> []).
  { intros w. destruct (v <? _); [|discriminate]. intros H; inversion H; subst.
    rewrite write_int_eq. apply fixed_bytes_ne. destruct (width_int w); cbn; lia. }
  unfold encode_usize. destruct (length_value o); try (apply Hf).
  intros H; inversion H; subst. apply cont_encode_ne.
Qed.

Lemma app_ne_l {A} (a b : list A) : a <> [] -> a ++ b <> [].
Proof. destruct a; [congruence|discriminate]. Qed.

Lemma sized_ne p o t : forall v bs, has_type p t v = true ->
  sized (is_native_fixed p o) t = true ->
  wf p t -> enc p o true t v = Ok bs -> bs <> [].
Proof.
  induction t using ty_ind'; intros v bs Hv Hs Hwf He; cbn [enc has_type] in *.
  all: try (destruct v; try discriminate; inversion He; subst;
            first [discriminate | apply encode_unsigned_ne | idtac]; fail).
  - destruct v; try discriminate. eapply encode_usize_ne; eassumption.
  - destruct w, v; try discriminate; inversion He; subst; (discriminate || apply encode_unsigned_ne).
  - destruct w, v; try discriminate; inversion He; subst; (discriminate || apply encode_signed_ne).
  - destruct v; try discriminate. eapply encode_usize_ne; eassumption.
  - destruct v; try discriminate. eapply encode_usize_ne; eassumption.
  - destruct w, v; try discriminate; inversion He; subst; (discriminate || apply encode_unsigned_ne).
  - destruct v; try discriminate. inv_bind He. inversion He; subst. apply app_ne_l.
    eapply encode_usize_ne; eassumption.
  - destruct v; try discriminate. inv_bind He. inversion He; subst. apply app_ne_l.
    eapply encode_usize_ne; eassumption.
  - destruct v; try discriminate. inversion He; subst. cbn in Hs.
    unfold lenN in Hv. apply andb_true_iff in Hv. destruct Hv as [_ Hv].
    destruct bs; [cbn [length] in Hv; apply N.eqb_eq in Hv; subst n; discriminate Hs|discriminate].
  - cbn in Hs, Hwf. eauto.
  - destruct v; try discriminate. clear Hv. destruct (is_native_fixed p o && bw_enc t).
    + inversion He; subst. apply app_ne_l. rewrite to_ne_fixed. apply fixed_bytes_ne.
      unfold usize_bytes; destruct (ptr p); lia.
    + inv_bind He. inv_bind He. inversion He; subst. apply app_ne_l.
      eapply encode_usize_ne; eassumption.
  - destruct v; try discriminate. clear Hv. destruct (is_native_fixed p o && bw_enc t).
    + inversion He; subst. apply app_ne_l. rewrite to_ne_fixed. apply fixed_bytes_ne.
      unfold usize_bytes; destruct (ptr p); lia.
    + inv_bind He. inv_bind He. inversion He; subst. apply app_ne_l.
      eapply encode_usize_ne; eassumption.
  - destruct v; try discriminate. inv_bind He. inv_bind He. inversion He; subst. apply app_ne_l.
    eapply encode_usize_ne; eassumption.
  - destruct v; try discriminate. inv_bind He. inv_bind He. inversion He; subst. apply app_ne_l.
    eapply encode_usize_ne; eassumption.
  - destruct v; try discriminate. inv_bind He. inv_bind He. inversion He; subst. apply app_ne_l.
    eapply encode_usize_ne; eassumption.
  - destruct (is_native_fixed p o && bw_enc (TPack c fs)) eqn:Eb.
    + cbn [sized] in Hs. rewrite Eb in Hs. inversion He; subst.
      apply andb_true_iff in Eb. destruct Eb as [_ Eb].
      apply (raw_sized_ne p (TPack c fs)); assumption.
    + cbn [sized] in Hs. rewrite Eb in Hs. destruct v; try discriminate.
      cbn in Hwf. destruct Hwf as [Hwf _]. rewrite allP_Forall in Hwf.
      clear Eb. revert vs bs Hv He. induction fs as [|ft fs IH]; intros vs bs Hv He; [discriminate|].
      destruct vs as [|x vs]; [discriminate|]. cbn in Hv, He, Hs.
      apply andb_true_iff in Hv. destruct Hv as [Hx Hv]. inv_bind He. inv_bind He. inversion He; subst.
      inversion H; subst. inversion Hwf; subst. apply orb_true_iff in Hs. destruct Hs as [Hs|Hs].
      * apply app_ne_l. eapply H2; eassumption.
      * specialize (IH H3 Hs H5 vs a0 Hv He1). destruct a; [assumption|discriminate].
  - destruct v; try discriminate. inv_bind He. inv_bind He. inversion He; subst. apply app_ne_l.
    eapply encode_usize_ne; eassumption.
  - destruct v as [| | | | | | | | |i v]; try discriminate. destruct v; try discriminate.
    cbn in Hs, Hwf. destruct Hwf as [Hwf [Ht _]].
    destruct (nth_error tags i) as [k|] eqn:Ek; [|discriminate].
    rewrite forallb_forall in Ht. apply nth_error_In in Ek. eauto.
  - destruct v as [| | | | | | | | |i v]; try discriminate.
    cbn in Hwf. destruct Hwf as [Hwf [_ [Ht _]]].
    clear Hv. destruct (nth_error _ i) as [[k e]|] eqn:Ek; [|discriminate].
    inv_bind He. inv_bind He. inversion He; subst. apply app_ne_l.
    assert (Hk : has_type p t k = true).
    { rewrite nth_error_map in Ek. destruct (nth_error vs i) as [tv|] eqn:Et; [|discriminate].
      cbn in Ek. inversion Ek; subst. rewrite forallb_forall in Ht.
      apply nth_error_In in Et. exact (Ht tv Et). }
    cbn [sized] in Hs. unfold sel_enc in He0. destruct f; cbn in Hs.
    + destruct (is_native_fixed p o && bw_as t) eqn:Eb.
      * inversion He0; subst. apply raw_sized_ne; try assumption. lia.
      * eapply IHt; eassumption.
    + eapply IHt; eassumption.
Qed.

Lemma sized_fast_ne p o t v bs : has_type p t v = true ->
  sized_fast (is_native_fixed p o) t = true -> wf p t ->
  enc_fast p o true t v = Ok bs -> bs <> [].
Proof.
  intros Hv Hs Hwf. unfold sized_fast, enc_fast, sel_enc in *.
  destruct (is_native_fixed p o && bw_as t) eqn:E.
  - intros H; inversion H; subst. apply raw_sized_ne; try assumption. lia.
  - intros H. eapply sized_ne; eassumption.
Qed.

(** ** Leaves *)

Definition native_ok (p : plat) (o : N) : Prop :=
  is_native_fixed p o = true -> byteorder_value o = native_bo p.

Lemma nf_inv p o : is_native_fixed p o = true ->
  integer_value o = IFixed /\ length_value o = native_width p.
Proof.
  unfold is_native_fixed. destruct (integer_value o); [discriminate|].
  destruct (float_value o); try discriminate. intros H. split; [reflexivity|].
  unfold width_eqb in H. apply N.eqb_eq in H.
  destruct (length_value o), (native_width p); cbn in H; congruence.
Qed.

Lemma nf_unsigned p o w v : is_native_fixed p o = true -> byteorder_value o = native_bo p ->
  encode_unsigned p o w v = to_ne p (nbytes w) v.
Proof.
  intros H Hb. apply nf_inv in H. destruct H as [Hi _]. unfold encode_unsigned.
  rewrite Hi, write_int_eq, Hb, to_ne_fixed. reflexivity.
Qed.

Lemma nf_signed p o w v : is_native_fixed p o = true -> byteorder_value o = native_bo p ->
  encode_signed p o w v = to_ne p (nbytes w) (to_u (bits w) v).
Proof.
  intros H Hb. apply nf_inv in H. destruct H as [Hi _]. unfold encode_signed.
  rewrite Hi, write_int_eq, Hb, to_ne_fixed. reflexivity.
Qed.

Lemma nf_usize p o v : is_native_fixed p o = true -> byteorder_value o = native_bo p ->
  v < 2 ^ usize_bits p -> encode_usize p o v = Ok (to_ne p (usize_bytes p) v).
Proof.
  intros H Hb Hv. apply nf_inv in H. destruct H as [_ Hl]. unfold encode_usize.
  rewrite Hl. unfold usize_bits, usize_bytes, native_width in *.
  destruct (ptr p); cbn [width_int bits nbytes ptr_bits] in *.
  all: rewrite write_int_eq, Hb, <- to_ne_fixed, (proj2 (N.ltb_lt _ _) Hv); reflexivity.
Qed.

Definition leaf (t : ty) : bool :=
  match t with
  | TUnit | TBool | TChar | TU _ | TI _ | TUsize | TIsize | TF32 | TF64 | TNonZero _
  | TStr | TBytes | TArr _ => true
  | _ => false
  end.

Lemma len_ok_lt {A} p (l : list A) : len_ok p l = true <-> lenN l < 2 ^ usize_bits p.
Proof. unfold len_ok. apply N.ltb_lt. Qed.

Lemma to_ne_1 p n : n < 256 -> to_ne p 1 n = [n].
Proof.
  intros H. unfold to_ne. cbn [to_le]. rewrite N.mod_small by assumption.
  destruct (native_bo p); reflexivity.
Qed.

Lemma leaf_rt p o pk t : native_ok p o -> leaf t = true ->
  rt false (has_type p t) (enc p o pk t) (dec_ p o pk t).
Proof.
  intros Hn Hl v bs rest Hv _ He.
  pose proof (usize_bits_ge p) as Hub.
  destruct t; try discriminate Hl; cbn [has_type] in Hv; cbn [enc dec_] in *.
  - destruct v; try discriminate. rewrite (usize_roundtrip p o 0 bs rest); [reflexivity| |assumption].
    lia.
  - destruct v; try discriminate. inversion He; subst. destruct b; reflexivity.
  - destruct v; try discriminate. inversion He; subst. rewrite unsigned_roundtrip.
    + cbn [bind]. rewrite Hv. reflexivity.
    + unfold char_valid in Hv. cbn [bits]. lia.
  - destruct v; try (destruct w; discriminate).
    destruct w; inversion He; subst; try reflexivity; rewrite unsigned_roundtrip by lia; reflexivity.
  - destruct v; try (destruct w; discriminate). apply in_sb_s in Hv.
    destruct w; inversion He; subst; try (rewrite signed_roundtrip by assumption; reflexivity).
    cbn. rewrite to_s_to_u by (assumption || lia). reflexivity.
  - destruct v; try discriminate. rewrite (usize_roundtrip p o n bs rest) by (assumption || lia).
    reflexivity.
  - destruct v; try discriminate. apply in_sb_s in Hv.
    rewrite (usize_roundtrip p o (to_u (usize_bits p) z) bs rest); [| |eassumption].
    + cbn [bind]. rewrite to_s_to_u by (assumption || lia). reflexivity.
    + apply to_u_lt. lia.
  - destruct v; try discriminate. inversion He; subst. rewrite unsigned_roundtrip by (cbn [bits]; lia).
    reflexivity.
  - destruct v; try discriminate. inversion He; subst. rewrite unsigned_roundtrip by (cbn [bits]; lia).
    reflexivity.
  - destruct v; try (destruct w; discriminate).
    destruct (is_native_fixed p o) eqn:Enf.
    + assert (Eb : bs = to_ne p (nbytes w) n).
      { destruct w; inversion He; subst; try (apply nf_unsigned; auto).
        cbn [nbytes]. rewrite to_ne_1; [reflexivity|]. cbn [bits] in Hv. lia. }
      subst bs. rewrite read_ne by (rewrite <- pow_bits; lia). cbn [bind].
      destruct (n =? 0); [lia|reflexivity].
    + destruct w; inversion He; subst; cbn [app read_byte bind];
        try (rewrite unsigned_roundtrip by lia; cbn [bind]); destruct (n =? 0); (lia || reflexivity).
  - destruct v; try discriminate. inv_bind He. inversion He; subst.
    rewrite !andb_true_iff in Hv. destruct Hv as [[_ Hu] Hlen]. apply len_ok_lt in Hlen.
    rewrite <- app_assoc, (usize_roundtrip p o _ _ _ Hlen He0). cbn [bind].
    unfold read_bytes. rewrite take_opt_app. cbn [bind]. rewrite Hu. reflexivity.
  - destruct v; try discriminate. inv_bind He. inversion He; subst.
    rewrite !andb_true_iff in Hv. destruct Hv as [_ Hlen]. apply len_ok_lt in Hlen.
    rewrite <- app_assoc, (usize_roundtrip p o _ _ _ Hlen He0). cbn [bind].
    unfold read_bytes. rewrite take_opt_app. reflexivity.
  - destruct v; try discriminate. inversion He; subst.
    apply andb_true_iff in Hv. destruct Hv as [_ Hv]. apply N.eqb_eq in Hv. subst n.
    unfold read_bytes. rewrite take_opt_app. reflexivity.
Qed.

(** With native fixed options the element-wise encoder writes the memory of leaves and of
    packed structs. *)
Lemma dir_raw p o pk t v : is_native_fixed p o = true -> byteorder_value o = native_bo p ->
  bw_enc t = true -> dirR t = true -> has_type p t v = true ->
  enc p o pk t v = Ok (raw p t v).
Proof.
  intros Hn Hb Hw Hd Hv. pose proof (usize_bits_ge p) as Hub.
  destruct t; try discriminate Hw; try discriminate Hd; cbn [has_type] in Hv; cbn [enc raw].
  - destruct v; try discriminate. reflexivity.
  - destruct v; try discriminate. rewrite nf_unsigned by assumption. reflexivity.
  - destruct w, v; try discriminate; try (rewrite nf_unsigned by assumption; reflexivity).
    cbn [nbytes]. rewrite to_ne_1; [reflexivity|]. cbn [bits] in Hv. lia.
  - destruct w, v; try discriminate; try (rewrite nf_signed by assumption; reflexivity).
    cbn [nbytes bits]. rewrite to_ne_1; [reflexivity|]. apply (to_u_lt 8). lia.
  - destruct v; try discriminate. apply nf_usize; (assumption || lia).
  - destruct v; try discriminate. apply nf_usize; try assumption. apply to_u_lt. lia.
  - destruct v; try discriminate. rewrite nf_unsigned by assumption. reflexivity.
  - destruct v; try discriminate. rewrite nf_unsigned by assumption. reflexivity.
  - destruct w, v; try discriminate; try (rewrite nf_unsigned by assumption; reflexivity).
    cbn [nbytes]. rewrite to_ne_1; [reflexivity|]. cbn [bits] in Hv. lia.
  - rewrite Hn. rewrite Hw. reflexivity.
Qed.

Lemma rt_ext tail P e e' d : (forall v, P v = true -> e v = e' v) -> rt tail P e d -> rt tail P e' d.
Proof. intros Hx H v bs rest Hp Ht He. apply H; auto. now rewrite Hx. Qed.

Lemma bw_dec_enc t : bw_dec t = true -> bw_enc t = true.
Proof.
  induction t using ty_ind'; cbn; try discriminate; try reflexivity; auto.
  rewrite !andb_true_iff, !forallb_forall. intros [Hc Hf]. split; [assumption|].
  intros ft Hft. rewrite Forall_forall in H. auto.
Qed.

(** With native fixed options the element-wise decoder reads the memory of the value. *)
Lemma rawD_rt p o pk t : is_native_fixed p o = true -> byteorder_value o = native_bo p ->
  bw_enc t = true -> rawD t = true ->
  rt false (has_type p t) (fun v => Ok (raw p t v)) (dec_ p o pk t).
Proof.
  intros Hn Hb. revert pk. induction t using ty_ind'; intros pk Hw Hr; try discriminate Hw; try discriminate Hr.
  all: try match goal with |- rt _ _ _ (dec_ ?p ?o ?pk ?t) =>
    apply (rt_ext false _ (enc p o pk t));
      [intros v Hv; apply dir_raw; (assumption || reflexivity)
      |apply leaf_rt; [intros _; assumption|reflexivity]] end.
  intros v bs rest Hv _ He. inversion He; subst; clear He.
  cbn [dec_]. rewrite Hn. cbn [andb]. destruct (bw_dec (TPack c fs)) eqn:Ed.
  - apply (raw_rt p (TPack c fs) Ed v); (assumption || discriminate || reflexivity).
  - cbn [has_type] in Hv. destruct v; try discriminate. cbn [raw].
    cbn [bw_enc] in Hw. apply andb_true_iff in Hw. destruct Hw as [-> Hw].
    cbn [rawD andb] in Hr. apply orb_true_iff in Hr. destruct Hr as [Hr|Hr].
    { cbn in Ed. congruence. }
    clear Ed. rewrite Forall_forall in H. rewrite forallb_forall in Hw, Hr.
    rewrite (dec_list_rt false (map (fun ft => has_type p (snd ft)) fs)
              (map (fun ft v => Ok (raw p (snd ft) v)) fs)
              (map (fun ft => pack_field (fst ft) (dec_ p o true (snd ft))) fs)) with (vs := vs);
      [reflexivity| |assumption|discriminate|].
    + apply (rts_map fs (fun ft => has_type p (snd ft)) (fun ft v => Ok (raw p (snd ft) v))
               (fun ft => pack_field (fst ft) (dec_ p o true (snd ft)))).
      intros ft Hft. unfold pack_field. apply H; auto.
    + rewrite <- enc_list_raw.
      * now rewrite map_map.
      * apply all2_length in Hv. rewrite !map_length in *. assumption.
Qed.

(** ** Round trip *)

(** The bitwise branch of slices and arrays writes what the element-wise one would. *)
Lemma enc_seq_eq p o pk t vs : native_ok p o -> len_ok p vs = true ->
  (if is_native_fixed p o && bw_enc t then
     Ok (to_ne p (usize_bytes p) (lenN vs) ++ concat (map (raw p t) vs))
   else
     let* l := encode_usize p o (lenN vs) in
     let* b := concat_res (sel_enc p o t (enc p o pk t)) vs in
     Ok (l ++ b)) =
  (let* l := encode_usize p o (lenN vs) in
   let* b := concat_res (enc_fast p o pk t) vs in
   Ok (l ++ b)).
Proof.
  intros Hn Hl. destruct (is_native_fixed p o && bw_enc t) eqn:E; [|reflexivity].
  apply andb_true_iff in E. destruct E as [En Eb].
  rewrite nf_usize by (auto; now apply len_ok_lt). cbn [bind].
  unfold enc_fast, sel_enc. replace (bw_as t) with true.
  - rewrite En. cbn [andb]. rewrite concat_raw. reflexivity.
  - destruct t; cbn in *; congruence.
Qed.

Lemma coh_fast_dir t : (match t with TBox _ => false | _ => true end) = true ->
  coh true t = if bw_enc t then bw_dec t || rawD t else coh false t.
Proof.
  destruct t; intros H; try discriminate H; cbn [coh andb]; try reflexivity;
    destruct (bw_enc _) eqn:E; try reflexivity.
Qed.

(** From element-wise to the [Encoder::encode]/[Decoder::decode] positions. *)
Lemma fast_of_dir p o pk tail t : native_ok p o ->
  (is_native_fixed p o = true -> coh true t = true) ->
  (match t with TBox _ => false | _ => true end) = true ->
  ((is_native_fixed p o = true -> coh false t = true) ->
   rt tail (has_type p t) (enc p o pk t) (dec_ p o pk t)) ->
  rt tail (has_type p t) (enc_fast p o pk t) (dec_fast p o pk t).
Proof.
  intros Hn Hc Hnb Hdir. unfold enc_fast, dec_fast, sel_enc, sel_dec.
  assert (Has : bw_as t = bw_enc t) by (destruct t; try reflexivity; discriminate).
  rewrite Has. destruct (is_native_fixed p o) eqn:En; cbn [andb].
  - specialize (Hc eq_refl). rewrite coh_fast_dir in Hc by assumption.
    destruct (bw_enc t) eqn:Eb.
    + destruct (bw_dec t) eqn:Ed.
      * apply rt_weaken, raw_rt, Ed.
      * cbn [orb] in Hc. apply rt_weaken, rawD_rt; auto.
    + destruct (bw_dec t) eqn:Ed; [apply bw_dec_enc in Ed; congruence|].
      apply Hdir. auto.
  - apply Hdir. discriminate.
Qed.

Lemma has_list p t vs n : has_type p (TArray n t) (VList vs) = true ->
  forallb (has_type p t) vs = true /\ lenN vs = n.
Proof. cbn. rewrite andb_true_iff, N.eqb_eq. auto. Qed.

Section RoundTrip.
  Variables (p : plat) (o : N).
  Hypothesis Hn : native_ok p o.
  Notation nf := (is_native_fixed p o).

  Definition RT (t : ty) : Prop := forall pk tail,
    wf p t -> posok nf pk tail t = true ->
    ((nf = true -> coh false t = true) ->
     rt tail (has_type p t) (enc p o pk t) (dec_ p o pk t)) /\
    ((nf = true -> coh true t = true) ->
     rt tail (has_type p t) (enc_fast p o pk t) (dec_fast p o pk t)).

  Lemma RT_intro t : (match t with TBox _ => false | _ => true end) = true ->
    (forall pk tail, wf p t -> posok nf pk tail t = true ->
      (nf = true -> coh false t = true) ->
      rt tail (has_type p t) (enc p o pk t) (dec_ p o pk t)) -> RT t.
  Proof.
    intros Hb H pk tail Hw Hp. split.
    - now apply H.
    - intros Hc. apply fast_of_dir; auto.
  Qed.

  Lemma dec_usize_nf n bs l rest : n < 2 ^ usize_bits p -> encode_usize p o n = Ok l ->
    nf = true -> bs = l ++ rest ->
    read_bytes (N.of_nat (usize_bytes p)) bs = Ok (to_ne p (usize_bytes p) n, rest).
  Proof.
    intros Hlt Hl E ->. rewrite (nf_usize p o n E (Hn E) Hlt) in Hl. inversion Hl; subst.
    unfold read_bytes. rewrite to_ne_fixed.
    rewrite <- (fixed_bytes_len (native_bo p) (usize_bytes p) n) at 1.
    rewrite take_opt_app. reflexivity.
  Qed.

  Lemma RT_vec t : RT t -> RT (TVec t).
  Proof.
    intros IH. apply RT_intro; [reflexivity|]. intros pk tail Hw Hp Hc.
    cbn [wf posok] in Hw, Hp.
    assert (Hc' : nf = true -> coh true t = true) by (intros E; specialize (Hc E); cbn in Hc; now destruct t).
    destruct (IH pk false Hw Hp) as [_ IHf]. specialize (IHf Hc').
    intros v bs rest Hv _ He. cbn [has_type] in Hv. destruct v; try discriminate.
    apply andb_true_iff in Hv. destruct Hv as [Hv Hl].
    cbn [enc] in He. rewrite enc_seq_eq in He by assumption.
    inv_bind He. inv_bind He. inversion He; subst. clear He.
    apply len_ok_lt in Hl.
    pose proof (dec_count_rt _ _ _ IHf vs _ rest Hv He1) as Hd.
    cbn [dec_]. rewrite <- app_assoc.
    unfold dec_fast, sel_dec in Hd. destruct (nf && bw_dec t) eqn:E.
    - apply andb_true_iff in E. destruct E as [E _].
      rewrite (dec_usize_nf (lenN vs) _ a (a0 ++ rest)) by (assumption || reflexivity).
      cbn [bind]. rewrite of_ne_fixed, to_ne_fixed, of_fixed_fixed
        by now rewrite <- usize_pow.
      rewrite Hd. reflexivity.
    - unfold dec_seq. rewrite (usize_roundtrip p o _ _ _ Hl He0). cbn [bind].
      rewrite Hd. reflexivity.
  Qed.

  Lemma RT_array n t : RT t -> RT (TArray n t).
  Proof.
    intros IH. apply RT_intro; [reflexivity|]. intros pk tail Hw Hp Hc.
    cbn [wf posok] in Hw, Hp. destruct Hw as [Hw Hlt].
    assert (Hc' : nf = true -> coh true t = true) by (intros E; specialize (Hc E); cbn in Hc; now destruct t).
    destruct (IH pk false Hw Hp) as [_ IHf]. specialize (IHf Hc').
    intros v bs rest Hv _ He. destruct v; try discriminate.
    apply has_list in Hv. destruct Hv as [Hv <-].
    cbn [enc] in He. rewrite enc_seq_eq in He by (assumption || now apply len_ok_lt).
    inv_bind He. inv_bind He. inversion He; subst. clear He.
    pose proof (dec_count_rt _ _ _ IHf vs _ rest Hv He1) as Hd.
    cbn [dec_]. rewrite <- app_assoc.
    rewrite (usize_roundtrip p o _ _ _ Hlt He0). cbn [bind].
    fold (dec_fast p o pk t). rewrite N.min_id, Hd. cbn [bind]. rewrite N.eqb_refl. reflexivity.
  Qed.

  Lemma RT_set t : RT t -> RT (TSet t).
  Proof.
    intros IH. apply RT_intro; [reflexivity|]. intros pk tail Hw Hp Hc.
    cbn [wf posok] in Hw, Hp.
    assert (Hc' : nf = true -> coh true t = true) by (intros E; specialize (Hc E); cbn in Hc; now destruct t).
    destruct (IH pk false Hw Hp) as [_ IHf]. specialize (IHf Hc').
    intros v bs rest Hv _ He. cbn [has_type] in Hv. destruct v; try discriminate.
    rewrite !andb_true_iff in Hv. destruct Hv as [[Hv Hl] Hd]. apply len_ok_lt in Hl.
    cbn [enc] in He. inv_bind He. inv_bind He. inversion He; subst. clear He.
    cbn [dec_]. rewrite <- app_assoc, (usize_roundtrip p o _ _ _ Hl He0). cbn [bind].
    apply distinct_NoDup in Hd.
    pose proof (dec_set_rt _ _ _ IHf vs a0 rest [] Hv Hd He1) as Hs.
    match goal with |- bind ?x _ = _ => replace x with (@Ok (list val * bytes) (vs, rest)) by (symmetry; exact Hs) end.
    reflexivity.
  Qed.

  Lemma RT_map k v : RT k -> RT v -> RT (TMap k v).
  Proof.
    intros IHk IHv. apply RT_intro; [reflexivity|]. intros pk tail Hw Hp Hc.
    cbn [wf posok] in Hw, Hp. destruct Hw as [Hwk Hwv]. apply andb_true_iff in Hp. destruct Hp as [Hpk Hpv].
    assert (Hc' : nf = true -> coh true k = true /\ coh true v = true)
      by (intros E; specialize (Hc E); cbn in Hc; now apply andb_true_iff in Hc).
    destruct (IHk pk false Hwk Hpk) as [_ Hk]. specialize (Hk (fun E => proj1 (Hc' E))).
    destruct (IHv pk false Hwv Hpv) as [_ Hv]. specialize (Hv (fun E => proj2 (Hc' E))).
    intros x bs rest Hx _ He. cbn [has_type] in Hx. destruct x; try discriminate.
    rewrite !andb_true_iff in Hx. destruct Hx as [[Hx Hl] Hd]. apply len_ok_lt in Hl.
    cbn [enc] in He. inv_bind He. inv_bind He. inversion He; subst. clear He.
    cbn [dec_]. rewrite <- app_assoc, (usize_roundtrip p o _ _ _ Hl He0). cbn [bind].
    apply distinct_NoDup in Hd.
    pose proof (dec_map_rt _ _ _ _ _ _ Hk Hv kvs a0 rest [] Hx Hd He1) as Hs.
    match goal with |- bind ?x _ = _ => replace x with (@Ok (list (val * val) * bytes) (kvs, rest)) by (symmetry; exact Hs) end.
    reflexivity.
  Qed.

  Lemma RT_opt t : RT t -> RT (TOpt t).
  Proof.
    intros IH. apply RT_intro; [reflexivity|]. intros pk tail Hw Hp Hc.
    cbn [wf posok] in Hw, Hp. apply andb_true_iff in Hp. destruct Hp as [Hpo Hp].
    assert (Hc' : nf = true -> coh true t = true) by (intros E; specialize (Hc E); cbn in Hc; now destruct t).
    destruct (IH pk tail Hw Hp) as [_ IHf]. specialize (IHf Hc').
    intros v bs rest Hv Ht He. cbn [has_type] in Hv. cbn [enc] in He. cbn [dec_].
    fold (enc_fast p o pk t) in He. fold (dec_fast p o pk t).
    destruct pk.
    - apply andb_true_iff in Hpo. destruct Hpo as [-> Hs].
      rewrite (Ht eq_refl), app_nil_r.
      destruct v; try discriminate.
      + inversion He; subst. reflexivity.
      + inv_bind He. inversion He; subst.
        pose proof (sized_fast_ne p o t v bs Hv Hs Hw He0) as Hne.
        pose proof (IHf v bs [] Hv (fun _ => eq_refl) He0) as Hd. rewrite app_nil_r in Hd.
        destruct bs as [|b r]; [congruence|]. rewrite Hd. reflexivity.
    - destruct v; try discriminate.
      + inversion He; subst. reflexivity.
      + inv_bind He. inversion He; subst. cbn [app read_byte bind N.eqb].
        change (1 =? 1) with true. cbn [Pos.eqb]. rewrite (IHf v a rest Hv Ht He0). reflexivity.
  Qed.

  Lemma RT_box t : RT t -> RT (TBox t).
  Proof.
    intros IH pk tail Hw Hp. cbn [wf posok] in Hw, Hp.
    destruct (IH pk tail Hw Hp) as [Hd Hf].
    assert (Hdir : (nf = true -> coh false (TBox t) = true) ->
       rt tail (has_type p (TBox t)) (enc p o pk (TBox t)) (dec_ p o pk (TBox t))).
    { intros Hc. cbn [has_type enc dec_]. unfold sel_dec.
      destruct (nf && bw_dec t) eqn:E.
      - apply andb_true_iff in E. destruct E as [E Eb]. specialize (Hc E). cbn in Hc. rewrite Eb in Hc.
        apply (rt_ext tail _ (fun v => Ok (raw p t v))).
        + intros v Hv. symmetry. apply dir_raw; auto. now apply bw_dec_enc.
        + apply rt_weaken, raw_rt, Eb.
      - apply Hd. intros E'. specialize (Hc E'). cbn in Hc. rewrite E' in E. cbn in E. now rewrite E in Hc. }
    split; [exact Hdir|].
    intros Hc.
    assert (Ed : dec_fast p o pk (TBox t) = dec_fast p o pk t).
    { unfold dec_fast at 1. unfold sel_dec at 1. cbn [bw_dec]. rewrite andb_false_r. reflexivity. }
    assert (Ht : has_type p (TBox t) = has_type p t) by reflexivity.
    rewrite Ed, Ht.
    destruct t as [| | | | | | | | | | | | | |t'| | | | | | | | |];
      try (apply Hf; intros E; specialize (Hc E); exact Hc).
    (* Box<Box<T>> *)
    assert (Ee : enc_fast p o pk (TBox (TBox t')) = enc p o pk (TBox t')).
    { unfold enc_fast, sel_enc. cbn [bw_as bw_enc]. rewrite andb_false_r. reflexivity. }
    assert (Ed' : dec_fast p o pk (TBox t') = dec_ p o pk (TBox t')).
    { unfold dec_fast, sel_dec. cbn [bw_dec]. rewrite andb_false_r. reflexivity. }
    rewrite Ee, Ed'. apply Hd. intros E. specialize (Hc E). exact Hc.
  Qed.

  Lemma last_tail_In {A} (l : list A) (ok : A -> bool -> bool) tail x :
    last_tail tail (map ok l) = true -> In x l -> ok x tail = true \/ ok x false = true.
  Proof.
    induction l as [|y l IH]; cbn [map]; intros H Hin; [destruct Hin|].
    destruct l as [|z l].
    - destruct Hin as [->|[]]. now left.
    - cbn [map last_tail] in H. apply andb_true_iff in H. destruct H as [H1 H2].
      destruct Hin as [->|Hin]; [now right|]. now apply IH.
  Qed.

  Lemma RT_tup ts : Forall RT ts -> RT (TTup ts).
  Proof.
    intros IH. rewrite Forall_forall in IH. apply RT_intro; [reflexivity|]. intros pk tail Hw Hp Hc.
    cbn [wf posok] in Hw, Hp. destruct Hw as [Hw Hl]. rewrite allP_Forall, Forall_forall in Hw.
    apply len_ok_lt in Hl.
    intros v bs rest Hv Ht He. cbn [has_type] in Hv. destruct v; try discriminate.
    cbn [enc] in He. inv_bind He. inv_bind He. inversion He; subst. clear He.
    cbn [dec_]. rewrite <- app_assoc, (usize_roundtrip p o _ _ _ Hl He0). cbn [bind].
    rewrite N.min_id. unfold lenN at 1. rewrite Nat2N.id.
    rewrite <- (map_length (fun t' : ty => sel_dec p o t' (dec_ p o pk t')) ts) at 1.
    rewrite firstn_all.
    rewrite (dec_list_rt tail (map (has_type p) ts)
              (map (fun t' => sel_enc p o t' (enc p o pk t')) ts)
              (map (fun t' => sel_dec p o t' (dec_ p o pk t')) ts)) with (vs := vs); try assumption.
    - cbn [bind]. rewrite N.eqb_refl. reflexivity.
    - apply (rts_map_tail ts (has_type p) (fun t' => sel_enc p o t' (enc p o pk t'))
              (fun t' => sel_dec p o t' (dec_ p o pk t')) tail (fun t' b => posok nf pk b t') Hp).
      intros x b Hx Hb. destruct (IH x Hx pk b (Hw x Hx) Hb) as [_ Hf]. apply Hf.
      intros E. specialize (Hc E). cbn in Hc. rewrite forallb_forall in Hc. auto.
  Qed.

  Lemma RT_pack c fs : Forall (fun ft => RT (snd ft)) fs -> RT (TPack c fs).
  Proof.
    intros IH. rewrite Forall_forall in IH. apply RT_intro; [reflexivity|]. intros pk tail Hw Hp Hc.
    cbn [wf posok] in Hw, Hp. destruct Hw as [Hw [Hl Hdef]]. rewrite allP_Forall, Forall_forall in Hw.
    destruct (nf && bw_enc (TPack c fs)) eqn:E.
    - apply andb_true_iff in E. destruct E as [E Eb]. specialize (Hc E).
      apply (rt_ext tail _ (fun v => Ok (raw p (TPack c fs) v))).
      { intros v Hv. symmetry. apply dir_raw; auto. }
      apply rt_weaken. cbn [coh andb] in Hc. rewrite Eb in Hc. apply orb_true_iff in Hc.
      destruct Hc as [Hc|Hc].
      + cbn [dec_]. rewrite E, Hc. apply raw_rt, Hc.
      + apply rawD_rt; auto.
    - intros v bs rest Hv Ht He. cbn [enc] in He. rewrite E in He. cbn [dec_].
      assert (E' : nf && bw_dec (TPack c fs) = false).
      { destruct (nf && bw_dec (TPack c fs)) eqn:E'; [|reflexivity].
        apply andb_true_iff in E'. destruct E' as [E1 E2]. apply bw_dec_enc in E2.
        rewrite E1, E2 in E. discriminate. }
      rewrite E'. cbn [has_type] in Hv. destruct v; try discriminate.
      rewrite (dec_list_rt tail (map (fun ft => has_type p (snd ft)) fs)
                (map (fun ft => enc p o true (snd ft)) fs)
                (map (fun ft => pack_field (fst ft) (dec_ p o true (snd ft))) fs)) with (vs := vs);
        try assumption; [reflexivity|].
      apply (rts_map_tail fs (fun ft => has_type p (snd ft)) (fun ft => enc p o true (snd ft))
              (fun ft => pack_field (fst ft) (dec_ p o true (snd ft))) tail
              (fun ft b => posok nf true b (snd ft)) Hp).
      intros ft b Hft Hb.
      destruct (IH ft Hft true b (Hw ft Hft) Hb) as [Hd _].
      apply Hd. intros En. specialize (Hc En). cbn [coh andb] in Hc. rewrite En in E. cbn [andb] in E.
      rewrite E in Hc. rewrite forallb_forall in Hc. exact (Hc ft Hft).
  Qed.

  Lemma RT_struct kt fs : RT kt -> Forall (fun ft => RT (snd ft)) fs -> RT (TStruct kt fs).
  Proof.
    intros IHk IH. rewrite Forall_forall in IH. apply RT_intro; [reflexivity|]. intros pk tail Hw Hp Hc.
    cbn [wf posok] in Hw, Hp. destruct Hw as (Hwk & Hw & Hl & Hnt & Hnd & Hdef & Hskip).
    rewrite allP_Forall, Forall_forall in Hw. apply len_ok_lt in Hl.
    apply andb_true_iff in Hp. destruct Hp as [Hpk Hp]. rewrite forallb_forall in Hp.
    assert (Hck : nf = true -> coh false kt = true).
    { intros E. specialize (Hc E). cbn in Hc. now apply andb_true_iff in Hc. }
    assert (Hcf : nf = true -> forall ft, In ft fs -> coh false (snd ft) = true).
    { intros E. specialize (Hc E). cbn in Hc. apply andb_true_iff in Hc.
      destruct Hc as [_ Hc]. now rewrite forallb_forall in Hc. }
    destruct (IHk pk false Hwk Hpk) as [Hk _]. specialize (Hk Hck).
    intros v bs rest Hv _ He. cbn [has_type] in Hv. destruct v; try discriminate.
    cbn [enc] in He. inv_bind He. inv_bind He. inversion He; subst. clear He.
    assert (Hcnt : forall (gs : list finfo) ws, count_fields gs ws <= lenN gs).
    { induction gs as [|g gs IHg]; intros ws; [destruct ws; cbn; lia|].
      destruct ws as [|w ws]; cbn [count_fields]; rewrite lenN_cons; [lia|].
      specialize (IHg ws). destruct (fskip g w); lia. }
    assert (Hlt : count_fields (map fst fs) vs < 2 ^ usize_bits p).
    { specialize (Hcnt (map fst fs) vs). unfold lenN in *. rewrite map_length in Hcnt. lia. }
    cbn [dec_]. rewrite <- app_assoc, (usize_roundtrip p o _ _ _ Hlt He0). cbn [bind].
    pose proof (dec_fields_rt (has_type p kt) (enc p o pk kt) (dec_ p o pk kt) no_skip Hk
      (map fst fs) (map (fun ft => enc p o pk (snd ft)) fs) (map (fun ft => dec_ p o pk (snd ft)) fs)
      (map (fun ft => has_type p (snd ft)) fs) vs a0 rest [] [] []) as Hd.
    cbn [app] in Hd. rewrite !map_map in Hd.
    match goal with |- bind ?x _ = _ =>
      assert (Hx : x = Ok (written (map fst fs) vs, rest)) end.
    { apply Hd; try reflexivity; try assumption; clear Hd.
    - clear - Hnt. induction fs as [|ft fs IHf]; cbn in *; [reflexivity|].
      apply andb_true_iff in Hnt. destruct Hnt as [H1 H2]. rewrite H1. now apply IHf.
    - now apply distinct_NoDup.
    - now rewrite !map_length.
    - apply (rts_map fs (fun ft => has_type p (snd ft)) (fun ft => enc p o pk (snd ft))
               (fun ft => dec_ p o pk (snd ft)) false).
      intros ft Hft. destruct (IH ft Hft pk false (Hw ft Hft) (Hp ft Hft)) as [Hdir _].
      apply Hdir. intros E. now apply Hcf.
    - rewrite <- He1. clear. induction fs as [|ft fs IHf] in vs |- *; [reflexivity|].
      cbn. destruct vs as [|v vs]; [reflexivity|]. rewrite IHf. reflexivity. }
    rewrite Hx. cbn [bind]. rewrite fill_written; [reflexivity| |].
    - apply all2_length in Hv. rewrite map_length in *. assumption.
    - intros f v Hf Hs. rewrite in_map_iff in Hf. destruct Hf as [ft [<- Hft]]. eauto.
  Qed.

  Lemma RT_tag kt tags : RT kt -> RT (TTag kt tags).
  Proof.
    intros IHk. apply RT_intro; [reflexivity|]. intros pk tail Hw Hp Hc.
    cbn [wf posok] in Hw, Hp. destruct Hw as (Hwk & Hnt & Hnd).
    destruct (IHk pk tail Hwk Hp) as [Hk _]. specialize (Hk Hc).
    intros v bs rest Hv Ht He. cbn [has_type] in Hv. destruct v as [| | | | | | | | |i v]; try discriminate.
    destruct v; try discriminate. cbn [enc] in He.
    destruct (nth_error tags i) as [k|] eqn:Ek; [|discriminate].
    rewrite forallb_forall in Hnt.
    cbn [dec_]. rewrite (Hk k bs rest (Hnt k (nth_error_In _ _ Ek)) Ht He). cbn [bind].
    rewrite (find_name_nth tags i k); [reflexivity|now apply distinct_NoDup|assumption].
  Qed.

  Lemma RT_enum f kt vs : RT kt -> Forall (fun tv => RT (snd tv)) vs -> RT (TEnum f kt vs).
  Proof.
    intros IHk IH. rewrite Forall_forall in IH. apply RT_intro; [reflexivity|]. intros pk tail Hw Hp Hc.
    cbn [wf posok] in Hw, Hp. destruct Hw as (Hwk & Hw & Hnt & Hnd).
    rewrite allP_Forall, Forall_forall in Hw. rewrite forallb_forall in Hnt.
    apply andb_true_iff in Hp. destruct Hp as [Hpk Hp]. rewrite forallb_forall in Hp.
    assert (Hck : nf = true -> coh f kt = true /\ forall tv, In tv vs -> coh f (snd tv) = true).
    { intros E. specialize (Hc E). cbn in Hc. apply andb_true_iff in Hc.
      destruct Hc as [Hc1 Hc]. rewrite forallb_forall in Hc. auto. }
    assert (Hk : rt false (has_type p kt)
      (if f then sel_enc p o kt (enc p o pk kt) else enc p o pk kt)
      (if f then sel_dec p o kt (dec_ p o pk kt) else dec_ p o pk kt)).
    { destruct (IHk pk false Hwk Hpk) as [Hd Hf]. destruct f.
      - apply Hf. intros E. now apply Hck.
      - apply Hd. intros E. now apply Hck. }
    assert (Hb : forall tv, In tv vs -> rt tail (has_type p (snd tv))
      (if f then sel_enc p o (snd tv) (enc p o pk (snd tv)) else enc p o pk (snd tv))
      (if f then sel_dec p o (snd tv) (dec_ p o pk (snd tv)) else dec_ p o pk (snd tv))).
    { intros tv Htv. destruct (IH tv Htv pk tail (Hw tv Htv) (Hp tv Htv)) as [Hd Hf]. destruct f.
      - apply Hf. intros E. now apply Hck.
      - apply Hd. intros E. now apply Hck. }
    intros v bs rest Hv Ht He. cbn [has_type] in Hv. destruct v as [| | | | | | | | |i v]; try discriminate.
    cbn [enc] in He. rewrite nth_error_map in Hv, He.
    destruct (nth_error vs i) as [tv|] eqn:Ei; [|discriminate]. cbn [option_map] in Hv, He.
    pose proof (nth_error_In _ _ Ei) as Hin.
    inv_bind He. inv_bind He. inversion He; subst. clear He.
    cbn [dec_]. rewrite <- app_assoc.
    rewrite (Hk (fst tv) a (a0 ++ rest) (Hnt tv Hin)) by (assumption || discriminate). cbn [bind].
    rewrite (find_name_nth (map fst vs) i (fst tv)).
    - rewrite nth_error_map, Ei. cbn [option_map].
      rewrite (Hb tv Hin v a0 rest Hv Ht He1). reflexivity.
    - now apply distinct_NoDup.
    - rewrite nth_error_map, Ei. reflexivity.
  Qed.

  Lemma RT_all t : RT t.
  Proof.
    induction t using ty_ind';
      try (apply RT_intro; [reflexivity|]; intros; apply rt_weaken, leaf_rt; [exact Hn|reflexivity]).
    - now apply RT_opt.
    - now apply RT_box.
    - now apply RT_vec.
    - now apply RT_array.
    - now apply RT_set.
    - now apply RT_tup.
    - now apply RT_map.
    - now apply RT_pack.
    - now apply RT_struct.
    - now apply RT_tag.
    - now apply RT_enum.
  Qed.
End RoundTrip.

Lemma roundtrip p o pk tail t : wf p t -> posok (is_native_fixed p o) pk tail t = true ->
  fast_ok p o t -> rt tail (has_type p t) (enc p o pk t) (dec_ p o pk t).
Proof.
  intros Hw Hp Hf. assert (Hn : native_ok p o) by (intros E; now apply Hf).
  apply (RT_all p o Hn t pk tail Hw Hp). intros E. now apply Hf.
Qed.
