(** More proofs about [Storage]: encoding is total, decoding is safe, encodings mark their
    end. *)
From Verif Require Import Base Options Int Utf8 Types Storage StorageSpec
  BaseFacts IntFacts TypesFacts StorageFacts DecFacts.
From Coq Require Import ZifyBool ZifyNat ZifyN.
Local Open Scope N_scope.

(** ** Encoding is total and writes bytes *)

Definition good (P : val -> bool) (e : val -> res bytes) : Prop :=
  forall v, P v = true -> exists bs, e v = Ok bs /\ bytes_ok bs = true.

Lemma usize_total p o v : lengths_fit p o -> v < 2 ^ usize_bits p ->
  exists bs, encode_usize p o v = Ok bs /\ bytes_ok bs = true.
Proof.
  intros Hf Hv. assert (exists bs, encode_usize p o v = Ok bs) as [bs Hb].
  { unfold encode_usize. destruct Hf as [Hf|Hf].
    - rewrite Hf. eauto.
    - assert (H : v < 2 ^ bits (width_int (length_value o))).
      { eapply N.lt_le_trans; [eassumption|]. apply N.pow_le_mono_r; lia. }
      destruct (length_value o); eauto; rewrite (proj2 (N.ltb_lt _ _) H); eauto. }
  exists bs. split; [assumption|]. now apply encode_usize_bytes_ok in Hb.
Qed.

Lemma good_concat P e vs : good P e -> forallb P vs = true ->
  exists bs, concat_res e vs = Ok bs /\ bytes_ok bs = true.
Proof.
  intros He. induction vs as [|v vs IH]; cbn; intros H.
  - exists []. auto.
  - apply andb_true_iff in H. destruct H as [Hv Hvs].
    destruct (He v Hv) as [a [Ea Oa]]. destruct (IH Hvs) as [b [Eb Ob]].
    rewrite Ea, Eb. cbn. exists (a ++ b). rewrite bytes_ok_app, Oa, Ob. auto.
Qed.

Lemma good_list Ps es vs : Forall2 good Ps es -> all2 Ps vs = true ->
  exists bs, enc_list es vs = Ok bs /\ bytes_ok bs = true.
Proof.
  intros H. revert vs. induction H as [|P e Ps es He _ IH]; intros [|v vs] Hv; try discriminate.
  - exists []. auto.
  - cbn in Hv. apply andb_true_iff in Hv. destruct Hv as [Hv Hvs]. cbn.
    destruct (He v Hv) as [a [Ea Oa]]. destruct (IH vs Hvs) as [b [Eb Ob]].
    rewrite Ea, Eb. cbn. exists (a ++ b). rewrite bytes_ok_app, Oa, Ob. auto.
Qed.

Lemma to_ne_ok p n v : bytes_ok (to_ne p n v) = true.
Proof. rewrite to_ne_fixed. apply fixed_bytes_ok. Qed.

Lemma raw_ok p t : forall v, bytes_ok (raw p t v) = true.
Proof.
  induction t using ty_ind'; intros v; cbn [raw]; try reflexivity.
  all: try (destruct v; try reflexivity; apply to_ne_ok).
  - destruct v as [|[]| | | | | | | |]; reflexivity.
  - apply IHt.
  - destruct v; try reflexivity. induction vs as [|v vs IH]; cbn; [reflexivity|].
    now rewrite bytes_ok_app, IHt, IH.
  - destruct v; try reflexivity. revert vs. induction H as [|ft fs Hf _ IH]; intros [|v vs]; cbn; try reflexivity.
    now rewrite bytes_ok_app, Hf, IH.
Qed.

Lemma good_sel p o t e : good (has_type p t) e -> good (has_type p t) (sel_enc p o t e).
Proof.
  intros H v Hv. unfold sel_enc. destruct (_ && _); [|now apply H].
  exists (raw p t v). split; [reflexivity|apply raw_ok].
Qed.

Lemma enc_total p o t : lengths_fit p o -> forall pk, wf p t -> good (has_type p t) (enc p o pk t).
Proof.
  intros Hf. pose proof (usize_bits_ge p) as Hub.
  induction t using ty_ind'; intros pk Hw v Hv; cbn [wf] in Hw; cbn [has_type] in Hv; cbn [enc].
  - destruct v; try discriminate. apply usize_total; [assumption|lia].
  - destruct v; try discriminate. destruct b; eexists; split; reflexivity.
  - destruct v; try discriminate. eexists; split; [reflexivity|apply encode_unsigned_bytes_ok].
  - destruct w, v; try discriminate; eexists; split; try reflexivity; try apply encode_unsigned_bytes_ok.
    cbn in Hv |- *. unfold byte_ok. lia.
  - destruct w, v; try discriminate; eexists; split; try reflexivity; try apply encode_signed_bytes_ok.
    cbn. unfold byte_ok. assert (Ht : to_u 8 z < 2 ^ 8) by (apply to_u_lt; lia). cbn in Ht |- *. lia.
  - destruct v; try discriminate. apply usize_total; [assumption|lia].
  - destruct v; try discriminate. apply usize_total; [assumption|]. apply to_u_lt. lia.
  - destruct v; try discriminate. eexists; split; [reflexivity|apply encode_unsigned_bytes_ok].
  - destruct v; try discriminate. eexists; split; [reflexivity|apply encode_unsigned_bytes_ok].
  - destruct w, v; try discriminate; eexists; split; try reflexivity; try apply encode_unsigned_bytes_ok.
    cbn in Hv |- *. unfold byte_ok. lia.
  - destruct v; try discriminate. rewrite !andb_true_iff in Hv. destruct Hv as [[Ho _] Hl].
    apply len_ok_lt in Hl. destruct (usize_total p o _ Hf Hl) as [a [Ea Oa]]. rewrite Ea. cbn [bind].
    eexists; split; [reflexivity|]. now rewrite bytes_ok_app, Oa, Ho.
  - destruct v; try discriminate. rewrite !andb_true_iff in Hv. destruct Hv as [Ho Hl].
    apply len_ok_lt in Hl. destruct (usize_total p o _ Hf Hl) as [a [Ea Oa]]. rewrite Ea. cbn [bind].
    eexists; split; [reflexivity|]. now rewrite bytes_ok_app, Oa, Ho.
  - destruct v; try discriminate. rewrite !andb_true_iff in Hv. destruct Hv as [Ho Hl].
    eexists; split; [reflexivity|assumption].
  - destruct v; try discriminate.
    + destruct pk; eexists; split; reflexivity.
    + destruct (good_sel p o t _ (IHt pk Hw) v Hv) as [a [Ea Oa]]. rewrite Ea. cbn [bind].
      destruct pk; eexists; (split; [reflexivity|exact Oa]).
  - now apply IHt.
  - destruct v; try discriminate. apply andb_true_iff in Hv. destruct Hv as [Hv Hl].
    apply len_ok_lt in Hl.
    destruct (_ && _).
    + eexists; split; [reflexivity|]. rewrite bytes_ok_app, to_ne_ok. cbn.
      clear. induction vs as [|v vs IH]; cbn; [reflexivity|]. now rewrite bytes_ok_app, raw_ok, IH.
    + destruct (usize_total p o _ Hf Hl) as [a [Ea Oa]]. rewrite Ea. cbn [bind].
      destruct (good_concat _ _ vs (good_sel p o t _ (IHt pk Hw)) Hv) as [b [Eb Ob]].
      rewrite Eb. cbn [bind]. eexists; split; [reflexivity|]. now rewrite bytes_ok_app, Oa, Ob.
  - destruct v; try discriminate. apply andb_true_iff in Hv. destruct Hv as [Hv Hl].
    destruct Hw as [Hw Hn]. assert (Hl' : lenN vs < 2 ^ usize_bits p) by lia.
    destruct (is_native_fixed p o && bw_enc t).
    + eexists; split; [reflexivity|]. rewrite bytes_ok_app, to_ne_ok. cbn.
      clear. induction vs as [|v vs IH]; cbn; [reflexivity|]. now rewrite bytes_ok_app, raw_ok, IH.
    + destruct (usize_total p o _ Hf Hl') as [a [Ea Oa]]. rewrite Ea. cbn [bind].
      destruct (good_concat _ _ vs (good_sel p o t _ (IHt pk Hw)) Hv) as [b [Eb Ob]].
      rewrite Eb. cbn [bind]. eexists; split; [reflexivity|]. now rewrite bytes_ok_app, Oa, Ob.
  - destruct v; try discriminate. rewrite !andb_true_iff in Hv. destruct Hv as [[Hv Hl] _].
    apply len_ok_lt in Hl.
    destruct (usize_total p o _ Hf Hl) as [a [Ea Oa]]. rewrite Ea. cbn [bind].
    destruct (good_concat _ _ vs (good_sel p o t _ (IHt pk Hw)) Hv) as [b [Eb Ob]].
    rewrite Eb. cbn [bind]. eexists; split; [reflexivity|]. now rewrite bytes_ok_app, Oa, Ob.
  - destruct v; try discriminate. destruct Hw as [Hw Hl]. apply len_ok_lt in Hl.
    rewrite allP_Forall, Forall_forall in Hw. rewrite Forall_forall in H.
    destruct (usize_total p o _ Hf Hl) as [a [Ea Oa]]. rewrite Ea. cbn [bind].
    destruct (good_list (map (has_type p) ts) (map (fun t' => sel_enc p o t' (enc p o pk t')) ts) vs) as [b [Eb Ob]].
    + apply Forall2_map_in. intros t Ht. apply good_sel, H; auto.
    + assumption.
    + rewrite Eb. cbn [bind]. eexists; split; [reflexivity|]. now rewrite bytes_ok_app, Oa, Ob.
  - destruct v; try discriminate. rewrite !andb_true_iff in Hv. destruct Hv as [[Hv Hl] _].
    destruct Hw as [Hw1 Hw2]. apply len_ok_lt in Hl.
    destruct (usize_total p o _ Hf Hl) as [a [Ea Oa]]. rewrite Ea. cbn [bind]. clear Hl Ea.
    assert (Hc : exists b, concat_res (fun kv => let* a := sel_enc p o t1 (enc p o pk t1) (fst kv) in
              let* b := sel_enc p o t2 (enc p o pk t2) (snd kv) in Ok (a ++ b)) kvs = Ok b /\ bytes_ok b = true).
    { induction kvs as [|[k x] kvs IH]; cbn in *; [eauto|].
      rewrite !andb_true_iff in Hv. destruct Hv as [[Hk Hx] Hv].
      destruct (good_sel p o t1 _ (IHt1 pk Hw1) k Hk) as [b [Eb Ob]].
      destruct (good_sel p o t2 _ (IHt2 pk Hw2) x Hx) as [c [Ec Oc]].
      destruct (IH Hv) as [d [Ed Od]]. rewrite Eb, Ec. cbn [bind]. rewrite Ed. cbn [bind].
      eexists; split; [reflexivity|]. now rewrite !bytes_ok_app, Ob, Oc, Od. }
    destruct Hc as [b [Eb Ob]]. rewrite Eb. cbn [bind]. eexists; split; [reflexivity|]. now rewrite bytes_ok_app, Oa, Ob.
  - destruct (_ && _); [eexists; split; [reflexivity|apply raw_ok]|].
    destruct v; try discriminate. destruct Hw as [Hw _]. rewrite allP_Forall, Forall_forall in Hw.
    rewrite Forall_forall in H.
    apply (good_list (map (fun ft => has_type p (snd ft)) fs)); [|assumption].
    apply Forall2_map_in. intros ft Hft. apply H; auto.
  - destruct v; try discriminate. destruct Hw as (Hwk & Hw & Hl & Hnt & _).
    rewrite allP_Forall in Hw. apply len_ok_lt in Hl.
    assert (Hlt : count_fields (map fst fs) vs < 2 ^ usize_bits p).
    { assert (Hcnt : forall (gs : list finfo) ws, count_fields gs ws <= lenN gs).
      { induction gs as [|g gs IHg]; intros ws; [destruct ws; cbn; lia|].
        destruct ws as [|w ws]; cbn [count_fields]; rewrite lenN_cons; [lia|].
        specialize (IHg ws). destruct (fskip g w); lia. }
      specialize (Hcnt (map fst fs) vs). unfold lenN in *. rewrite map_length in Hcnt. lia. }
    destruct (usize_total p o _ Hf Hlt) as [a [Ea Oa]]. rewrite Ea. cbn [bind]. clear Ea Hlt Hl.
    assert (Hc : exists b, enc_fields (enc p o pk t) (map (fun ft => (fst ft, enc p o pk (snd ft))) fs) vs = Ok b
              /\ bytes_ok b = true).
    { revert vs Hv. induction fs as [|ft fs IH]; intros [|v vs] Hv; try discriminate; [cbn; eauto|].
      cbn in *. apply andb_true_iff in Hv, Hnt. destruct Hv as [Hv Hvs], Hnt as [Hn1 Hn2].
      inversion H; inversion Hw; subst.
      destruct (IH H3 H7 Hn2 vs Hvs) as [d [Ed Od]].
      destruct (fskip (fst ft) v); [eauto|].
      destruct (IHt pk Hwk _ Hn1) as [b [Eb Ob]].
      destruct (H2 pk H6 v Hv) as [c [Ec Oc]]. rewrite Eb, Ec. cbn [bind]. rewrite Ed. cbn [bind].
      eexists; split; [reflexivity|]. now rewrite !bytes_ok_app, Ob, Oc, Od. }
    destruct Hc as [b [Eb Ob]]. rewrite Eb. cbn [bind]. eexists; split; [reflexivity|]. now rewrite bytes_ok_app, Oa, Ob.
  - destruct v as [| | | | | | | | |i v]; try discriminate. destruct v; try discriminate.
    destruct Hw as (Hwk & Hnt & _). rewrite forallb_forall in Hnt.
    destruct (nth_error tags i) as [k|] eqn:Ek.
    + apply IHt; [assumption|]. apply Hnt. now apply nth_error_In in Ek.
    + apply nth_error_None in Ek. apply Nat.ltb_lt in Hv. lia.
  - destruct v as [| | | | | | | | |i v]; try discriminate.
    destruct Hw as (Hwk & Hw & Hnt & _). rewrite allP_Forall, Forall_forall in Hw.
    rewrite forallb_forall in Hnt. rewrite Forall_forall in H. rewrite nth_error_map in *.
    destruct (nth_error vs i) as [tv|] eqn:Ei; [|discriminate]. cbn [option_map] in *.
    apply nth_error_In in Ei.
    assert (Hk : good (has_type p t) (if f then sel_enc p o t (enc p o pk t) else enc p o pk t)).
    { destruct f; [apply good_sel|]; now apply IHt. }
    assert (Hb : good (has_type p (snd tv))
       (if f then sel_enc p o (snd tv) (enc p o pk (snd tv)) else enc p o pk (snd tv))).
    { destruct f; [apply good_sel|]; apply H; auto. }
    destruct (Hk (fst tv) (Hnt tv Ei)) as [a [Ea Oa]]. rewrite Ea. cbn [bind].
    destruct (Hb v Hv) as [b [Eb Ob]]. rewrite Eb. cbn [bind].
    eexists; split; [reflexivity|]. now rewrite bytes_ok_app, Oa, Ob.
Qed.

(** ** Decoding arbitrary input *)

Notation snd_t p t := (sound (fun v => has_type p t v = true)).

Lemma of_ne_lt p h n : bytes_ok h = true -> lenN h = N.of_nat n -> of_ne p h < 256 ^ N.of_nat n.
Proof. intros Ho Hl. rewrite of_ne_fixed, <- Hl. now apply of_fixed_lt. Qed.

Lemma raw_dec_sound p t : bw_dec t = true -> snd_t p t (raw_dec p t).
Proof.
  pose proof (usize_bits_ge p) as Hub.
  induction t using ty_ind'; cbn [bw_dec]; intros Hb; try discriminate Hb; cbn [raw_dec].
  - now apply sound_ret.
  - eapply sound_bind; [apply sound_read_bytes|]. intros h [Ho Hl]. apply sound_ret. cbn [has_type].
    rewrite pow_bits. apply N.ltb_lt. now apply of_ne_lt.
  - eapply sound_bind; [apply sound_read_bytes|]. intros h [Ho Hl]. apply sound_ret. cbn [has_type].
    apply in_sb_s. pose proof (bits_gt w). apply to_s_range; [lia|]. rewrite pow_bits. now apply of_ne_lt.
  - eapply sound_bind; [apply sound_read_bytes|]. intros h [Ho Hl]. apply sound_ret. cbn [has_type].
    rewrite usize_pow. apply N.ltb_lt. now apply of_ne_lt.
  - eapply sound_bind; [apply sound_read_bytes|]. intros h [Ho Hl]. apply sound_ret. cbn [has_type].
    apply in_sb_s. apply to_s_range; [lia|]. rewrite usize_pow. now apply of_ne_lt.
  - eapply sound_bind; [apply sound_read_bytes|]. intros h [Ho Hl]. apply sound_ret. cbn [has_type].
    apply N.ltb_lt. now apply (of_ne_lt p h 4).
  - eapply sound_bind; [apply sound_read_bytes|]. intros h [Ho Hl]. apply sound_ret. cbn [has_type].
    apply N.ltb_lt. now apply (of_ne_lt p h 8).
  - eapply sound_bind; [apply sound_count, IHt, Hb|]. intros vs [Hf Hl]. apply sound_ret. cbn [has_type].
    rewrite Hl, N.eqb_refl, andb_true_r. rewrite forallb_forall. now rewrite Forall_forall in Hf.
  - apply andb_true_iff in Hb. destruct Hb as [_ Hb]. rewrite forallb_forall in Hb.
    rewrite Forall_forall in H.
    eapply sound_bind; [apply (sound_list (map (fun ft => has_type p (snd ft)) fs))|].
    + apply Forall2_map_in. intros ft Hft. apply H; auto.
    + intros vs Hvs. now apply sound_ret.
Qed.

Lemma sel_dec_sound p o t d : snd_t p t d -> snd_t p t (sel_dec p o t d).
Proof.
  intros H. unfold sel_dec. destruct (_ && _) eqn:E; [|assumption].
  apply andb_true_iff in E. now apply raw_dec_sound.
Qed.

Lemma pack_field_sound p t def d : snd_t p t d -> snd_t p t (pack_field def d).
Proof. exact (fun H => H). Qed.

Lemma count_sound p t d n : snd_t p t d ->
  sound (fun vs => forallb (has_type p t) vs = true /\ lenN vs = n) (dec_count n d).
Proof.
  intros H. eapply sound_weaken; [|apply sound_count, H]. intros vs [Hf Hl].
  split; [|assumption]. rewrite forallb_forall. now rewrite Forall_forall in Hf.
Qed.

Lemma dec_sound p o t : forall pk, wf p t -> snd_t p t (dec_ p o pk t).
Proof.
  pose proof (usize_bits_ge p) as Hub.
  induction t using ty_ind'; intros pk Hw; cbn [wf] in Hw; cbn [dec_].
  - eapply sound_bind; [apply sound_usize|]. intros n Hn. cbn beta iota.
    destruct (n =? 0); [now apply sound_ret|apply sound_err].
  - eapply sound_bind; [apply sound_read_byte|]. intros b Hb. cbn beta iota.
    destruct b as [|[q|q|]]; try apply sound_err; now apply sound_ret.
  - eapply sound_bind; [apply sound_unsigned|]. intros n Hn. cbn beta iota.
    destruct (char_valid n) eqn:E; [now apply sound_ret|apply sound_err].
  - destruct w; (eapply sound_bind; [first [apply sound_read_byte|apply sound_unsigned]|]); intros n Hn;
      apply sound_ret; cbn [has_type]; now apply N.ltb_lt.
  - destruct w; (eapply sound_bind; [first [apply sound_read_byte|apply sound_signed]|]); intros n Hn;
      apply sound_ret; cbn [has_type]; apply in_sb_s; try assumption.
    apply to_s_range; [lia|exact Hn].
  - eapply sound_bind; [apply sound_usize|]. intros n Hn. apply sound_ret. cbn. now apply N.ltb_lt.
  - eapply sound_bind; [apply sound_usize|]. intros n Hn. apply sound_ret. cbn. apply in_sb_s.
    apply to_s_range; [lia|assumption].
  - eapply sound_bind; [apply sound_unsigned|]. intros n Hn. apply sound_ret. cbn [has_type]. now apply N.ltb_lt.
  - eapply sound_bind; [apply sound_unsigned|]. intros n Hn. apply sound_ret. cbn [has_type]. now apply N.ltb_lt.
  - apply (sound_bind (fun n => n < 2 ^ bits w)).
    + destruct (is_native_fixed p o).
      * eapply sound_bind; [apply sound_read_bytes|]. intros h [Ho Hl]. apply sound_ret.
        rewrite pow_bits. now apply of_ne_lt.
      * destruct w; first [apply sound_read_byte|apply sound_unsigned].
    + intros n Hn. cbn beta iota. destruct (n =? 0) eqn:E; [apply sound_err|]. apply sound_ret.
      cbn [has_type]. lia.
  - eapply sound_bind; [apply sound_usize|]. intros n Hn. cbn beta iota.
    eapply sound_bind; [apply sound_read_bytes|]. intros h [Ho Hl]. cbn beta iota.
    destruct (utf8_valid h) eqn:E; [|apply sound_err]. apply sound_ret. cbn.
    rewrite Ho, E. cbn. apply len_ok_lt. now rewrite Hl.
  - eapply sound_bind; [apply sound_usize|]. intros n Hn. cbn beta iota.
    eapply sound_bind; [apply sound_read_bytes|]. intros h [Ho Hl]. apply sound_ret. cbn.
    rewrite Ho. cbn. apply len_ok_lt. now rewrite Hl.
  - eapply sound_bind; [apply sound_read_bytes|]. intros h [Ho Hl]. apply sound_ret. cbn.
    rewrite Ho, Hl, N.eqb_refl. reflexivity.
  - specialize (IHt pk Hw). apply (sel_dec_sound p o) in IHt.
    assert (Hs : snd_t p (TOpt t) (fun bs => let* (v, r) := sel_dec p o t (dec_ p o pk t) bs in Ok (VSome v, r))).
    { eapply sound_bind; [exact IHt|]. intros v Hv. now apply sound_ret. }
    destruct pk.
    + intros bs Hok. specialize (Hs bs Hok). destruct bs; [|exact Hs]. split; [reflexivity|now exists []].
    + eapply sound_bind; [apply sound_read_byte|]. intros b Hb. cbn beta iota.
      destruct (b =? 1); [exact Hs|now apply sound_ret].
  - apply (sel_dec_sound p o t). now apply IHt.
  - destruct (_ && _) eqn:E.
    + apply andb_true_iff in E. destruct E as [_ E].
      eapply sound_bind; [apply sound_read_bytes|]. intros h [Ho Hl]. cbn beta iota.
      eapply sound_bind; [apply count_sound, raw_dec_sound, E|]. intros vs [Hf Hn]. apply sound_ret.
      cbn [has_type]. rewrite Hf. apply len_ok_lt. rewrite Hn, usize_pow. now apply of_ne_lt.
    + unfold dec_seq. apply (sound_bind (fun vs => forallb (has_type p t) vs = true /\ lenN vs < 2 ^ usize_bits p)).
      * eapply sound_bind; [apply sound_usize|]. intros n Hn. cbn beta iota.
        eapply sound_weaken; [|apply count_sound, IHt, Hw]. intros vs [Hf Hl]. split; [assumption|]. cbn beta in *. lia.
      * intros vs [Hf Hl]. apply sound_ret. cbn [has_type]. rewrite Hf. now apply len_ok_lt.
  - destruct Hw as [Hw Hn0].
    eapply sound_bind; [apply sound_usize|]. intros m Hm. cbn beta iota.
    eapply sound_bind; [apply count_sound, (sel_dec_sound p o), IHt, Hw|]. intros vs [Hf Hl]. cbn beta iota.
    destruct (N.eqb_spec m n); [|apply sound_err]. apply sound_ret. cbn [has_type]. rewrite Hf. cbn.
    apply N.eqb_eq. cbn beta in *. lia.
  - eapply sound_bind; [apply sound_usize|]. intros m Hm. cbn beta iota.
    eapply sound_bind; [apply (sound_set p (has_type p t) _ m (sel_dec_sound p o t _ (IHt pk Hw)) Hm)|].
    intros vs Hvs. now apply sound_ret.
  - destruct Hw as [Hw Hl]. rewrite allP_Forall, Forall_forall in Hw. rewrite Forall_forall in H.
    eapply sound_bind; [apply sound_usize|]. intros m Hm. cbn beta iota.
    set (k := N.to_nat (N.min m (lenN ts))).
    eapply sound_bind.
    + apply (sound_list (firstn k (map (has_type p) ts))). rewrite !firstn_map. apply Forall2_map_in.
      intros t Ht. assert (Hin : In t ts) by (rewrite <- (firstn_skipn k ts); apply in_or_app; now left).
      apply (sel_dec_sound p o). apply H; auto.
    + intros vs Hvs. cbn beta iota. destruct (N.eqb_spec m (lenN ts)); [|apply sound_err].
      apply sound_ret. cbn [has_type]. subst k. rewrite firstn_all2 in Hvs; [assumption|].
      rewrite map_length. unfold lenN in *. cbn beta in *. lia.
  - destruct Hw as [Hw1 Hw2].
    eapply sound_bind; [apply sound_usize|]. intros m Hm. cbn beta iota.
    eapply sound_bind; [apply (sound_map p (has_type p t1) (has_type p t2) _ _ m
      (sel_dec_sound p o t1 _ (IHt1 pk Hw1)) (sel_dec_sound p o t2 _ (IHt2 pk Hw2)) Hm)|].
    intros vs Hvs. now apply sound_ret.
  - destruct (_ && _) eqn:E.
    + apply andb_true_iff in E. destruct E as [_ E]. apply (raw_dec_sound p (TPack c fs) E).
    + destruct Hw as (Hw & Hl & Hdef). rewrite allP_Forall, Forall_forall in Hw. rewrite Forall_forall in H.
      eapply sound_bind; [apply (sound_list (map (fun ft => has_type p (snd ft)) fs))|].
      * apply Forall2_map_in. intros ft Hft. apply pack_field_sound. apply H; auto.
      * intros vs Hvs. now apply sound_ret.
  - destruct Hw as (Hwk & Hw & Hl & Hnt & Hnd & Hdef & _). rewrite allP_Forall, Forall_forall in Hw.
    rewrite Forall_forall in H.
    eapply sound_bind; [apply sound_usize|]. intros m Hm. cbn beta iota.
    set (Ps := map (fun ft => has_type p (snd ft)) fs).
    apply (sound_bind (slots_ok Ps)).
    + apply sound_iter_inv.
      * apply (sound_field Ps (fun v => has_type p t v = true)); [now apply IHt|apply sound_err|].
        subst Ps. apply Forall2_map_in. intros ft Hft. apply H; auto.
      * subst Ps. pose proof (slots_ok_none (map (fun ft => has_type p (snd ft)) fs)) as Hs.
        rewrite map_map in Hs. exact Hs.
    + intros s Hs. cbn beta iota.
      apply (sound_res (fun _ => True) (fill (map fst fs) s) (fun vs r => Ok (VList vs, r))).
      * apply fill_no_panic.
      * intros vs Hvs. apply sound_ret. cbn [has_type].
        apply (fill_ok (map fst fs) Ps s); auto.
        { subst Ps. now rewrite !map_length. }
        intros f P d Hin Hd. subst Ps.
        assert (Hex : exists ft, In ft fs /\ f = fst ft /\ P = has_type p (snd ft)).
        { clear - Hin. induction fs as [|ft fs IH]; cbn in Hin; [destruct Hin|].
          destruct Hin as [E|Hin]; [inversion E; subst; exists ft; split; [now left|auto]|].
          destruct (IH Hin) as [x [Hx E]]. exists x. split; [now right|assumption]. }
        destruct Hex as [ft [Hft [-> ->]]]. eauto.
  - destruct Hw as (Hwk & Hnt & _).
    eapply sound_bind; [apply (IHt pk Hwk)|]. intros k Hk. cbn beta iota.
    destruct (find_name k tags) as [i|] eqn:E; [|apply sound_err]. apply sound_ret. cbn [has_type].
    apply Nat.ltb_lt. apply find_name_some in E. apply nth_error_Some. congruence.
  - destruct Hw as (Hwk & Hw & Hnt & _). rewrite allP_Forall, Forall_forall in Hw. rewrite Forall_forall in H.
    apply (sound_bind (fun v => has_type p t v = true)).
    { destruct f; [apply (sel_dec_sound p o)|]; now apply IHt. }
    intros k Hk. cbn beta iota.
    destruct (find_name k (map fst vs)) as [i|] eqn:E; [|apply sound_err].
    rewrite nth_error_map. destruct (nth_error vs i) as [tv|] eqn:Ei; [|apply sound_err].
    cbn [option_map]. pose proof (nth_error_In _ _ Ei) as Hin.
    apply (sound_bind (fun v => has_type p (snd tv) v = true)).
    { destruct f; [apply (sel_dec_sound p o)|]; apply H; auto. }
    intros v Hv. apply sound_ret. cbn [has_type]. rewrite nth_error_map, Ei. exact Hv.
Qed.

(** ** Encodings mark their end *)

Lemma raw_dec_ext p t : extends (raw_dec p t).
Proof.
  induction t using ty_ind'; cbn [raw_dec]; try apply extends_err; try apply extends_ret.
  all: try (apply ext_bind; [apply read_bytes_ext|]; intros h; apply extends_ret).
  - apply ext_bind; [now apply ext_count|]. intros; apply extends_ret.
  - apply ext_bind; [|intros; apply extends_ret]. apply ext_list, Forall_map_in.
    rewrite Forall_forall in H. auto.
Qed.

Lemma sel_dec_ext p o t d : extends d -> extends (sel_dec p o t d).
Proof. intros H. unfold sel_dec. destruct (_ && _); [apply raw_dec_ext|assumption]. Qed.

Lemma dec_ext p o t : forall pk, delimited pk t = true -> extends (dec_ p o pk t).
Proof.
  induction t using ty_ind'; intros pk Hd; cbn [delimited] in Hd; cbn [dec_].
  - apply ext_bind; [apply decode_usize_ext|]. intros n. cbn beta iota.
    destruct (n =? 0); [apply extends_ret|apply extends_err].
  - apply ext_bind; [apply read_byte_ext|]. intros b. cbn beta iota.
    destruct b as [|[q|q|]]; first [apply extends_err|apply extends_ret].
  - apply ext_bind; [apply decode_unsigned_ext|]. intros n. cbn beta iota.
    destruct (char_valid n); [apply extends_ret|apply extends_err].
  - destruct w; (apply ext_bind; [first [apply read_byte_ext|apply decode_unsigned_ext]|]); intros n; apply extends_ret.
  - destruct w; (apply ext_bind; [first [apply read_byte_ext|apply decode_signed_ext]|]); intros n; apply extends_ret.
  - apply ext_bind; [apply decode_usize_ext|]. intros n. apply extends_ret.
  - apply ext_bind; [apply decode_usize_ext|]. intros n. apply extends_ret.
  - apply ext_bind; [apply decode_unsigned_ext|]. intros n. apply extends_ret.
  - apply ext_bind; [apply decode_unsigned_ext|]. intros n. apply extends_ret.
  - apply ext_bind.
    + destruct (is_native_fixed p o).
      * apply ext_bind; [apply read_bytes_ext|]. intros h. apply extends_ret.
      * destruct w; first [apply read_byte_ext|apply decode_unsigned_ext].
    + intros n. cbn beta iota. destruct (n =? 0); [apply extends_err|apply extends_ret].
  - apply ext_bind; [apply decode_usize_ext|]. intros n. cbn beta iota.
    apply ext_bind; [apply read_bytes_ext|]. intros h. cbn beta iota.
    destruct (utf8_valid h); [apply extends_ret|apply extends_err].
  - apply ext_bind; [apply decode_usize_ext|]. intros n. cbn beta iota.
    apply ext_bind; [apply read_bytes_ext|]. intros h. apply extends_ret.
  - apply ext_bind; [apply read_bytes_ext|]. intros h. apply extends_ret.
  - apply andb_true_iff in Hd. destruct Hd as [Hp Hd]. destruct pk; [discriminate|].
    specialize (IHt false Hd). apply (sel_dec_ext p o t) in IHt.
    apply ext_bind; [apply read_byte_ext|]. intros b. cbn beta iota.
    destruct (b =? 1); [|apply extends_ret].
    apply ext_bind; [exact IHt|]. intros v. apply extends_ret.
  - apply sel_dec_ext. now apply IHt.
  - destruct (_ && _).
    + apply ext_bind; [apply read_bytes_ext|]. intros h. cbn beta iota.
      apply ext_bind; [apply ext_count, raw_dec_ext|]. intros vs. apply extends_ret.
    + apply ext_bind; [|intros; apply extends_ret]. unfold dec_seq.
      apply ext_bind; [apply decode_usize_ext|]. intros n. cbn beta iota. now apply ext_count, IHt.
  - apply ext_bind; [apply decode_usize_ext|]. intros m. cbn beta iota.
    apply ext_bind; [apply ext_count, sel_dec_ext, IHt, Hd|]. intros vs. cbn beta iota.
    destruct (m =? n); [apply extends_ret|apply extends_err].
  - apply ext_bind; [apply decode_usize_ext|]. intros m. cbn beta iota.
    apply ext_bind; [|intros; apply extends_ret].
    apply (ext_iter (set_step (sel_dec p o t (dec_ p o pk t)))). intros s. unfold set_step. cbn [fst snd].
    apply ext_bind; [apply sel_dec_ext, IHt, Hd|]. intros; apply extends_ret.
  - rewrite forallb_forall in Hd. rewrite Forall_forall in H.
    apply ext_bind; [apply decode_usize_ext|]. intros m. cbn beta iota.
    apply ext_bind.
    + apply ext_list, Forall_firstn, Forall_map_in. intros t Ht. apply sel_dec_ext, H; auto.
    + intros vs. cbn beta iota. destruct (m =? lenN ts); [apply extends_ret|apply extends_err].
  - apply andb_true_iff in Hd. destruct Hd as [Hd1 Hd2].
    apply ext_bind; [apply decode_usize_ext|]. intros m. cbn beta iota.
    apply ext_bind; [|intros; apply extends_ret].
    apply (ext_iter (map_step (sel_dec p o t1 (dec_ p o pk t1)) (sel_dec p o t2 (dec_ p o pk t2)))).
    intros s. unfold map_step. cbn [fst snd].
    apply ext_bind; [apply sel_dec_ext, IHt1, Hd1|]. intros k. cbn beta iota.
    apply ext_bind; [apply sel_dec_ext, IHt2, Hd2|]. intros; apply extends_ret.
  - destruct (_ && _); [apply (raw_dec_ext p (TPack c fs))|].
    rewrite forallb_forall in Hd. rewrite Forall_forall in H.
    apply ext_bind; [|intros; apply extends_ret]. apply ext_list, Forall_map_in. intros ft Hft.
    unfold pack_field. apply H; auto.
  - apply andb_true_iff in Hd. destruct Hd as [Hdk Hd].
    rewrite forallb_forall in Hd. rewrite Forall_forall in H.
    apply ext_bind; [apply decode_usize_ext|]. intros m. cbn beta iota.
    apply ext_bind.
    + apply ext_iter. apply ext_field; [now apply IHt|apply extends_err|].
      apply Forall_map_in. intros ft Hft. apply H; auto.
    + intros s bs v rest ext Hb. cbn beta iota in *. inv_bind Hb. rewrite Hb0. cbn [bind]. now inversion Hb.
  - apply ext_bind; [now apply IHt|]. intros k. cbn beta iota.
    destruct (find_name k tags); [apply extends_ret|apply extends_err].
  - apply andb_true_iff in Hd. destruct Hd as [Hdk Hd].
    rewrite forallb_forall in Hd. rewrite Forall_forall in H.
    apply ext_bind; [destruct f; [apply sel_dec_ext|]; now apply IHt|]. intros k. cbn beta iota.
    destruct (find_name k (map fst vs)) as [i|]; [|apply extends_err].
    rewrite nth_error_map. destruct (nth_error vs i) as [tv|] eqn:Ei; [|apply extends_err].
    cbn [option_map]. apply nth_error_In in Ei.
    apply ext_bind; [destruct f; [apply sel_dec_ext|]; apply H; auto|]. intros; apply extends_ret.
Qed.

(** ** Consequences *)

Lemma forallb_last_tail {A} (f g : A -> bool -> bool) l tail :
  (forall x b, In x l -> g x b = true) -> last_tail tail (map g l) = true.
Proof.
  induction l as [|x l IH]; intros H; [reflexivity|]. destruct l as [|y l].
  - cbn. apply H. now left.
  - cbn [map last_tail]. rewrite H by now left. cbn. apply IH. intros z b Hz. apply H. now right.
Qed.

Lemma delimited_posok nf t : forall pk tail, delimited pk t = true -> posok nf pk tail t = true.
Proof.
  induction t using ty_ind'; intros pk tail Hd; cbn [delimited] in Hd; cbn [posok]; auto.
  - apply andb_true_iff in Hd. destruct Hd as [Hp Hd]. destruct pk; [discriminate|]. cbn. auto.
  - apply (forallb_last_tail (fun _ _ => true)). rewrite forallb_forall in Hd. rewrite Forall_forall in H.
    intros x b Hx. auto.
  - apply andb_true_iff in Hd. destruct Hd as [Hd1 Hd2]. rewrite IHt1, IHt2 by assumption. reflexivity.
  - apply (forallb_last_tail (fun _ _ => true)). rewrite forallb_forall in Hd. rewrite Forall_forall in H.
    intros ft b Hft. apply H; auto.
  - apply andb_true_iff in Hd. destruct Hd as [Hd1 Hd2]. rewrite IHt by assumption. cbn.
    rewrite forallb_forall in *. rewrite Forall_forall in H. auto.
  - apply andb_true_iff in Hd. destruct Hd as [Hd1 Hd2]. rewrite IHt by assumption. cbn.
    rewrite forallb_forall in *. rewrite Forall_forall in H. auto.
Qed.

Lemma dec_no_panic p o pk t bs : wf p t -> bytes_ok bs = true -> dec_ p o pk t bs <> Panic.
Proof.
  intros Hw Hok H. pose proof (dec_sound p o t pk Hw bs Hok) as Hs. rewrite H in Hs. exact Hs.
Qed.

Lemma prefix_error p o pk t v bs pre ext :
  wf p t -> delimited pk t = true -> fast_ok p o t -> has_type p t v = true ->
  enc p o pk t v = Ok bs -> bytes_ok bs = true ->
  bs = pre ++ ext -> ext <> [] -> dec_ p o pk t pre = Err.
Proof.
  intros Hw Hd Hf Hv He Hok Hbs Hx.
  pose proof (roundtrip p o pk false t Hw (delimited_posok _ t pk false Hd) Hf v bs [] Hv) as Hr.
  rewrite app_nil_r in Hr.
  apply (extends_prefix_err (dec_ p o pk t) bs v pre ext); auto.
  - now apply dec_ext.
  - apply dec_no_panic; [assumption|]. subst bs. rewrite bytes_ok_app in Hok. now apply andb_true_iff in Hok.
Qed.

Lemma unambiguous p o pk t v1 v2 b1 b2 r1 r2 :
  wf p t -> posok (is_native_fixed p o) pk false t = true -> fast_ok p o t ->
  has_type p t v1 = true -> has_type p t v2 = true ->
  enc p o pk t v1 = Ok b1 -> enc p o pk t v2 = Ok b2 ->
  b1 ++ r1 = b2 ++ r2 -> v1 = v2 /\ r1 = r2.
Proof.
  intros Hw Hp Hf H1 H2 E1 E2 E.
  pose proof (roundtrip p o pk false t Hw Hp Hf v1 b1 r1 H1) as R1.
  pose proof (roundtrip p o pk false t Hw Hp Hf v2 b2 r2 H2) as R2.
  specialize (R1 ltac:(discriminate) E1). specialize (R2 ltac:(discriminate) E2).
  rewrite E, R2 in R1. inversion R1. auto.
Qed.

(** *** Element counts *)

Lemma dec_count_split d n m bs : dec_count (n + m) d bs =
  let* (a, r) := dec_count n d bs in let* (b, r') := dec_count m d r in Ok (a ++ b, r').
Proof.
  revert bs. induction n as [|n IH] using N.peano_ind; intros bs.
  - rewrite N.add_0_l, dec_count_nil. cbn [bind]. destruct (dec_count m d bs) as [[b r]| |]; reflexivity.
  - rewrite N.add_succ_l, !dec_count_succ.
    destruct (d bs) as [[v r]| |]; cbn [bind]; try reflexivity. rewrite IH.
    destruct (dec_count n d r) as [[a r']| |]; cbn [bind]; try reflexivity.
    destruct (dec_count m d r') as [[b r'']| |]; reflexivity.
Qed.

Lemma array_count p o pk n t vs bs rest :
  wf p t -> posok (is_native_fixed p o) pk false t = true -> fast_ok p o (TVec t) ->
  has_type p (TVec t) (VList vs) = true ->
  enc p o pk (TVec t) (VList vs) = Ok bs ->
  dec_ p o pk (TArray n t) (bs ++ rest) =
    if lenN vs =? n then Ok (VList vs, rest) else Err.
Proof.
  intros Hw Hp Hf Hv He.
  assert (Hn : native_ok p o) by (intros E; now apply Hf).
  assert (Hc : is_native_fixed p o = true -> coh true t = true).
  { intros E. destruct (Hf E) as [_ H]. cbn in H. now destruct t. }
  destruct (RT_all p o Hn t pk false Hw Hp) as [_ IHf]. specialize (IHf Hc).
  cbn [has_type] in Hv. apply andb_true_iff in Hv. destruct Hv as [Hv Hl].
  cbn [enc] in He. rewrite enc_seq_eq in He by assumption.
  inv_bind He. inv_bind He. inversion He; subst. clear He.
  apply len_ok_lt in Hl. cbn [dec_]. rewrite <- app_assoc, (usize_roundtrip p o _ _ _ Hl He0). cbn [bind].
  fold (dec_fast p o pk t).
  pose proof (dec_count_rt _ _ _ IHf vs a0 rest Hv He1) as Hd.
  destruct (N.eqb_spec (lenN vs) n) as [<-|Hne].
  - rewrite N.min_id, Hd. reflexivity.
  - assert (Hs : exists x r, dec_count (N.min (lenN vs) n) (dec_fast p o pk t) (a0 ++ rest) = Ok (x, r)).
    { replace (lenN vs) with (N.min (lenN vs) n + (lenN vs - N.min (lenN vs) n)) in Hd by lia.
      rewrite dec_count_split in Hd. inv_bind Hd. destruct a1 as [x r]. eauto. }
    destruct Hs as [x [r Hs]]. rewrite Hs. reflexivity.
Qed.

(** Whatever follows, a count that is not the right one is an error. *)
Lemma array_wrong_count p o pk n t m l body :
  wf p (TArray n t) -> m < 2 ^ usize_bits p -> encode_usize p o m = Ok l -> m <> n ->
  bytes_ok body = true -> dec_ p o pk (TArray n t) (l ++ body) = Err.
Proof.
  intros Hw Hm Hl Hne Hok.
  pose proof (dec_no_panic p o pk (TArray n t) (l ++ body) Hw) as Hp.
  rewrite bytes_ok_app, (encode_usize_bytes_ok p o m l Hl), Hok in Hp. specialize (Hp eq_refl).
  revert Hp. cbn [dec_]. rewrite (usize_roundtrip p o _ _ _ Hm Hl). cbn [bind].
  destruct (dec_count _ _ body) as [[x r]| |]; cbn [bind]; [|reflexivity|congruence].
  destruct (N.eqb_spec m n); [contradiction|reflexivity].
Qed.

Lemma tuple_wrong_count p o pk ts m l body :
  wf p (TTup ts) -> m < 2 ^ usize_bits p -> encode_usize p o m = Ok l -> m <> lenN ts ->
  bytes_ok body = true -> dec_ p o pk (TTup ts) (l ++ body) = Err.
Proof.
  intros Hw Hm Hl Hne Hok.
  pose proof (dec_no_panic p o pk (TTup ts) (l ++ body) Hw) as Hp.
  rewrite bytes_ok_app, (encode_usize_bytes_ok p o m l Hl), Hok in Hp. specialize (Hp eq_refl).
  revert Hp. cbn [dec_]. rewrite (usize_roundtrip p o _ _ _ Hm Hl). cbn [bind].
  destruct (dec_list _ body) as [[x r]| |]; cbn [bind]; [|reflexivity|congruence].
  destruct (N.eqb_spec m (lenN ts)); [contradiction|reflexivity].
Qed.

(** *** Adding fields at the end of a packed struct *)

Lemma dec_list_app ds1 ds2 bs : dec_list (ds1 ++ ds2) bs =
  let* (a, r) := dec_list ds1 bs in let* (b, r') := dec_list ds2 r in Ok (a ++ b, r').
Proof.
  revert bs. induction ds1 as [|d ds1 IH]; intros bs; cbn [dec_list app].
  - cbn [bind]. destruct (dec_list ds2 bs) as [[b r]| |]; reflexivity.
  - destruct (d bs) as [[v r]| |]; cbn [bind]; try reflexivity. rewrite IH.
    destruct (dec_list ds1 r) as [[a r']| |]; cbn [bind]; try reflexivity.
    destruct (dec_list ds2 r') as [[b r'']| |]; reflexivity.
Qed.

Lemma pack_rts p o tail c fs : is_native_fixed p o && bw_enc (TPack c fs) = false ->
  wf p (TPack c fs) -> posok (is_native_fixed p o) true tail (TPack c fs) = true ->
  fast_ok p o (TPack c fs) ->
  rts tail (map (fun ft => has_type p (snd ft)) fs) (map (fun ft => enc p o true (snd ft)) fs)
    (map (fun ft => pack_field (fst ft) (dec_ p o true (snd ft))) fs).
Proof.
  intros E Hw Hp Hf. assert (Hn : native_ok p o) by (intros En; now apply Hf).
  cbn [wf posok] in Hw, Hp. destruct Hw as [Hw [Hl Hdef]]. rewrite allP_Forall, Forall_forall in Hw.
  apply (rts_map_tail fs (fun ft => has_type p (snd ft)) (fun ft => enc p o true (snd ft))
          (fun ft => pack_field (fst ft) (dec_ p o true (snd ft))) tail
          (fun ft b => posok (is_native_fixed p o) true b (snd ft)) Hp).
  intros ft b Hft Hb.
  destruct (RT_all p o Hn (snd ft) true b (Hw ft Hft) Hb) as [Hd _].
  apply Hd. intros En. destruct (Hf En) as [_ Hc]. cbn [coh andb] in Hc. rewrite En in E. cbn [andb] in E.
  rewrite E in Hc. rewrite forallb_forall in Hc. exact (Hc ft Hft).
Qed.

Lemma pack_absent p o (extra : list (option val * ty)) :
  (forall ft, In ft extra -> exists t, snd ft = TOpt t) ->
  dec_list (map (fun ft => pack_field (fst ft) (dec_ p o true (snd ft))) extra) [] =
    Ok (map (fun _ => VNone) extra, []).
Proof.
  induction extra as [|ft extra IH]; intros H; [reflexivity|].
  destruct (H ft (or_introl eq_refl)) as [t Ht]. cbn [map dec_list]. unfold pack_field at 1.
  rewrite Ht. cbn [dec_ bind]. rewrite IH by (intros x Hx; apply H; now right). reflexivity.
Qed.

Lemma pack_new_reads_old p o c c' fs extra vs bs :
  is_native_fixed p o && bw_enc (TPack c fs) = false ->
  wf p (TPack c fs) -> posok (is_native_fixed p o) true true (TPack c fs) = true ->
  fast_ok p o (TPack c fs) ->
  extra <> [] -> (forall ft, In ft extra -> exists t, snd ft = TOpt t) ->
  has_type p (TPack c fs) (VList vs) = true ->
  packed_encode p o (TPack c fs) (VList vs) = Ok bs ->
  packed_decode p o (TPack c' (fs ++ extra)) bs = Ok (VList (vs ++ map (fun _ => VNone) extra), []).
Proof.
  intros E1 Hw Hp Hf Hne Hx Hv He.
  assert (E2 : is_native_fixed p o && bw_dec (TPack c' (fs ++ extra)) = false).
  { cbn [bw_dec]. rewrite forallb_app. destruct extra as [|ft extra]; [congruence|].
    destruct (Hx ft (or_introl eq_refl)) as [t Ht]. cbn [forallb]. rewrite Ht. cbn [bw_dec andb].
    rewrite !andb_false_r. reflexivity. }
  pose proof (dec_list_rt _ _ _ _ (pack_rts p o true c fs E1 Hw Hp Hf) vs bs [] Hv (fun _ => eq_refl)) as Hr.
  unfold packed_encode in He. cbn [enc] in He. rewrite E1 in He. specialize (Hr He).
  rewrite app_nil_r in Hr.
  unfold packed_decode. cbn [dec_]. rewrite E2.
  rewrite map_app, dec_list_app, Hr. cbn [bind].
  rewrite (pack_absent p o extra Hx). reflexivity.
Qed.

Lemma enc_list_app es1 es2 vs1 vs2 bs : length es1 = length vs1 ->
  enc_list (es1 ++ es2) (vs1 ++ vs2) = Ok bs ->
  exists b1 b2, enc_list es1 vs1 = Ok b1 /\ enc_list es2 vs2 = Ok b2 /\ bs = b1 ++ b2.
Proof.
  revert vs1 bs. induction es1 as [|e es1 IH]; intros [|v vs1] bs Hl H; try discriminate.
  - exists [], bs. auto.
  - cbn in H. inv_bind H. inv_bind H. inversion H; subst. inversion Hl.
    destruct (IH vs1 a0 H3 H1) as (b1 & b2 & E1 & E2 & ->).
    exists (a ++ b1), b2. cbn. rewrite H0. cbn. rewrite E1. cbn. rewrite app_assoc. auto.
Qed.

Lemma pack_old_reads_new p o c c' fs extra vs ws bs :
  is_native_fixed p o && bw_enc (TPack c fs) = false ->
  is_native_fixed p o && bw_dec (TPack c fs) = false ->
  is_native_fixed p o && bw_enc (TPack c' (fs ++ extra)) = false ->
  wf p (TPack c fs) -> posok (is_native_fixed p o) true false (TPack c fs) = true ->
  fast_ok p o (TPack c fs) ->
  has_type p (TPack c fs) (VList vs) = true ->
  packed_encode p o (TPack c' (fs ++ extra)) (VList (vs ++ ws)) = Ok bs ->
  exists rest, packed_decode p o (TPack c fs) bs = Ok (VList vs, rest).
Proof.
  intros E1 E2 E3 Hw Hp Hf Hv He.
  unfold packed_encode in He. cbn [enc] in He. rewrite E3, map_app in He.
  cbn [has_type] in Hv.
  apply enc_list_app in He.
  2:{ apply all2_length in Hv. rewrite !map_length in *. assumption. }
  destruct He as (b1 & b2 & Hb1 & _ & ->). exists b2.
  unfold packed_decode. cbn [dec_]. rewrite E2.
  rewrite (dec_list_rt _ _ _ _ (pack_rts p o false c fs E1 Hw Hp Hf) vs b1 b2 Hv) by (discriminate || assumption).
  reflexivity.
Qed.
