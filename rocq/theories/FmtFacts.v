(** Facts about [genc]/[gdec] for any format whose methods satisfy some laws. *)
From Verif Require Import Base Options Int Utf8 Types Storage StorageSpec Fmt FmtSpec
  BaseFacts IntFacts TypesFacts StorageFacts DecFacts StorageSafe StabFacts.
From Coq Require Import ZifyBool ZifyNat ZifyN.
Local Open Scope N_scope.

(** ** Contents of packed structs *)

Lemma pack_body_rts p o fs : native_ok p o ->
  (is_native_fixed p o = true -> forallb (fun ft => coh false (snd ft)) fs = true) ->
  allP (map (fun ft => wf p (snd ft)) fs) ->
  pack_pos (is_native_fixed p o) fs = true ->
  rts true (map (fun ft => has_type p (snd ft)) fs) (map (fun ft => enc p o true (snd ft)) fs)
    (map (fun ft => pack_field (fst ft) (dec_ p o true (snd ft))) fs).
Proof.
  intros Hn Hc Hw Hp. rewrite allP_Forall, Forall_forall in Hw.
  apply (rts_map_tail fs (fun ft => has_type p (snd ft)) (fun ft => enc p o true (snd ft))
          (fun ft => pack_field (fst ft) (dec_ p o true (snd ft))) true
          (fun ft b => posok (is_native_fixed p o) true b (snd ft)) Hp).
  intros ft b Hft Hb.
  destruct (RT_all p o Hn (snd ft) true b (Hw ft Hft) Hb) as [Hd _].
  apply Hd. intros En. specialize (Hc En). rewrite forallb_forall in Hc. exact (Hc ft Hft).
Qed.

Lemma limited_rt n b rest body vs : lenN b = n -> body b = Ok (vs, []) ->
  limited n body (b ++ rest) = Ok (VList vs, rest).
Proof. intros <- Hb. unfold limited. rewrite take_opt_app, Hb. reflexivity. Qed.

Lemma count_fields_le (gs : list finfo) ws : count_fields gs ws <= lenN gs.
Proof.
  revert ws. induction gs as [|g gs IHg]; intros ws; [destruct ws; cbn; lia|].
  destruct ws as [|w ws]; cbn [count_fields]; rewrite lenN_cons; [lia|].
  specialize (IHg ws). destruct (fskip g w); lia.
Qed.

Lemma map_combine_fields {A} (g : finfo * ty -> A) fs :
  map (fun ft => (fst ft, g ft)) fs = combine (map fst fs) (map g fs).
Proof. induction fs as [|ft fs IH]; cbn; [reflexivity|]. now rewrite IH. Qed.

(** ** Round trip *)

Record rt_laws (F : fmt) (p : plat) : Prop := {
  l_leaf : forall t, leaf t = true -> wf p t ->
    rt false (has_type p t) (f_leaf_enc F t) (f_leaf_dec F t);
  l_seq : forall n b rest, n < 2 ^ usize_bits p -> f_seq_enc F n = Ok b ->
    f_seq_dec F (b ++ rest) = Ok (n, rest);
  l_map : forall n b rest, n < 2 ^ usize_bits p -> f_map_enc F n = Ok b ->
    f_map_dec F (b ++ rest) = Ok (n, rest);
  l_pack : forall n b rest, n < 2 ^ usize_bits p -> f_pack_enc F n = Ok b ->
    f_pack_dec F (b ++ rest) = Ok (n, rest);
  l_none : forall rest, f_opt_dec F (f_none F ++ rest) = Ok (false, rest);
  l_some : forall rest, f_opt_dec F (f_some F ++ rest) = Ok (true, rest);
  l_var : forall rest, f_var_dec F (f_var F ++ rest) = Ok (tt, rest);
  l_rest0 : forall bs, f_skip_rest F 0 bs = Ok (tt, bs)
}.

Section RoundTrip.
  Variables (F : fmt) (p : plat) (o : N).
  Hypothesis L : rt_laws F p.
  Notation nf := (is_native_fixed p o).
  Notation COH := (fun fs => native_order p o && forallb (fun ft => coh false (snd ft)) fs).

  Definition GRT (t : ty) : Prop :=
    wf p t -> packs (pack_pos nf) t = true ->
    (nf = true -> packs COH t = true) ->
    rt false (has_type p t) (genc F p o t) (gdec F p o t).

  Lemma GRT_all t : GRT t.
  Proof.
    pose proof (usize_bits_ge p) as Hub.
    induction t using ty_ind'; intros Hw Hp Hc;
      try (match goal with |- rt _ (has_type p ?t) _ _ => exact (l_leaf F p L t eq_refl Hw) end);
      cbn [wf packs] in Hw, Hp, Hc; intros v bs rest Hv _ He; cbn [genc] in He; cbn [gdec]; cbn [has_type] in Hv.
    - (* option *)
      specialize (IHt Hw Hp Hc). destruct v; try discriminate.
      + inversion He; subst. rewrite (l_none F p L). reflexivity.
      + inv_bind He. inversion He; subst. rewrite <- app_assoc, (l_some F p L). cbn [bind].
        rewrite (IHt v) by (assumption || discriminate). reflexivity.
    - exact (IHt Hw Hp Hc v bs rest Hv ltac:(discriminate) He).
    - (* vec *)
      specialize (IHt Hw Hp Hc). destruct v; try discriminate.
      apply andb_true_iff in Hv. destruct Hv as [Hv Hl]. apply len_ok_lt in Hl.
      inv_bind He. inv_bind He. inversion He; subst.
      rewrite <- app_assoc, (l_seq F p L _ _ _ Hl He0). cbn [bind].
      rewrite (dec_count_rt _ _ _ IHt vs _ rest Hv He1). reflexivity.
    - (* array *)
      destruct Hw as [Hw Hln]. specialize (IHt Hw Hp Hc). destruct v; try discriminate.
      apply andb_true_iff in Hv. destruct Hv as [Hv Hl]. apply N.eqb_eq in Hl. subst n.
      inv_bind He. inv_bind He. inversion He; subst.
      rewrite <- app_assoc, (l_seq F p L _ _ _ Hln He0). cbn [bind].
      replace (N.min (lenN vs) (lenN vs + 1)) with (lenN vs) by lia.
      rewrite (dec_count_rt _ _ _ IHt vs _ rest Hv He1). cbn [bind]. rewrite N.eqb_refl. reflexivity.
    - (* set *)
      specialize (IHt Hw Hp Hc). destruct v; try discriminate.
      rewrite !andb_true_iff in Hv. destruct Hv as [[Hv Hl] Hd]. apply len_ok_lt in Hl.
      inv_bind He. inv_bind He. inversion He; subst.
      rewrite <- app_assoc, (l_seq F p L _ _ _ Hl He0). cbn [bind].
      apply distinct_NoDup in Hd.
      pose proof (dec_set_rt _ _ _ IHt vs a0 rest [] Hv Hd He1) as Hs.
      match goal with |- bind ?x _ = _ => replace x with (@Ok (list val * bytes) (vs, rest)) by (symmetry; exact Hs) end.
      reflexivity.
    - (* tuple *)
      destruct Hw as [Hw Hl]. rewrite allP_Forall, Forall_forall in Hw. apply len_ok_lt in Hl.
      rewrite Forall_forall in H. rewrite forallb_forall in Hp.
      destruct v; try discriminate. inv_bind He. inv_bind He. inversion He; subst.
      rewrite <- app_assoc, (l_seq F p L _ _ _ Hl He0). cbn [bind].
      rewrite N.ltb_irrefl.
      rewrite (dec_list_rt false (map (has_type p) ts) (map (genc F p o) ts) (map (gdec F p o) ts)) with (vs := vs);
        [|apply (rts_map ts (has_type p) (genc F p o) (gdec F p o))|assumption|discriminate|assumption].
      + cbn [bind]. rewrite N.sub_diag, (l_rest0 F p L). reflexivity.
      + intros t Ht. apply H; auto. intros E. specialize (Hc E). rewrite forallb_forall in Hc. auto.
    - (* map *)
      destruct Hw as [Hw1 Hw2]. apply andb_true_iff in Hp. destruct Hp as [Hp1 Hp2].
      assert (Hc1 : nf = true -> packs COH t1 = true)
        by (intros E; specialize (Hc E); now apply andb_true_iff in Hc).
      assert (Hc2 : nf = true -> packs COH t2 = true)
        by (intros E; specialize (Hc E); now apply andb_true_iff in Hc).
      specialize (IHt1 Hw1 Hp1 Hc1). specialize (IHt2 Hw2 Hp2 Hc2). destruct v; try discriminate.
      rewrite !andb_true_iff in Hv. destruct Hv as [[Hv Hl] Hd]. apply len_ok_lt in Hl.
      inv_bind He. inv_bind He. inversion He; subst.
      rewrite <- app_assoc, (l_map F p L _ _ _ Hl He0). cbn [bind].
      apply distinct_NoDup in Hd.
      pose proof (dec_map_rt _ _ _ _ _ _ IHt1 IHt2 kvs a0 rest [] Hv Hd He1) as Hs.
      match goal with |- bind ?x _ = _ => replace x with (@Ok (list (val * val) * bytes) (kvs, rest)) by (symmetry; exact Hs) end.
      reflexivity.
    - (* packed struct *)
      destruct Hw as [Hw _]. destruct v; try discriminate. inv_bind He.
      destruct (lenN a <? 2 ^ usize_bits p) eqn:El; [|discriminate]. inv_bind He. inversion He; subst.
      rewrite <- app_assoc, (l_pack F p L (lenN a) a0 _ ltac:(lia) He1). cbn [bind].
      apply limited_rt; [reflexivity|].
      rewrite <- (app_nil_r a).
      assert (Hn : native_ok p o).
      { intros E. specialize (Hc E). apply andb_true_iff in Hc. destruct Hc as [Hc _]. unfold native_order in Hc.
        destruct (byteorder_value o), (native_bo p); congruence. }
      assert (Hc' : nf = true -> forallb (fun ft => coh false (snd ft)) fs = true).
      { intros E. specialize (Hc E). now apply andb_true_iff in Hc. }
      apply (dec_list_rt true _ _ _ (pack_body_rts p o fs Hn Hc' Hw Hp) vs a []); auto.
    - (* struct *)
      destruct Hw as (Hwk & Hw & Hl & Hnt & Hnd & Hdef & Hskip).
      rewrite allP_Forall, Forall_forall in Hw. apply len_ok_lt in Hl. rewrite Forall_forall in H.
      apply andb_true_iff in Hp. destruct Hp as [Hpk Hp]. rewrite forallb_forall in Hp.
      assert (Hck : nf = true -> packs COH t = true)
        by (intros E; specialize (Hc E); now apply andb_true_iff in Hc).
      assert (Hcf : nf = true -> forall ft, In ft fs -> packs COH (snd ft) = true).
      { intros E. specialize (Hc E). apply andb_true_iff in Hc. destruct Hc as [_ Hc]. now rewrite forallb_forall in Hc. }
      specialize (IHt Hwk Hpk Hck).
      destruct v; try discriminate. inv_bind He. inv_bind He. inversion He; subst. clear He.
      assert (Hlt : count_fields (map fst fs) vs < 2 ^ usize_bits p).
      { pose proof (count_fields_le (map fst fs) vs) as Hcnt. unfold lenN in *. rewrite map_length in Hcnt. lia. }
      rewrite <- app_assoc, (l_map F p L _ _ _ Hlt He0). cbn [bind].
      destruct fs as [|ft0 fs'] eqn:Efs.
      { destruct vs; [|discriminate]. cbn in He1. inversion He1; subst. reflexivity. }
      rewrite <- Efs in *. clear Efs ft0 fs'.
      pose proof (dec_fields_rt (has_type p t) (genc F p o t) (gdec F p o t) (f_skip F) IHt
        (map fst fs) (map (fun ft => genc F p o (snd ft)) fs) (map (fun ft => gdec F p o (snd ft)) fs)
        (map (fun ft => has_type p (snd ft)) fs) vs a0 rest [] [] []) as Hd.
      cbn [app] in Hd. rewrite !map_map in Hd.
      match goal with |- bind ?x _ = _ =>
        assert (Hx : x = Ok (written (map fst fs) vs, rest)) end.
      { apply Hd; try reflexivity; try assumption; clear Hd.
        - clear - Hnt. induction fs as [|ft fs IHf]; cbn in *; [reflexivity|].
          apply andb_true_iff in Hnt. destruct Hnt as [H1 H2]. rewrite H1. now apply IHf.
        - now apply distinct_NoDup.
        - now rewrite !map_length.
        - apply (rts_map fs (fun ft => has_type p (snd ft)) (fun ft => genc F p o (snd ft))
                   (fun ft => gdec F p o (snd ft)) false).
          intros ft Hft. apply H; auto.
        - rewrite <- He1. f_equal. symmetry. apply (map_combine_fields (fun ft => genc F p o (snd ft))). }
      rewrite Hx. cbn [bind]. rewrite fill_written; [reflexivity| |].
      + apply all2_length in Hv. rewrite map_length in *. assumption.
      + intros f v Hf Hs. rewrite in_map_iff in Hf. destruct Hf as [ft [<- Hft]]. eauto.
    - (* tag *)
      destruct Hw as (Hwk & Hnt & Hnd). specialize (IHt Hwk Hp Hc).
      destruct v as [| | | | | | | | |i v]; try discriminate. destruct v; try discriminate.
      destruct (nth_error tags i) as [k|] eqn:Ek; [|discriminate]. rewrite forallb_forall in Hnt.
      rewrite (IHt k bs rest (Hnt k (nth_error_In _ _ Ek)) ltac:(discriminate) He). cbn [bind].
      rewrite (find_name_nth tags i k); [reflexivity|now apply distinct_NoDup|assumption].
    - (* enum *)
      destruct Hw as (Hwk & Hw & Hnt & Hnd).
      rewrite allP_Forall, Forall_forall in Hw. rewrite forallb_forall in Hnt. rewrite Forall_forall in H.
      apply andb_true_iff in Hp. destruct Hp as [Hpk Hp]. rewrite forallb_forall in Hp.
      assert (Hck : nf = true -> packs COH t = true)
        by (intros E; specialize (Hc E); now apply andb_true_iff in Hc).
      specialize (IHt Hwk Hpk Hck).
      destruct v as [| | | | | | | | |i v]; try discriminate. rewrite nth_error_map in Hv, He.
      destruct (nth_error vs i) as [tv|] eqn:Ei; [|discriminate]. cbn [option_map] in Hv, He.
      pose proof (nth_error_In _ _ Ei) as Hin.
      inv_bind He. inv_bind He. inversion He; subst. clear He.
      rewrite <- !app_assoc, (l_var F p L). cbn [bind].
      rewrite (IHt (fst tv) a (a0 ++ rest) (Hnt tv Hin)) by (assumption || discriminate). cbn [bind].
      rewrite (find_name_nth (map fst vs) i (fst tv)).
      + rewrite nth_error_map, Ei. cbn [option_map].
        rewrite (H tv Hin (Hw tv Hin) (Hp tv Hin)) with (v := v); [reflexivity| |assumption|discriminate|assumption].
        intros E. specialize (Hc E). apply andb_true_iff in Hc. destruct Hc as [_ Hc].
        rewrite forallb_forall in Hc. exact (Hc tv Hin).
      + now apply distinct_NoDup.
      + rewrite nth_error_map, Ei. reflexivity.
  Qed.
End RoundTrip.

Lemma g_roundtrip F p o t : rt_laws F p -> wf p t -> packs_ok p o t ->
  rt false (has_type p t) (genc F p o t) (gdec F p o t).
Proof.
  intros L Hw [Hp Hf]. now apply GRT_all.
Qed.

(** Without packed structs there is nothing to require. *)
Lemma packs_none P t : packs (fun _ => false) t = true -> packs P t = true.
Proof.
  induction t using ty_ind'; cbn [packs]; auto; rewrite ?andb_true_iff; try tauto; try discriminate.
  - rewrite !forallb_forall. rewrite Forall_forall in H. auto.
  - rewrite !forallb_forall. rewrite Forall_forall in H. intuition.
  - rewrite !forallb_forall. rewrite Forall_forall in H. intuition.
Qed.

Lemma unpacked_ok p o t : packs (fun _ => false) t = true -> packs_ok p o t.
Proof. intros H. split; [|intros _]; now apply packs_none. Qed.

Lemma leaves_all P t : (forall t, P t = true) -> leaves P t = true.
Proof.
  intros HP. induction t using ty_ind'; cbn [leaves]; auto; rewrite ?andb_true_iff, ?forallb_forall; auto.
  - rewrite Forall_forall in H. auto.
  - rewrite Forall_forall in H. auto.
  - rewrite Forall_forall in H. auto.
Qed.
