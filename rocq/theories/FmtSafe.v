(** More facts about [genc]/[gdec]: encoding is total, values can be skipped,
    schemas can evolve, decoding is safe. *)
From Verif Require Import Base Options Int Utf8 Types Storage StorageSpec Fmt FmtSpec
  BaseFacts IntFacts TypesFacts StorageFacts DecFacts StorageSafe StabFacts FmtFacts.
From Coq Require Import ZifyBool ZifyNat ZifyN.
Local Open Scope N_scope.

(** ** Encoding is total and writes bytes *)

Record tot_laws (F : fmt) (p : plat) : Prop := {
  t_leaf : forall t, leaf t = true -> wf p t -> good (has_type p t) (f_leaf_enc F t);
  t_seq : forall n, n < 2 ^ usize_bits p -> exists b, f_seq_enc F n = Ok b /\ bytes_ok b = true;
  t_map : forall n, 2 * n < 2 ^ usize_bits p -> exists b, f_map_enc F n = Ok b /\ bytes_ok b = true;
  t_pack : forall n, n < 2 ^ usize_bits p -> exists b, f_pack_enc F n = Ok b /\ bytes_ok b = true;
  t_none : bytes_ok (f_none F) = true;
  t_some : bytes_ok (f_some F) = true;
  t_var : bytes_ok (f_var F) = true
}.

Lemma all2_and Ps Qs vs : all2 Ps vs = true -> all2 Qs vs = true ->
  Forall2 (fun PQ v => fst PQ v = true /\ snd PQ v = true) (combine Ps Qs) vs.
Proof.
  revert Qs vs. induction Ps as [|P Ps IH]; intros [|Q Qs] [|v vs] H1 H2; cbn in *; try discriminate; constructor.
  - apply andb_true_iff in H1, H2. cbn. intuition.
  - apply andb_true_iff in H1, H2. apply IH; intuition.
Qed.

Lemma genc_total F p o t : tot_laws F p -> lengths_fit p o -> wf p t ->
  good (fun v => has_type p t v && fits p o t v) (genc F p o t).
Proof.
  intros L Hlf. pose proof (usize_bits_ge p) as Hub.
  assert (Hleaf : forall t, leaf t = true -> wf p t ->
            good (fun v => has_type p t v && fits p o t v) (f_leaf_enc F t)).
  { intros t' Hl Hw v Hv. apply andb_true_iff in Hv. apply (t_leaf F p L t' Hl Hw v). intuition. }
  induction t using ty_ind'; intros Hw;
    try (match goal with |- good (fun v => has_type p ?t v && _) _ => exact (Hleaf t eq_refl Hw) end);
    cbn [wf] in Hw; intros v Hv; apply andb_true_iff in Hv; destruct Hv as [Hv Hft];
    cbn [has_type] in Hv; cbn [fits] in Hft; cbn [genc].
  - destruct v; try discriminate.
    + eexists; split; [reflexivity|apply (t_none F p L)].
    + destruct (IHt Hw v) as [a [Ea Oa]]; [now rewrite Hv, Hft|]. rewrite Ea. cbn [bind].
      eexists; split; [reflexivity|]. now rewrite bytes_ok_app, (t_some F p L), Oa.
  - apply IHt; [assumption|]. now rewrite Hv, Hft.
  - destruct v; try discriminate. apply andb_true_iff in Hv. destruct Hv as [Hv Hl]. apply len_ok_lt in Hl.
    destruct (t_seq F p L _ Hl) as [a [Ea Oa]]. rewrite Ea. cbn [bind].
    destruct (good_concat _ _ vs (IHt Hw)) as [b [Eb Ob]].
    { rewrite forallb_forall in *. intros x Hx. now rewrite Hv, Hft. }
    rewrite Eb. cbn [bind]. eexists; split; [reflexivity|]. now rewrite bytes_ok_app, Oa, Ob.
  - destruct Hw as [Hw Hn]. destruct v; try discriminate. apply andb_true_iff in Hv. destruct Hv as [Hv Hl].
    destruct (t_seq F p L (lenN vs)) as [a [Ea Oa]]; [lia|]. rewrite Ea. cbn [bind].
    destruct (good_concat _ _ vs (IHt Hw)) as [b [Eb Ob]].
    { rewrite forallb_forall in *. intros x Hx. now rewrite Hv, Hft. }
    rewrite Eb. cbn [bind]. eexists; split; [reflexivity|]. now rewrite bytes_ok_app, Oa, Ob.
  - destruct v; try discriminate. rewrite !andb_true_iff in Hv. destruct Hv as [[Hv Hl] _]. apply len_ok_lt in Hl.
    destruct (t_seq F p L _ Hl) as [a [Ea Oa]]. rewrite Ea. cbn [bind].
    destruct (good_concat _ _ vs (IHt Hw)) as [b [Eb Ob]].
    { rewrite forallb_forall in *. intros x Hx. now rewrite Hv, Hft. }
    rewrite Eb. cbn [bind]. eexists; split; [reflexivity|]. now rewrite bytes_ok_app, Oa, Ob.
  - destruct v; try discriminate. destruct Hw as [Hw Hl]. apply len_ok_lt in Hl.
    rewrite allP_Forall in Hw.
    destruct (t_seq F p L _ Hl) as [a [Ea Oa]]. rewrite Ea. cbn [bind].
    assert (Hb : exists b, enc_list (map (genc F p o) ts) vs = Ok b /\ bytes_ok b = true).
    { clear Hl Ea Oa a. revert vs Hv Hft. induction ts as [|t ts IH]; intros [|v vs] Hv Hft; try discriminate; [cbn; eauto|].
      cbn in Hv, Hft |- *. inversion H; inversion Hw; subst. apply andb_true_iff in Hv, Hft.
      destruct Hv as [Hv1 Hv2], Hft as [Hf1 Hf2].
      destruct (H2 H6 v) as [x [Ex Ox]]; [now rewrite Hv1, Hf1|].
      destruct (IH H3 H7 vs Hv2 Hf2) as [y [Ey Oy]]. rewrite Ex, Ey. cbn [bind].
      eexists; split; [reflexivity|]. now rewrite bytes_ok_app, Ox, Oy. }
    destruct Hb as [b [Eb Ob]]. rewrite Eb. cbn [bind]. eexists; split; [reflexivity|]. now rewrite bytes_ok_app, Oa, Ob.
  - destruct v; try discriminate. rewrite !andb_true_iff in Hv. destruct Hv as [[Hv Hl] _].
    apply andb_true_iff in Hft. destruct Hft as [Hft Hsm].
    destruct Hw as [Hw1 Hw2].
    destruct (t_map F p L (lenN kvs)) as [a [Ea Oa]]; [lia|]. rewrite Ea. cbn [bind]. clear Hl Hsm Ea.
    assert (Hc : exists b, concat_res (fun kv => let* a := genc F p o t1 (fst kv) in
              let* b := genc F p o t2 (snd kv) in Ok (a ++ b)) kvs = Ok b /\ bytes_ok b = true).
    { induction kvs as [|[k x] kvs IH]; cbn in *; [eauto|].
      rewrite !andb_true_iff in Hv, Hft. destruct Hv as [[Hk Hx] Hv], Hft as [[Fk Fx] Hft].
      destruct (IHt1 Hw1 k) as [b [Eb Ob]]; [now rewrite Hk, Fk|].
      destruct (IHt2 Hw2 x) as [c [Ec Oc]]; [now rewrite Hx, Fx|].
      destruct (IH Hv Hft) as [d [Ed Od]]. rewrite Eb, Ec. cbn [bind]. rewrite Ed. cbn [bind].
      eexists; split; [reflexivity|]. now rewrite !bytes_ok_app, Ob, Oc, Od. }
    destruct Hc as [b [Eb Ob]]. rewrite Eb. cbn [bind]. eexists; split; [reflexivity|]. now rewrite bytes_ok_app, Oa, Ob.
  - destruct v; try discriminate. destruct Hw as [Hw _]. rewrite allP_Forall, Forall_forall in Hw.
    destruct (good_list (map (fun ft => has_type p (snd ft)) fs) (map (fun ft => enc p o true (snd ft)) fs) vs) as [b [Eb Ob]].
    { apply Forall2_map_in. intros ft Hin. apply enc_total; auto. }
    { assumption. }
    unfold pack_body. rewrite Eb in *. cbn [bind]. rewrite Hft.
    destruct (t_pack F p L (lenN b)) as [a [Ea Oa]]; [lia|]. rewrite Ea. cbn [bind].
    eexists; split; [reflexivity|]. now rewrite bytes_ok_app, Oa, Ob.
  - destruct v; try discriminate. destruct Hw as (Hwk & Hw & Hl & Hnt & _).
    rewrite allP_Forall in Hw. rewrite !andb_true_iff in Hft. destruct Hft as [[Hft Hsm] Hfk].
    assert (Hlt : 2 * count_fields (map fst fs) vs < 2 ^ usize_bits p).
    { pose proof (count_fields_le (map fst fs) vs) as Hcnt. unfold lenN in *. rewrite map_length in Hcnt. lia. }
    destruct (t_map F p L _ Hlt) as [a [Ea Oa]]. rewrite Ea. cbn [bind]. clear Ea Hlt Hl Hsm.
    assert (Hc : exists b, enc_fields (genc F p o t) (map (fun ft => (fst ft, genc F p o (snd ft))) fs) vs = Ok b
              /\ bytes_ok b = true).
    { revert vs Hv Hft. induction fs as [|ft fs IH]; intros [|v vs] Hv Hft; try discriminate; [cbn; eauto|].
      cbn in *. apply andb_true_iff in Hv, Hnt, Hft, Hfk. destruct Hv as [Hv Hvs], Hnt as [Hn1 Hn2], Hft as [Hf1 Hf2], Hfk as [Hk1 Hk2].
      inversion H; inversion Hw; subst.
      destruct (IH H3 H7 Hn2 Hk2 vs Hvs Hf2) as [d [Ed Od]].
      destruct (fskip (fst ft) v); [eauto|].
      destruct (IHt Hwk (fname (fst ft))) as [b [Eb Ob]]; [now rewrite Hn1, Hk1|].
      destruct (H2 H6 v) as [c [Ec Oc]]; [now rewrite Hv, Hf1|]. rewrite Eb, Ec. cbn [bind]. rewrite Ed. cbn [bind].
      eexists; split; [reflexivity|]. now rewrite !bytes_ok_app, Ob, Oc, Od. }
    destruct Hc as [b [Eb Ob]]. rewrite Eb. cbn [bind]. eexists; split; [reflexivity|]. now rewrite bytes_ok_app, Oa, Ob.
  - destruct v as [| | | | | | | | |i v]; try discriminate. destruct v; try discriminate.
    destruct Hw as (Hwk & Hnt & _). rewrite forallb_forall in Hnt.
    destruct (nth_error tags i) as [k|] eqn:Ek.
    + apply IHt; [assumption|]. rewrite Hnt, Hft; [reflexivity|]. now apply nth_error_In in Ek.
    + apply nth_error_None in Ek. apply Nat.ltb_lt in Hv. lia.
  - destruct v as [| | | | | | | | |i v]; try discriminate.
    destruct Hw as (Hwk & Hw & Hnt & _). rewrite allP_Forall, Forall_forall in Hw.
    rewrite forallb_forall in Hnt. rewrite Forall_forall in H. rewrite nth_error_map in *.
    destruct (nth_error vs i) as [tv|] eqn:Ei; [|discriminate]. cbn [option_map] in *.
    apply andb_true_iff in Hft. destruct Hft as [Hfk Hfv].
    apply nth_error_In in Ei.
    destruct (IHt Hwk (fst tv)) as [a [Ea Oa]]; [now rewrite (Hnt tv Ei), Hfk|]. rewrite Ea. cbn [bind].
    destruct (H tv Ei (Hw tv Ei) v) as [b [Eb Ob]]; [now rewrite Hv, Hfv|]. rewrite Eb. cbn [bind].
    eexists; split; [reflexivity|]. now rewrite !bytes_ok_app, (t_var F p L), Oa, Ob.
Qed.

(** ** Skipping *)

(** [skipk k] skips [k] values; [B] bounds the number of values to skip. *)
Record skip_laws (F : fmt) (p : plat) (okleaf : ty -> bool) (skipk : N -> dec unit) : Prop := {
  s_skip : forall bs, f_skip F bs = skipk 1 bs;
  s_zero : forall bs, skipk 0 bs = Ok (tt, bs);
  s_leaf : forall t v b k rest, leaf t = true -> okleaf t = true -> wf p t -> has_type p t v = true ->
    f_leaf_enc F t v = Ok b -> k + 1 < 2 ^ usize_bits p ->
    b <> [] /\ skipk (k + 1) (b ++ rest) = skipk k rest;
  s_seq : forall n b k rest, f_seq_enc F n = Ok b -> k + 1 + n < 2 ^ usize_bits p ->
    b <> [] /\ skipk (k + 1) (b ++ rest) = skipk (k + n) rest;
  s_seq_ne : forall n b, f_seq_enc F n = Ok b -> b <> [];
  s_map : forall n b k rest, f_map_enc F n = Ok b -> k + 1 + 2 * n < 2 ^ usize_bits p ->
    b <> [] /\ skipk (k + 1) (b ++ rest) = skipk (k + 2 * n) rest;
  s_map_ne : forall n b, f_map_enc F n = Ok b -> b <> [];
  s_pack : forall n b body k rest, f_pack_enc F n = Ok b -> lenN body = n -> n < 2 ^ usize_bits p ->
    k + 1 < 2 ^ usize_bits p ->
    b <> [] /\ skipk (k + 1) (b ++ body ++ rest) = skipk k rest;
  s_none : forall k rest, k + 1 < 2 ^ usize_bits p ->
    f_none F <> [] /\ skipk (k + 1) (f_none F ++ rest) = skipk k rest;
  s_some : forall k rest, k + 2 < 2 ^ usize_bits p ->
    f_some F <> [] /\ skipk (k + 1) (f_some F ++ rest) = skipk (k + 1) rest;
  s_var : forall k rest, k + 3 < 2 ^ usize_bits p ->
    f_var F <> [] /\ skipk (k + 1) (f_var F ++ rest) = skipk (k + 2) rest
}.

Lemma lenN_ne {A} (l : list A) : l <> [] -> 1 <= lenN l.
Proof. destruct l; [congruence|]. rewrite lenN_cons. lia. Qed.

Section Skip.
  Variables (F : fmt) (p : plat) (o : N) (okleaf : ty -> bool) (skipk : N -> dec unit).
  Hypothesis L : skip_laws F p okleaf skipk.
  Notation B := (2 ^ usize_bits p).

  (** The encoding of every value with [P] can be skipped, and is not empty. *)
  Definition skips (P : val -> bool) (e : val -> res bytes) : Prop :=
    forall v bs, P v = true -> e v = Ok bs ->
      1 <= lenN bs /\
      forall k rest, k + 1 + lenN bs < B -> skipk (k + 1) (bs ++ rest) = skipk k rest.

  Lemma skips_concat P e vs bs : skips P e -> forallb P vs = true -> concat_res e vs = Ok bs ->
    lenN vs <= lenN bs /\
    forall k rest, k + 1 + lenN bs < B -> skipk (k + lenN vs) (bs ++ rest) = skipk k rest.
  Proof.
    intros He. revert bs. induction vs as [|v vs IH]; intros bs Hp H; cbn in Hp, H.
    - inversion H; subst. cbn. split; [lia|]. intros. now rewrite N.add_0_r.
    - apply andb_true_iff in Hp. destruct Hp as [Hv Hp]. inv_bind H. inv_bind H. inversion H; subst.
      destruct (He v a Hv H0) as [Hn Hs]. destruct (IH _ Hp H1) as [Hn' Hs'].
      rewrite lenN_app, lenN_cons in *. split; [lia|]. intros k rest Hk.
      replace (k + (1 + lenN vs)) with ((k + lenN vs) + 1) by lia.
      rewrite <- app_assoc, Hs by lia. apply Hs'. lia.
  Qed.

  Lemma skips_list Ps es vs bs : Forall2 skips Ps es -> all2 Ps vs = true -> enc_list es vs = Ok bs ->
    lenN vs <= lenN bs /\
    forall k rest, k + 1 + lenN bs < B -> skipk (k + lenN vs) (bs ++ rest) = skipk k rest.
  Proof.
    intros He. revert vs bs. induction He as [|P e Ps es He _ IH]; intros [|v vs] bs Hp H; try discriminate.
    - cbn in H. inversion H; subst. cbn. split; [lia|]. intros. now rewrite N.add_0_r.
    - cbn in Hp, H. apply andb_true_iff in Hp. destruct Hp as [Hv Hp]. inv_bind H. inv_bind H. inversion H; subst.
      destruct (He v a Hv H0) as [Hn Hs]. destruct (IH _ _ Hp H1) as [Hn' Hs'].
      rewrite lenN_app, lenN_cons in *. split; [lia|]. intros k rest Hk.
      replace (k + (1 + lenN vs)) with ((k + lenN vs) + 1) by lia.
      rewrite <- app_assoc, Hs by lia. apply Hs'. lia.
  Qed.

  Lemma skips_pair P Q ek ev k v a b : skips P ek -> skips Q ev -> P k = true -> Q v = true ->
    ek k = Ok a -> ev v = Ok b ->
    2 <= lenN (a ++ b) /\
    forall n rest, n + 2 + lenN (a ++ b) < B + 1 -> skipk (n + 2) ((a ++ b) ++ rest) = skipk n rest.
  Proof.
    intros Hk Hv Pk Qv Ea Eb. destruct (Hk k a Pk Ea) as [N1 S1]. destruct (Hv v b Qv Eb) as [N2 S2].
    rewrite lenN_app. split; [lia|]. intros n rest Hn.
    replace (n + 2) with ((n + 1) + 1) by lia. rewrite <- app_assoc, S1 by lia. apply S2. lia.
  Qed.

  Lemma skips_all t : wf p t -> leaves okleaf t = true -> skips (has_type p t) (genc F p o t).
  Proof.
    pose proof (usize_bits_ge p) as Hub.
    assert (HB : 8 < B).
    { assert (2 ^ 16 <= B) by (apply N.pow_le_mono_r; lia). change (2 ^ 16) with 65536 in *. lia. }
    assert (Hleaf : forall t, leaf t = true -> okleaf t = true -> wf p t -> skips (has_type p t) (f_leaf_enc F t)).
    { intros t' Hl Hok Hw v bs Hv He. split.
      - destruct (s_leaf F p _ _ L t' v bs 0 [] Hl Hok Hw Hv He) as [Hne _]; [lia|]. now apply lenN_ne.
      - intros k rest Hk. apply (s_leaf F p _ _ L t' v bs k rest Hl Hok Hw Hv He). lia. }
    induction t using ty_ind'; intros Hw Hlv;
      try (match goal with |- skips (has_type p ?t) _ => exact (Hleaf t eq_refl Hlv Hw) end);
      cbn [wf leaves] in Hw, Hlv; intros v bs Hv He; cbn [genc] in He; cbn [has_type] in Hv.
    - destruct v; try discriminate.
      + inversion He; subst. destruct (s_none F p _ _ L 0 []) as [Hne _]; [lia|].
        split; [now apply lenN_ne|]. intros k rest Hk. apply (s_none F p _ _ L). lia.
      + inv_bind He. inversion He; subst. destruct (IHt Hw Hlv v a Hv He0) as [Hn Hs].
        rewrite lenN_app. destruct (s_some F p _ _ L 0 []) as [Hne _]; [lia|]. apply lenN_ne in Hne.
        split; [lia|]. intros k rest Hk. rewrite <- app_assoc.
        rewrite (proj2 (s_some F p _ _ L k (a ++ rest) ltac:(lia))). apply Hs. lia.
    - exact (IHt Hw Hlv v bs Hv He).
    - destruct v; try discriminate. apply andb_true_iff in Hv. destruct Hv as [Hv Hl].
      inv_bind He. inv_bind He. inversion He; subst.
      destruct (skips_concat _ _ vs _ (IHt Hw Hlv) Hv He1) as [Hn Hs].
      pose proof (lenN_ne _ (s_seq_ne F p _ _ L _ _ He0)). rewrite lenN_app. split; [lia|].
      intros k rest Hk. rewrite <- app_assoc.
      rewrite (proj2 (s_seq F p _ _ L _ _ k (a0 ++ rest) He0 ltac:(lia))). apply Hs. lia.
    - destruct Hw as [Hw _]. destruct v; try discriminate. apply andb_true_iff in Hv. destruct Hv as [Hv Hl].
      inv_bind He. inv_bind He. inversion He; subst.
      destruct (skips_concat _ _ vs _ (IHt Hw Hlv) Hv He1) as [Hn Hs].
      pose proof (lenN_ne _ (s_seq_ne F p _ _ L _ _ He0)). rewrite lenN_app. split; [lia|].
      intros k rest Hk. rewrite <- app_assoc.
      rewrite (proj2 (s_seq F p _ _ L _ _ k (a0 ++ rest) He0 ltac:(lia))). apply Hs. lia.
    - destruct v; try discriminate. rewrite !andb_true_iff in Hv. destruct Hv as [[Hv Hl] _].
      inv_bind He. inv_bind He. inversion He; subst.
      destruct (skips_concat _ _ vs _ (IHt Hw Hlv) Hv He1) as [Hn Hs].
      pose proof (lenN_ne _ (s_seq_ne F p _ _ L _ _ He0)). rewrite lenN_app. split; [lia|].
      intros k rest Hk. rewrite <- app_assoc.
      rewrite (proj2 (s_seq F p _ _ L _ _ k (a0 ++ rest) He0 ltac:(lia))). apply Hs. lia.
    - destruct v; try discriminate. destruct Hw as [Hw _]. rewrite allP_Forall, Forall_forall in Hw.
      rewrite forallb_forall in Hlv. rewrite Forall_forall in H.
      inv_bind He. inv_bind He. inversion He; subst.
      destruct (skips_list (map (has_type p) ts) (map (genc F p o) ts) vs a0) as [Hn Hs]; auto.
      { apply Forall2_map_in. intros t Ht. apply H; auto. }
      assert (El : lenN ts = lenN vs).
      { apply all2_length in Hv. rewrite map_length in Hv. unfold lenN. congruence. }
      rewrite El in He0. pose proof (lenN_ne _ (s_seq_ne F p _ _ L _ _ He0)). rewrite lenN_app. split; [lia|].
      intros k rest Hk. rewrite <- app_assoc.
      rewrite (proj2 (s_seq F p _ _ L _ _ k (a0 ++ rest) He0 ltac:(lia))). apply Hs. lia.
    - destruct v; try discriminate. rewrite !andb_true_iff in Hv. destruct Hv as [[Hv Hl] _].
      destruct Hw as [Hw1 Hw2]. apply andb_true_iff in Hlv. destruct Hlv as [Hl1 Hl2].
      specialize (IHt1 Hw1 Hl1). specialize (IHt2 Hw2 Hl2).
      inv_bind He. inv_bind He. inversion He; subst.
      assert (Hc : 2 * lenN kvs <= lenN a0 /\ forall k rest, k + 1 + lenN a0 < B ->
                skipk (k + 2 * lenN kvs) (a0 ++ rest) = skipk k rest).
      { clear - IHt1 IHt2 Hv He1. revert a0 He1. induction kvs as [|[k x] kvs IH]; intros a0 He1; cbn in Hv, He1.
        - inversion He1; subst. cbn. split; [lia|]. intros k rest _. rewrite ?N.mul_0_r, N.add_0_r. reflexivity.
        - rewrite !andb_true_iff in Hv. destruct Hv as [[Hk Hx] Hv].
          inv_bind He1. inv_bind He1. inversion He1; subst. inv_bind He0. inv_bind He0. inversion He0; subst.
          destruct (skips_pair _ _ _ _ _ _ _ _ IHt1 IHt2 Hk Hx He3 He4) as [N1 S1].
          destruct (IH Hv _ He2) as [N2 S2]. rewrite !lenN_app in *. rewrite lenN_cons in *. split; [lia|].
          intros n rest Hn. replace (n + 2 * (1 + lenN kvs)) with ((n + 2 * lenN kvs) + 2) by lia.
          rewrite <- app_assoc, S1 by lia. apply S2. lia. }
      destruct Hc as [Hn Hs].
      pose proof (lenN_ne _ (s_map_ne F p _ _ L _ _ He0)). rewrite lenN_app. split; [lia|].
      intros k rest Hk. rewrite <- app_assoc.
      rewrite (proj2 (s_map F p _ _ L _ _ k (a0 ++ rest) He0 ltac:(lia))). apply Hs. lia.
    - destruct v; try discriminate. inv_bind He.
      destruct (lenN a <? 2 ^ usize_bits p) eqn:El; [|discriminate]. inv_bind He. inversion He; subst.
      assert (Hne : a0 <> []) by (apply (s_pack F p _ _ L (lenN a) a0 a 0 [] He1 eq_refl); lia).
      rewrite lenN_app. apply lenN_ne in Hne. split; [lia|]. intros k rest Hk.
      rewrite <- app_assoc. apply (s_pack F p _ _ L (lenN a) a0 a k rest He1 eq_refl); lia.
    - destruct v; try discriminate. destruct Hw as (Hwk & Hw & _ & Hnt & _).
      rewrite allP_Forall in Hw. apply andb_true_iff in Hlv. destruct Hlv as [Hlk Hlv].
      specialize (IHt Hwk Hlk). inv_bind He. inv_bind He. inversion He; subst.
      assert (Hc : 2 * count_fields (map fst fs) vs <= lenN a0 /\ forall k rest, k + 1 + lenN a0 < B ->
                skipk (k + 2 * count_fields (map fst fs) vs) (a0 ++ rest) = skipk k rest).
      { clear - IHt Hv He1 H Hw Hlv Hnt. revert vs a0 Hv He1. induction fs as [|ft fs IH]; intros [|x vs] a0 Hv He1; try discriminate.
        - cbn in He1. inversion He1; subst. cbn. split; [lia|]. intros k rest _. rewrite ?N.mul_0_r, N.add_0_r. reflexivity.
        - cbn in Hv, He1, Hnt, Hlv. apply andb_true_iff in Hv, Hnt, Hlv. destruct Hv as [Hv1 Hv2], Hnt as [Hn1 Hn2], Hlv as [Hl1 Hl2].
          inversion H; inversion Hw; subst. cbn [map count_fields]. destruct (fskip (fst ft) x).
          + rewrite N.add_0_l. apply IH; auto.
          + inv_bind He1. inv_bind He1. inv_bind He1. inversion He1; subst.
            destruct (skips_pair _ _ _ _ _ _ _ _ IHt (H2 H6 Hl1) Hn1 Hv1 He0 He2) as [N1 S1].
            destruct (IH H3 H7 Hn2 Hl2 vs _ Hv2 He3) as [N2 S2]. rewrite app_assoc. rewrite !lenN_app in *. split; [lia|].
            intros n rest Hn. replace (n + 2 * (1 + count_fields (map fst fs) vs)) with ((n + 2 * count_fields (map fst fs) vs) + 2) by lia.
            rewrite <- (app_assoc (a ++ a1)), S1 by lia. apply S2. lia. }
      destruct Hc as [Hn Hs].
      pose proof (lenN_ne _ (s_map_ne F p _ _ L _ _ He0)). rewrite lenN_app. split; [lia|].
      intros k rest Hk. rewrite <- app_assoc.
      rewrite (proj2 (s_map F p _ _ L _ _ k (a0 ++ rest) He0 ltac:(lia))). apply Hs. lia.
    - destruct v as [| | | | | | | | |i v]; try discriminate. destruct v; try discriminate.
      destruct Hw as (Hwk & Hnt & _). rewrite forallb_forall in Hnt.
      destruct (nth_error tags i) as [k|] eqn:Ek; [|discriminate].
      apply (IHt Hwk Hlv k bs); [|assumption]. apply Hnt. now apply nth_error_In in Ek.
    - destruct v as [| | | | | | | | |i v]; try discriminate.
      destruct Hw as (Hwk & Hw & Hnt & _). rewrite allP_Forall, Forall_forall in Hw.
      apply andb_true_iff in Hlv. destruct Hlv as [Hlk Hlv].
      rewrite forallb_forall in Hnt, Hlv. rewrite Forall_forall in H. rewrite nth_error_map in *.
      destruct (nth_error vs i) as [tv|] eqn:Ei; [|discriminate]. cbn [option_map] in *.
      apply nth_error_In in Ei. inv_bind He. inv_bind He. inversion He; subst.
      destruct (skips_pair _ _ _ _ _ _ _ _ (IHt Hwk Hlk) (H tv Ei (Hw tv Ei) (Hlv tv Ei)) (Hnt tv Ei) Hv He0 He1) as [N1 S1].
      rewrite lenN_app. split; [lia|]. intros k rest Hk. rewrite <- app_assoc.
      destruct (s_var F p _ _ L k ((a ++ a0) ++ rest)) as [Hne ->]; [lia|]. apply S1.
      apply lenN_ne in Hne. lia.
  Qed.

  Lemma g_skip t v bs rest : wf p t -> leaves okleaf t = true -> has_type p t v = true ->
    genc F p o t v = Ok bs -> 1 + lenN bs < B -> f_skip F (bs ++ rest) = Ok (tt, rest).
  Proof.
    intros Hw Hl Hv He Hb. destruct (skips_all t Hw Hl v bs Hv He) as [_ Hs].
    rewrite (s_skip F p _ _ L). change 1 with (0 + 1) at 1. rewrite Hs by lia. apply (s_zero F p _ _ L).
  Qed.
End Skip.
