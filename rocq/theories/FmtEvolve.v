(** Reading what another version of the schema wrote. *)
From Verif Require Import Base Options Int Utf8 Types Storage StorageSpec Fmt FmtSpec
  BaseFacts IntFacts TypesFacts StorageFacts DecFacts StorageSafe StabFacts FmtFacts FmtSafe.
From Coq Require Import ZifyBool ZifyNat ZifyN.
Local Open Scope N_scope.

(** [w] written with [e] reads as [r] with [d], up to [M] bytes. *)
Definition reads (M : N) (e : val -> res bytes) (d : dec val) (w r : val) : Prop :=
  forall b rest, e w = Ok b -> lenN b <= M -> d (b ++ rest) = Ok (r, rest).

Lemma dec_count_rel M e d ws rs bs rest : Forall2 (reads M e d) ws rs ->
  concat_res e ws = Ok bs -> lenN bs <= M -> dec_count (lenN ws) d (bs ++ rest) = Ok (rs, rest).
Proof.
  intros H. revert bs. induction H as [|w r ws rs H _ IH]; intros bs He Hl; cbn in He.
  - inversion He; subst. reflexivity.
  - inv_bind He. inv_bind He. inversion He; subst. rewrite lenN_app in Hl.
    rewrite dec_count_cons, <- app_assoc, (H a) by (assumption || lia). cbn [bind].
    rewrite IH by (assumption || lia). reflexivity.
Qed.

Lemma dec_map_rel M ek ev dk dv ws rs bs rest : forall acc,
  Forall2 (fun w r => fst w = fst r /\ reads M ek dk (fst w) (fst w) /\ reads M ev dv (snd w) (snd r)) ws rs ->
  NoDup (map fst acc ++ map fst ws) ->
  concat_res (fun kv => let* a := ek (fst kv) in let* b := ev (snd kv) in Ok (a ++ b)) ws = Ok bs ->
  lenN bs <= M ->
  iterN (lenN ws) (map_step dk dv) (acc, bs ++ rest) = Ok (acc ++ rs, rest).
Proof.
  intros acc H. revert acc bs. unfold lenN at 2. induction H as [|[k w] [k' r] ws rs H _ IH]; intros acc bs Hd He Hl; cbn in He.
  - inversion He; subst. cbn. now rewrite app_nil_r.
  - inv_bind He. inv_bind He. inversion He; subst. inv_bind He0. inv_bind He0. inversion He0; subst.
    cbn [fst snd] in H. destruct H as (<- & Hk & Hv). rewrite !lenN_app in Hl.
    rewrite iterN_of_nat. cbn [length iter_nat]. unfold map_step at 1. cbn [fst snd].
    rewrite <- !app_assoc, (Hk a1) by (assumption || lia). cbn [bind].
    rewrite (Hv a2) by (assumption || lia). cbn [bind]. cbn [map fst] in Hd.
    rewrite map_insert_fresh.
    2:{ apply NoDup_remove in Hd. intros Hin. apply (proj2 Hd). apply in_or_app. now left. }
    specialize (IH (acc ++ [(k, r)]) a0). rewrite iterN_of_nat in IH. unfold bytes in *. rewrite IH.
    + now rewrite <- app_assoc.
    + rewrite map_app. cbn. now rewrite <- app_assoc.
    + assumption.
    + lia.
Qed.

(** The slots after the fields named in [done]. *)
Definition sl (names : list val) (ss : slots) (done : list val) : slots :=
  map (fun ns => if existsb (val_eqb (fst ns)) done then snd ns else None) (combine names ss).

Lemma sl_set names ss done i k r : NoDup names -> nth_error names i = Some k ->
  nth_error ss i = Some (Some r) -> set_slot i r (sl names ss done) = sl names ss (k :: done).
Proof.
  revert ss i. induction names as [|n names IH]; intros [|s ss] [|i] Hd Hn Hs; try discriminate.
  - cbn in *. inversion Hn; inversion Hs; subst. rewrite val_eqb_refl. cbn. f_equal.
    unfold sl. apply map_ext_in. intros [m s] Hin. cbn.
    destruct (val_eqb m k) eqn:E; [|reflexivity]. apply val_eqb_eq in E. subst.
    apply in_combine_l in Hin. inversion Hd. contradiction.
  - cbn in *. inversion Hd; subst.
    destruct (val_eqb n k) eqn:E.
    + apply val_eqb_eq in E. subst. apply nth_error_In in Hn. contradiction.
    + cbn. f_equal. now apply IH.
Qed.

Lemma sl_skip names ss done k : ~ In k names -> sl names ss done = sl names ss (k :: done).
Proof.
  intros H. unfold sl. apply map_ext_in. intros [m s] Hin. cbn.
  destruct (val_eqb m k) eqn:E; [|reflexivity]. apply val_eqb_eq in E. subst.
  apply in_combine_l in Hin. contradiction.
Qed.

Lemma sl_nil names ss : length names = length ss -> sl names ss [] = map (fun _ => None) names.
Proof.
  revert ss. induction names as [|n names IH]; intros [|s ss] Hl; try discriminate; cbn; [reflexivity|].
  f_equal. apply IH. now inversion Hl.
Qed.

Section Evolve.
  Variables (F : fmt) (p : plat) (o : N) (okleaf : ty -> bool) (skipk : N -> dec unit).
  Hypothesis LR : rt_laws F p.
  Hypothesis LS : skip_laws F p okleaf skipk.
  Notation B := (2 ^ usize_bits p).

  Definition good_w (t : ty) : Prop := wf p t /\ packs_ok p o t /\ leaves okleaf t = true.

  Definition UPG (t : ty) : Prop := forall tR w r, upg t tR w r -> good_w t -> wf p tR ->
    has_type p t w = true -> forall M, 1 + M < B -> reads M (genc F p o t) (gdec F p o tR) w r.

  Lemma good_w_sub t t' : good_w t -> (wf p t -> wf p t') ->
    (forall P, packs P t = true -> packs P t' = true) -> (leaves okleaf t = true -> leaves okleaf t' = true) ->
    good_w t'.
  Proof.
    intros (H1 & [H2 H3] & H4) Hw Hp Hl. split; [auto|]. split; [|auto]. split; auto.
  Qed.

  Lemma same_reads t v M : good_w t -> has_type p t v = true -> reads M (genc F p o t) (gdec F p o t) v v.
  Proof.
    intros (Hw & Hp & _) Hv b rest He _. apply (g_roundtrip F p o t LR Hw Hp v b rest Hv); auto. discriminate.
  Qed.

  (** The loop over the written fields. *)
  Lemma fields_loop kt fsW fsR ss M :
    good_w kt -> 1 + M < B ->
    (forall ft, In ft fsW -> good_w (snd ft)) ->
    Forall (fun ft => UPG (snd ft)) fsW ->
    forallb (fun ft => has_type p kt (fname (fst ft))) fsW = true ->
    NoDup (map (fun ft => fname (fst ft)) fsR) ->
    (forall ft, In ft fsR -> wf p (snd ft)) ->
    length fsR = length ss ->
    forall ws bs rest done,
    all2 (map (fun ft => has_type p (snd ft)) fsW) ws = true ->
    (* the fields still to come *)
    (forall i f t w fr, nth_error fsW i = Some (f, t) -> nth_error ws i = Some w -> fskip f w = false ->
       forall j, nth_error fsR j = Some fr -> fname (fst fr) = fname f ->
       exists r, nth_error ss j = Some (Some r) /\ upg t (snd fr) w r) ->
    enc_fields (genc F p o kt) (map (fun ft => (fst ft, genc F p o (snd ft))) fsW) ws = Ok bs ->
    lenN bs <= M ->
    exists done',
    iterN (count_fields (map fst fsW) ws)
      (dec_field (match fsR with
                  | [] => fun bs => let* (_, r) := f_skip F bs in Ok (VUnit, r)
                  | _ => gdec F p o kt
                  end)
        (map (fun ft => fname (fst ft)) fsR) (map (fun ft => gdec F p o (snd ft)) fsR) (f_skip F))
      (sl (map (fun ft => fname (fst ft)) fsR) ss done, bs ++ rest)
    = Ok (sl (map (fun ft => fname (fst ft)) fsR) ss done', rest)
    /\ forall k, In k done' <-> In k done \/
         exists i f t w, nth_error fsW i = Some (f, t) /\ nth_error ws i = Some w /\ fskip f w = false /\ k = fname f.
  Proof.
    intros Hk HM Hg HU Hnt Hnd HwR Hlen.
    induction fsW as [|[f t] fsW IH]; intros [|w ws] bs rest done Hv Hrel He Hl; try discriminate.
    - cbn in He. inversion He; subst. exists done. cbn. split; [reflexivity|].
      intros k. split; [tauto|]. intros [H|(i & f & t & w & H & _)]; [assumption|]. now destruct i.
    - cbn in Hv, He, Hnt. apply andb_true_iff in Hv, Hnt. destruct Hv as [Hv1 Hv2], Hnt as [Hn1 Hn2].
      inversion HU as [|? ? Ht Hts]; subst. cbn [snd fst] in *.
      assert (IH' : forall bs rest done,
        enc_fields (genc F p o kt) (map (fun ft => (fst ft, genc F p o (snd ft))) fsW) ws = Ok bs -> lenN bs <= M -> _)
        by (intros bs' rest' done'; apply (IH (fun ft Hin => Hg ft (or_intror Hin)) Hts Hn2 ws bs' rest' done' Hv2
             (fun i f t w fr H1 H2 H3 => Hrel (S i) f t w fr H1 H2 H3))).
      cbn [map count_fields fst]. destruct (fskip f w) eqn:Ef.
      + destruct (IH' bs rest done He Hl) as [done' [E Hd]]. exists done'. rewrite N.add_0_l. split; [exact E|].
        intros k. rewrite Hd. split; intros [H|(i & f' & t' & w' & H1 & H2 & H3 & H4)]; auto; right.
        * exists (S i), f', t', w'. auto.
        * destruct i as [|i]; [cbn in *; congruence|]. exists i, f', t', w'. auto.
      + inv_bind He. inv_bind He. inv_bind He. inversion He; subst. rewrite !lenN_app in Hl.
        destruct (IH' a1 rest (fname f :: done) ltac:(assumption) ltac:(lia)) as [done' [E Hd]].
        exists done'. split.
        2:{ intros k. rewrite Hd. cbn [In]. split.
            - intros [[H|H]|(i & f' & t' & w' & H1 & H2 & H3 & H4)]; auto; right.
              + exists O, f, t, w. cbn. auto.
              + exists (S i), f', t', w'. auto.
            - intros [H|(i & f' & t' & w' & H1 & H2 & H3 & H4)]; auto.
              destruct i as [|i]; cbn in H1, H2.
              + inversion H1; inversion H2; subst. auto.
              + right. exists i, f', t', w'. auto. }
        rewrite iterN_nat in *. replace (N.to_nat (1 + count_fields (map fst fsW) ws))
          with (S (N.to_nat (count_fields (map fst fsW) ws))) by lia.
        cbn [iter_nat].
        assert (Hg1 : good_w t) by (apply (Hg (f, t)); now left).
        assert (Hstep : dec_field (match fsR with
                  | [] => fun bs => let* (_, r) := f_skip F bs in Ok (VUnit, r)
                  | _ => gdec F p o kt
                  end)
            (map (fun ft => fname (fst ft)) fsR) (map (fun ft => gdec F p o (snd ft)) fsR) (f_skip F)
            (sl (map (fun ft => fname (fst ft)) fsR) ss done, (a ++ a0 ++ a1) ++ rest)
          = Ok (sl (map (fun ft => fname (fst ft)) fsR) ss (fname f :: done), a1 ++ rest)).
        { unfold dec_field. cbn [fst snd]. rewrite <- !app_assoc.
          destruct Hk as (Hwk & Hpk & Hlk). destruct Hg1 as (Hw1 & Hp1 & Hl1).
          destruct fsR as [|fr0 fsR'] eqn:EfsR.
          - rewrite (g_skip F p o okleaf skipk LS kt (fname f) a _ Hwk Hlk Hn1) by (assumption || lia).
            cbn [bind map find_name].
            rewrite (g_skip F p o okleaf skipk LS t w a0 _ Hw1 Hl1 Hv1) by (assumption || lia).
            cbn [bind]. f_equal.
          - rewrite <- EfsR in *. clear EfsR fr0 fsR'.
            rewrite (same_reads kt (fname f) M (conj Hwk (conj Hpk Hlk)) Hn1 a) by (assumption || lia).
            cbn [bind]. destruct (find_name (fname f) (map (fun ft => fname (fst ft)) fsR)) as [j|] eqn:Ej.
            + apply find_name_some in Ej. rewrite nth_error_map in *.
              destruct (nth_error fsR j) as [fr|] eqn:Efr; [|discriminate]. cbn [option_map] in *.
              inversion Ej as [Ej']. destruct (Hrel O f t w fr eq_refl eq_refl Ef j Efr Ej') as [r [Hr Hu]].
              rewrite (Ht (snd fr) w r Hu (conj Hw1 (conj Hp1 Hl1)) (HwR fr (nth_error_In _ _ Efr)) Hv1 M HM a0) by (assumption || lia).
              cbn [bind]. f_equal. f_equal. apply sl_set; auto.
              rewrite nth_error_map, Efr. cbn [option_map]; congruence.
            + apply find_name_none in Ej.
              rewrite (g_skip F p o okleaf skipk LS t w a0 _ Hw1 Hl1 Hv1) by (assumption || lia).
              cbn [bind]. f_equal. f_equal. now apply sl_skip. }
        rewrite Hstep. cbn [bind]. exact E.
  Qed.

  Lemma sl_all names ss done : length names = length ss ->
    (forall i k s, nth_error names i = Some k -> nth_error ss i = Some s -> s <> None -> In k done) ->
    sl names ss done = ss.
  Proof.
    revert ss. induction names as [|n names IH]; intros [|s ss] Hl H; try discriminate; [reflexivity|].
    change (sl (n :: names) (s :: ss) done) with
      ((if existsb (val_eqb n) done then s else None) :: sl names ss done).
    rewrite IH.
    - destruct (existsb (val_eqb n) done) eqn:E; [reflexivity|]. destruct s; [|reflexivity].
      assert (Hin : In n done) by (apply (H O n (Some v)); [reflexivity|reflexivity|discriminate]).
      apply existsb_val in Hin. congruence.
    - now inversion Hl.
    - intros i k s' H1 H2. apply (H (S i) k s'); assumption.
  Qed.

  (** What the reader finds in a struct. *)
  Lemma struct_slots kt fsW fsR ws ss M :
    good_w (TStruct kt fsW) -> wf p (TStruct kt fsR) -> 1 + M < B ->
    Forall (fun ft => UPG (snd ft)) fsW ->
    has_type p (TStruct kt fsW) (VList ws) = true ->
    Forall2 (read_slot fsW ws) fsR ss ->
    forall bs rest, genc F p o (TStruct kt fsW) (VList ws) = Ok bs -> lenN bs <= M ->
    gdec F p o (TStruct kt fsR) (bs ++ rest) = let* vs := fill (map fst fsR) ss in Ok (VList vs, rest).
  Proof.
    intros Hg HwR HM HU Hv Hss bs rest He Hl.
    assert (Hgk : good_w kt).
    { apply (good_w_sub _ _ Hg); cbn [wf packs leaves]; [tauto| |]; intros; now apply andb_true_iff in H. }
    assert (Hgf : forall ft, In ft fsW -> good_w (snd ft)).
    { intros ft Hin. apply (good_w_sub _ _ Hg); cbn [wf packs leaves].
      - intros (_ & H & _). rewrite allP_Forall, Forall_forall in H. auto.
      - intros P H. apply andb_true_iff in H. destruct H as [_ H]. rewrite forallb_forall in H. auto.
      - intros H. apply andb_true_iff in H. destruct H as [_ H]. rewrite forallb_forall in H. auto. }
    destruct Hg as (Hw & _ & _). cbn [wf] in Hw, HwR.
    destruct Hw as (Hwk & Hw & HlW & Hnt & Hnd & _ & _).
    destruct HwR as (_ & HwR & _ & _ & HndR & _ & _). rewrite allP_Forall, Forall_forall in HwR.
    apply distinct_NoDup in Hnd, HndR. apply len_ok_lt in HlW.
    cbn [genc] in He. cbn [has_type] in Hv. inv_bind He. inv_bind He. inversion He; subst. clear He.
    rewrite lenN_app in Hl. cbn [gdec]. rewrite <- app_assoc.
    rewrite (l_map F p LR (count_fields (map fst fsW) ws) a); [|  |assumption].
    2:{ pose proof (count_fields_le (map fst fsW) ws) as Hcnt. unfold lenN in *. rewrite map_length in Hcnt. lia. }
    cbn [bind].
    assert (Hlen : length fsR = length ss) by (clear - Hss; induction Hss; cbn; congruence).
    destruct (fields_loop kt fsW fsR ss M Hgk HM Hgf HU Hnt HndR HwR Hlen ws a0 rest []) as [done [E Hdone]].
    - assumption.
    - intros i f t w fr H1 H2 H3 j Hj Hn.
      assert (Hs : exists s, nth_error ss j = Some s /\ read_slot fsW ws fr s).
      { clear - Hss Hj. revert j Hj. induction Hss as [|x y xs ys H _ IH]; intros [|j] Hj; try discriminate.
        - cbn in *. inversion Hj; subst. eauto.
        - apply IH. exact Hj. }
      destruct Hs as [s [Hs [(f' & t' & w' & r & (i' & W1 & W2 & W3) & Hn' & Hu & ->)|[Hno _]]]].
      + exists r. split; [assumption|].
        assert (i = i').
        { apply (proj1 (NoDup_nth_error _) Hnd).
          - rewrite map_length. apply nth_error_Some. congruence.
          - rewrite !nth_error_map, H1, W1. cbn. congruence. }
        subst i'. congruence.
      + exfalso. apply (Hno f t w); [|congruence]. exists i. auto.
    - assumption.
    - lia.
    - rewrite sl_nil in E by now rewrite map_length. rewrite map_map in E.
      match goal with |- bind ?x _ = _ => replace x with (Ok (ss, rest)); [reflexivity|symmetry] end.
      etransitivity; [exact E|]. f_equal. f_equal. apply sl_all; [now rewrite map_length|].
      intros i k s Hk Hs Hne. rewrite Hdone. right. rewrite nth_error_map in Hk.
      destruct (nth_error fsR i) as [fr|] eqn:Efr; [|discriminate]. cbn in Hk. inversion Hk; subst.
      assert (Hr : read_slot fsW ws fr s).
      { clear - Hss Efr Hs. revert i Efr Hs. induction Hss as [|x y xs ys H _ IH]; intros [|i] Efr Hs; try discriminate.
        - cbn in *. congruence.
        - eapply IH; eassumption. }
      destruct Hr as [(f & t & w & r & (i' & W1 & W2 & W3) & Hn & _)|[_ Hr]]; [|contradiction].
      exists i', f, t, w. auto.
  Qed.

  Lemma UPG_all t : UPG t.
  Proof.
    induction t using ty_ind'; intros tR w_ r_ Hu Hg HwR Hv M HM;
      try (inversion Hu; subst; now apply same_reads);
      inversion Hu; subst; try (now apply same_reads); intros bs rest He Hl;
      try (match goal with HF : Forall2 _ _ _ |- _ => rename HF into HF2 end);
      cbn [genc] in He; cbn [has_type] in Hv; cbn [gdec]; cbn [wf] in HwR.
    - inversion He; subst. rewrite (l_none F p LR). reflexivity.
    - inv_bind He. inversion He; subst. rewrite lenN_app in Hl. rewrite <- app_assoc, (l_some F p LR). cbn [bind].
      rewrite (IHt t' w r) with (M := M); auto; try lia.
    - eapply (IHt t' w_ r_); eauto.
    - apply andb_true_iff in Hv. destruct Hv as [Hv Hlo]. apply len_ok_lt in Hlo.
      inv_bind He. inv_bind He. inversion He; subst. rewrite lenN_app in Hl.
      rewrite <- app_assoc, (l_seq F p LR (lenN ws) a) by assumption. cbn [bind].
      rewrite (dec_count_rel M (genc F p o t) (gdec F p o t') ws rs); [reflexivity| |assumption|lia].
      assert (Hgt : good_w t) by now apply (good_w_sub _ _ Hg).
      rewrite forallb_forall in Hv. clear - IHt Hgt HwR HM Hv HF2. induction HF2 as [|x y xs ys Hxy _ IHF]; constructor.
      + eapply IHt; eauto. apply Hv. now left.
      + apply IHF. intros z Hz. apply Hv. now right.
    - apply andb_true_iff in Hv. destruct Hv as [Hv Hlo]. apply N.eqb_eq in Hlo. destruct HwR as [HwR Hn]. subst n.
      inv_bind He. inv_bind He. inversion He; subst. rewrite lenN_app in Hl.
      rewrite <- app_assoc, (l_seq F p LR (lenN ws) a) by assumption. cbn [bind].
      replace (N.min (lenN ws) (lenN ws + 1)) with (lenN ws) by lia.
      rewrite (dec_count_rel M (genc F p o t) (gdec F p o t') ws rs); [cbn [bind]; now rewrite N.eqb_refl| |assumption|lia].
      assert (Hgt : good_w t) by (apply (good_w_sub _ _ Hg); cbn; tauto).
      rewrite forallb_forall in Hv. clear - IHt Hgt HwR HM Hv HF2. induction HF2 as [|x y xs ys Hxy _ IHF]; constructor.
      + eapply IHt; eauto. apply Hv. now left.
      + apply IHF. intros z Hz. apply Hv. now right.
    - rewrite !andb_true_iff in Hv. destruct Hv as [[Hv Hlo] Hd]. apply len_ok_lt in Hlo. apply distinct_NoDup in Hd.
      destruct HwR as [HwR1 HwR2].
      inv_bind He. inv_bind He. inversion He; subst. rewrite lenN_app in Hl.
      rewrite <- app_assoc, (l_map F p LR (lenN ws) a) by assumption. cbn [bind].
      match goal with |- bind ?x _ = _ => replace x with (Ok (rs, rest)); [reflexivity|symmetry] end.
      apply (dec_map_rel M (genc F p o t1) (genc F p o t2) (gdec F p o t1) (gdec F p o t') ws rs a0 rest []); auto; [|lia].
      assert (Hg1 : good_w t1) by (apply (good_w_sub _ _ Hg); cbn; [tauto| |]; intros; now apply andb_true_iff in H).
      assert (Hg2 : good_w t2) by (apply (good_w_sub _ _ Hg); cbn; [tauto| |]; intros; now apply andb_true_iff in H).
      rewrite forallb_forall in Hv. clear - IHt2 Hg1 Hg2 HwR2 HM Hv HF2 LR. induction HF2 as [|x y xs ys [Hxy Hu] _ IH]; constructor.
      + assert (Hx := Hv x (or_introl eq_refl)). apply andb_true_iff in Hx. destruct Hx as [Hx1 Hx2].
        split; [assumption|]. split; [now apply same_reads|]. eapply IHt2; eauto.
      + apply IH. intros z Hz. apply Hv. now right.
    - (* struct *)
      assert (Hss : exists ss, Forall2 (read_slot fs ws) fsR ss /\ fill (map fst fsR) ss = Ok rs).
      { clear - HF2. induction HF2 as [|fr r fsR rs Hr _ [ss [IH1 IH2]]].
        - exists []. split; [constructor|reflexivity].
        - destruct Hr as [(f & t & w & Hw & Hn & Hu)|[Hno Hd]].
          + exists (Some r :: ss). split; [constructor; [left; exists f, t, w, r; auto|assumption]|].
            cbn. rewrite IH2. reflexivity.
          + exists (None :: ss). split; [constructor; [right; auto|assumption]|].
            cbn. rewrite Hd. cbn. rewrite IH2. reflexivity. }
      destruct Hss as [ss [Hss Hfill]].
      pose proof (struct_slots t fs fsR ws ss M Hg HwR HM H Hv Hss bs rest He Hl) as Hd.
      cbn [gdec] in Hd. rewrite Hd, Hfill. reflexivity.
    - (* enum *)
      match goal with A : nth_error vs i = Some _, A' : nth_error vsR j = Some _ |- _ => rename A into NW; rename A' into NR end.
      rewrite nth_error_map in He, Hv. rewrite NW in He, Hv. cbn [option_map fst snd] in He, Hv.
      inv_bind He. inv_bind He. inversion He; subst. rewrite !lenN_app in Hl.
      assert (Hgk : good_w t).
      { apply (good_w_sub _ _ Hg); cbn [wf packs leaves]; [tauto| |]; intros; now apply andb_true_iff in H0. }
      assert (Hgt : good_w t0).
      { apply nth_error_In in NW. apply (good_w_sub _ _ Hg); cbn [wf packs leaves].
        - intros (_ & H0 & _). rewrite allP_Forall, Forall_forall in H0. exact (H0 _ NW).
        - intros P H0. apply andb_true_iff in H0. destruct H0 as [_ H0]. rewrite forallb_forall in H0. exact (H0 _ NW).
        - intros H0. apply andb_true_iff in H0. destruct H0 as [_ H0]. rewrite forallb_forall in H0. exact (H0 _ NW). }
      assert (Hnk : has_type p t k = true).
      { destruct Hg as ((_ & _ & Hnt & _) & _). rewrite forallb_forall in Hnt. apply nth_error_In in NW. exact (Hnt _ NW). }
      destruct HwR as (_ & HwR & _ & HndR). rewrite allP_Forall, Forall_forall in HwR. apply distinct_NoDup in HndR.
      rewrite <- !app_assoc, (l_var F p LR). cbn [bind].
      rewrite (same_reads t k M Hgk Hnk a) by (assumption || lia). cbn [bind].
      rewrite (find_name_nth (map fst vsR) j k HndR) by (rewrite nth_error_map, NR; reflexivity).
      rewrite nth_error_map, NR. cbn [option_map snd].
      rewrite Forall_forall in H. pose proof (H _ (nth_error_In _ _ NW)) as IH. cbn [snd] in IH.
      rewrite (IH t' w r) with (M := M); auto; try lia. exact (HwR _ (nth_error_In _ _ NR)).
  Qed.
End Evolve.

Lemma g_upgrade F p o okleaf skipk tW tR w r bs rest :
  rt_laws F p -> skip_laws F p okleaf skipk ->
  wf p tW -> packs_ok p o tW -> leaves okleaf tW = true -> wf p tR ->
  upg tW tR w r -> has_type p tW w = true ->
  genc F p o tW w = Ok bs -> 1 + lenN bs < 2 ^ usize_bits p ->
  gdec F p o tR (bs ++ rest) = Ok (r, rest).
Proof.
  intros LR LS H1 H2 H3 H4 Hu Hv He Hb.
  eapply (UPG_all F p o okleaf skipk LR LS tW tR w r Hu); try eassumption; [exact (conj H1 (conj H2 H3))|lia].
Qed.

(** A field that the reader requires and that was not written is an error. *)
Lemma g_missing F p o okleaf skipk kt fsW fsR ws ss bs rest :
  rt_laws F p -> skip_laws F p okleaf skipk ->
  wf p (TStruct kt fsW) -> packs_ok p o (TStruct kt fsW) -> leaves okleaf (TStruct kt fsW) = true ->
  wf p (TStruct kt fsR) -> has_type p (TStruct kt fsW) (VList ws) = true ->
  Forall2 (read_slot fsW ws) fsR ss ->
  (exists i fr, nth_error fsR i = Some fr /\ nth_error ss i = Some None /\ fdefault (fst fr) = None) ->
  genc F p o (TStruct kt fsW) (VList ws) = Ok bs -> 1 + lenN bs < 2 ^ usize_bits p ->
  gdec F p o (TStruct kt fsR) (bs ++ rest) = Err.
Proof.
  intros LR LS H1 H2 H3 H4 Hv Hss (i & fr & Hi & Hs & Hd) He Hb.
  assert (Hf : fill (map fst fsR) ss = Err).
  { clear - Hi Hs Hd Hss. revert i Hi Hs. induction Hss as [|x s xs ss H _ IH]; intros [|i] Hi Hs; try discriminate.
    - cbn in *. inversion Hi; inversion Hs; subst. rewrite Hd. reflexivity.
    - cbn. rewrite (IH i Hi Hs). destruct s; [reflexivity|]. destruct (fdefault (fst x)); reflexivity. }
  rewrite (struct_slots F p o okleaf skipk LR LS kt fsW fsR ws ss (lenN bs)) with (bs := bs); auto; try lia.
  - rewrite Hf. reflexivity.
  - exact (conj H1 (conj H2 H3)).
  - apply Forall_forall. intros ft _. apply (UPG_all F p o okleaf skipk LR LS).
Qed.

(** A variant that the reader does not have is an error. *)
Lemma g_unknown_variant F p o fW fR kt vsW vsR i k t w bs rest :
  rt_laws F p -> wf p (TEnum fW kt vsW) -> packs_ok p o (TEnum fW kt vsW) ->
  nth_error vsW i = Some (k, t) -> ~ In k (map fst vsR) ->
  genc F p o (TEnum fW kt vsW) (VVar i w) = Ok bs ->
  gdec F p o (TEnum fR kt vsR) (bs ++ rest) = Err.
Proof.
  intros LR Hw Hp Hi Hk He. cbn [genc] in He. rewrite nth_error_map, Hi in He. cbn [option_map fst snd] in He.
  inv_bind He. inv_bind He. inversion He; subst. cbn [gdec].
  rewrite <- !app_assoc, (l_var F p LR). cbn [bind].
  assert (Hnk : has_type p kt k = true).
  { destruct Hw as (_ & _ & Hnt & _). rewrite forallb_forall in Hnt. apply nth_error_In in Hi. exact (Hnt _ Hi). }
  assert (Hrt : rt false (has_type p kt) (genc F p o kt) (gdec F p o kt)).
  { apply g_roundtrip; [assumption|exact (proj1 Hw)|]. destruct Hp as [H1 H2]. cbn [packs] in *.
    split; [now apply andb_true_iff in H1|]. intros E. specialize (H2 E). now apply andb_true_iff in H2. }
  rewrite (Hrt k a (a0 ++ rest) Hnk) by (assumption || discriminate). cbn [bind].
  apply find_name_none in Hk. rewrite Hk. reflexivity.
Qed.
