(** Decoding arbitrary input with [gdec]: type-safe, and stable under extension of the input. *)
From Verif Require Import Base Options Int Utf8 Types Storage StorageSpec Fmt FmtSpec
  BaseFacts IntFacts TypesFacts StorageFacts DecFacts StorageSafe StabFacts FmtFacts.
From Coq Require Import ZifyBool ZifyNat ZifyN.
Local Open Scope N_scope.

Record stab_laws (F : fmt) (p : plat) : Prop := {
  st_leaf : forall t, leaf t = true -> t <> TUnit -> wf p t ->
    stab False (fun v => has_type p t v = true) (f_leaf_dec F t);
  st_unit : stab True (fun v => has_type p TUnit v = true) (f_leaf_dec F TUnit);
  st_seq : stab False (fun n => n < 2 ^ usize_bits p) (f_seq_dec F);
  st_map : stab False (fun n => n < 2 ^ usize_bits p) (f_map_dec F);
  st_pack : stab False (fun _ => True) (f_pack_dec F);
  st_opt : stab False (fun _ => True) (f_opt_dec F);
  st_var : stab False (fun _ => True) (f_var_dec F);
  st_skip : stab True (fun _ => True) (f_skip F);
  st_rest : forall n, stab True (fun _ => True) (f_skip_rest F n)
}.

Lemma stab_pan {A} (p1 p2 : Prop) (P : A -> Prop) d : (p1 -> p2) -> stab p1 P d -> stab p2 P d.
Proof.
  intros H Hd bs ext Hok. specialize (Hd bs ext Hok). destruct (d bs) as [[a r]| |]; auto.
  intuition.
Qed.

Lemma stab_limited {pan : Prop} n body (P : list val -> Prop) : soundx False P body ->
  stab pan (fun v => exists vs, v = VList vs /\ P vs) (limited n body).
Proof.
  intros Hb bs ext Hok. unfold limited.
  destruct (take_opt n bs) as [[h r]|] eqn:E.
  - apply take_opt_some in E. destruct E as [-> <-]. rewrite <- app_assoc, take_opt_app.
    apply bytes_ok_split in Hok. destruct Hok as [Hh _]. specialize (Hb h Hh).
    destruct (body h) as [[vs q]| |]; cbn; auto; [|contradiction].
    repeat split; [exists vs; intuition|now exists h].
  - specialize (Hb bs Hok). destruct (body bs) as [[vs q]| |]; cbn; auto. contradiction.
Qed.

Lemma g_stab F p o (pan : Prop) t : stab_laws F p -> wf p t -> (pan \/ noskip t = true) ->
  stab pan (fun v => has_type p t v = true) (gdec F p o t).
Proof.
  intros L. pose proof (usize_bits_ge p) as Hub.
  assert (HF : forall {A} (P : A -> Prop) d, stab False P d -> stab pan P d).
  { intros A P d. now apply stab_pan. }
  assert (HT : forall {A} (P : A -> Prop) d, pan -> stab True P d -> stab pan P d).
  { intros A P d Hp. now apply stab_pan. }
  induction t using ty_ind'; intros Hw Hs;
    try (match goal with |- stab _ (fun v => has_type p ?t v = true) _ =>
           apply HF; apply (st_leaf F p L t eq_refl); [discriminate|exact Hw] end);
    cbn [wf noskip] in Hw, Hs; cbn [gdec].
  - (* unit *) destruct Hs as [Hs|Hs]; [|discriminate]. apply (HT _ _ _ Hs). apply (st_unit F p L).
  - (* option *)
    apply (stab_bind (fun _ : bool => True)); [apply HF, (st_opt F p L)|].
    intros [|] _.
    + apply (stab_bind (fun v => has_type p t v = true)); [auto|]. intros v Hv. apply stab_ret. exact Hv.
    + now apply stab_ret.
  - auto.
  - (* vec *)
    apply (stab_bind (fun n => n < 2 ^ usize_bits p)); [apply HF, (st_seq F p L)|]. intros n Hn.
    apply (stab_bind (fun vs => Forall (fun v => has_type p t v = true) vs /\ lenN vs = n)); [apply stab_count; auto|].
    intros vs [Hv Hl]. apply stab_ret. cbn [has_type]. apply andb_true_iff. split.
    + now apply forallb_forall, Forall_forall.
    + unfold len_ok. lia.
  - (* array *)
    destruct Hw as [Hw Hn].
    apply (stab_bind (fun n => n < 2 ^ usize_bits p)); [apply HF, (st_seq F p L)|]. intros m Hm.
    apply (stab_bind (fun vs => Forall (fun v => has_type p t v = true) vs /\ lenN vs = N.min m (n + 1))); [apply stab_count; auto|].
    intros vs [Hv Hl]. cbn beta iota. destruct (m =? n) eqn:E; [|apply stab_err].
    apply stab_ret. cbn [has_type]. apply andb_true_iff. split.
    + now apply forallb_forall, Forall_forall.
    + lia.
  - (* set *)
    apply (stab_bind (fun n => n < 2 ^ usize_bits p)); [apply HF, (st_seq F p L)|]. intros n Hn.
    apply (stab_bind (fun vs => forallb (has_type p t) vs && len_ok p vs && distinct vs = true)).
    + apply stab_set; auto.
    + intros vs Hv. apply stab_ret. exact Hv.
  - (* tuple *)
    destruct Hs as [Hs|Hs]; [|discriminate].
    destruct Hw as [Hw Hl]. rewrite allP_Forall in Hw.
    assert (Hf : Forall2 (fun P d => stab pan (fun v => P v = true) d) (map (has_type p) ts) (map (gdec F p o) ts)).
    { apply Forall2_map_in. intros t Ht. rewrite Forall_forall in H, Hw. apply H; auto. }
    apply (stab_bind (fun n => n < 2 ^ usize_bits p)); [apply HF, (st_seq F p L)|]. intros m Hm. cbn beta iota.
    destruct (m <? lenN ts).
    + assert (Hff : exists Ps, Forall2 (fun P d => stab pan (fun v => P v = true) d) Ps (firstn (N.to_nat m) (map (gdec F p o) ts))).
      { clear - Hf. generalize (N.to_nat m) as k. induction Hf as [|P d Ps ds Hd _ IH]; intros [|k]; cbn; try (exists []; constructor).
        destruct (IH k) as [Qs HQ]. exists (P :: Qs). now constructor. }
      destruct Hff as [Ps Hff].
      apply (stab_bind (fun vs => all2 Ps vs = true)); [now apply stab_list|]. intros vs _. apply stab_err.
    + apply (stab_bind (fun vs => all2 (map (has_type p) ts) vs = true)); [now apply stab_list|]. intros vs Hv.
      apply (stab_bind (fun _ : unit => True)); [apply (HT _ _ _ Hs); apply (st_rest F p L)|].
      intros u _. apply stab_ret. exact Hv.
  - (* map *)
    destruct Hw as [Hw1 Hw2]. rewrite andb_true_iff in Hs.
    apply (stab_bind (fun n => n < 2 ^ usize_bits p)); [apply HF, (st_map F p L)|]. intros n Hn.
    apply (stab_bind (fun kvs => forallb (fun kv => has_type p t1 (fst kv) && has_type p t2 (snd kv)) kvs && len_ok p kvs
                    && distinct (map fst kvs) = true)).
    + apply stab_map; [apply IHt1|apply IHt2|]; tauto.
    + intros kvs Hv. apply stab_ret. exact Hv.
  - (* packed *)
    destruct Hw as (Hw & _ & Hdef). rewrite allP_Forall, Forall_forall in Hw.
    apply (stab_bind (fun _ : N => True)); [apply HF, (st_pack F p L)|]. intros n _. cbn beta iota.
    eapply stab_weaken; [|apply (stab_limited n _ (fun vs => all2 (map (fun ft => has_type p (snd ft)) fs) vs = true))].
    + intros v [vs [-> Hv]]. exact Hv.
    + apply sound_list. apply Forall2_map_in. intros ft Hft. apply pack_field_sound, dec_sound. auto.
  - (* struct *)
    destruct Hs as [Hs|Hs]; [|discriminate].
    destruct Hw as (Hwk & Hw & Hl & Hnt & Hnd & Hdef & Hskip). rewrite allP_Forall, Forall_forall in Hw.
    rewrite Forall_forall in H.
    assert (Hsk : stab pan (fun _ : unit => True) (f_skip F)) by (apply (HT _ _ _ Hs), (st_skip F p L)).
    apply (stab_bind (fun n => n < 2 ^ usize_bits p)); [apply HF, (st_map F p L)|]. intros n Hn. cbn beta iota.
    set (Ps := map (fun ft => has_type p (snd ft)) fs).
    apply (stab_bind (slots_ok Ps)).
    + apply stab_iter_inv.
      * apply (stab_field Ps (fun v => True)); [|exact Hsk|].
        { destruct fs; [|eapply stab_weaken; [|apply IHt]; auto].
          apply (stab_bind (fun _ : unit => True)); [exact Hsk|]. intros u _. now apply stab_ret. }
        subst Ps. apply Forall2_map_in. intros ft Hft. apply H; auto.
      * subst Ps. pose proof (slots_ok_none (map (fun ft => has_type p (snd ft)) fs)) as Hs'.
        rewrite map_map in Hs'. exact Hs'.
    + intros s Hs'. cbn beta iota.
      apply (stab_res (fill (map fst fs) s) (fun vs r => Ok (VList vs, r))).
      * apply fill_no_panic.
      * intros vs Hvs. apply stab_ret. cbn [has_type].
        apply (fill_ok (map fst fs) Ps s); auto.
        { subst Ps. now rewrite !map_length. }
        intros f P d Hin Hd. subst Ps.
        assert (Hex : exists ft, In ft fs /\ f = fst ft /\ P = has_type p (snd ft)).
        { clear - Hin. induction fs as [|ft fs IH]; cbn in Hin; [destruct Hin|].
          destruct Hin as [E|Hin]; [inversion E; subst; exists ft; split; [now left|auto]|].
          destruct (IH Hin) as [x [Hx E]]. exists x. split; [now right|assumption]. }
        destruct Hex as [ft [Hft [-> ->]]]. eauto.
  - (* tag *)
    destruct Hw as (Hwk & Hnt & Hnd).
    apply (stab_bind (fun v => has_type p t v = true)); [auto|]. intros k Hk. cbn beta iota.
    destruct (find_name k tags) as [i|] eqn:Ei; [|apply stab_err]. apply stab_ret. cbn [has_type].
    apply Nat.ltb_lt. apply find_name_some in Ei. apply nth_error_Some. congruence.
  - (* enum *)
    destruct Hw as (Hwk & Hw & Hnt & Hnd). rewrite allP_Forall, Forall_forall in Hw. rewrite Forall_forall in H.
    rewrite andb_true_iff, forallb_forall in Hs.
    apply (stab_bind (fun _ : unit => True)); [apply HF, (st_var F p L)|]. intros u _.
    apply (stab_bind (fun v => has_type p t v = true)); [apply IHt; tauto|].
    intros k Hk. cbn beta iota.
    destruct (find_name k (map fst vs)) as [i|] eqn:E; [|apply stab_err].
    rewrite nth_error_map. destruct (nth_error vs i) as [tv|] eqn:Ei; [|apply stab_err].
    cbn [option_map]. pose proof (nth_error_In _ _ Ei) as Hin.
    apply (stab_bind (fun v => has_type p (snd tv) v = true)).
    { apply H; auto. destruct Hs as [Hs|[_ Hs]]; auto. }
    intros v Hv. apply stab_ret. cbn [has_type]. rewrite nth_error_map, Ei. exact Hv.
Qed.
