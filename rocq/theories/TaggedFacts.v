(** Proofs about tagged enums. *)
From Verif Require Import Base Options Int Utf8 Types Storage StorageSpec Fmt FmtSpec Wire Desc Value ValueSpec Any AnySpec
  Tagged TaggedSpec
  BaseFacts IntFacts TypesFacts DecFacts StorageFacts StorageSafe FmtFacts FmtSafe DescFacts StabFacts FmtStab ValueFacts AnyFacts.
Local Open Scope N_scope.

Lemma ewf_var p e i x : ewf p e -> has_type p (plain e) (VVar i x) = true ->
  exists name t, nth_error (e_vars e) i = Some (name, t) /\ has_type p t x = true /\ wf p t /\
    has_type p (e_name e) name = true /\ find_name name (map fst (e_vars e)) = Some i.
Proof.
  intros (Hw & _) Hv. cbn [plain wf has_type] in *. destruct Hw as (Hwn & Hw & Hnt & Hnd).
  rewrite nth_error_map in Hv. destruct (nth_error (e_vars e) i) as [[name t]|] eqn:E; [|discriminate].
  cbn in Hv. exists name, t. split; [reflexivity|]. split; [assumption|].
  pose proof (nth_error_In _ _ E) as Hin. rewrite allP_Forall, Forall_forall in Hw.
  split; [exact (Hw (name, t) Hin)|].
  rewrite forallb_forall in Hnt. split; [now apply (Hnt (name, t))|].
  apply find_name_nth; [now apply distinct_NoDup|]. now rewrite nth_error_map, E.
Qed.

(** ** Adjacently tagged *)

Section Adj.
  Variables (M : medium) (p : plat) (e : tenum).
  Hypothesis Hwf : ewf p e.
  Hypothesis Hkey : rt false (has_type p (e_key e)) (m_enc M (e_key e)) (m_dec M (e_key e)).
  Hypothesis Hname : rt false (has_type p (e_name e)) (m_enc M (e_name e)) (m_dec M (e_name e)).
  Hypothesis Hbody : forall name t, In (name, t) (e_vars e) -> rt false (has_type p t) (m_enc M t) (m_dec M t).
  Hypothesis Hmap : forall n b rest, n < 2 ^ usize_bits p -> m_map_enc M n = Ok b -> m_map_dec M (b ++ rest) = Ok (n, rest).

  Lemma step_tag nm name a b rest : has_type p (e_name e) name = true ->
    m_enc M (e_key e) (e_tag e) = Ok a -> m_enc M (e_name e) name = Ok b ->
    adj_step M e (Looking nm, a ++ b ++ rest) = Ok (Looking (Some name), rest).
  Proof.
    intros Hn Ha Hb. destruct Hwf as (_ & _ & Ht & _ & _). unfold adj_step. cbn [fst snd].
    rewrite (Hkey _ a _ Ht) by (assumption || discriminate). cbn [bind]. rewrite val_eqb_refl.
    rewrite (Hname _ b _ Hn) by (assumption || discriminate). reflexivity.
  Qed.

  Lemma step_content name i t x c d rest :
    find_name name (map fst (e_vars e)) = Some i -> nth_error (e_vars e) i = Some (name, t) ->
    has_type p t x = true ->
    m_enc M (e_key e) (e_content e) = Ok c -> m_enc M t x = Ok d ->
    adj_step M e (Looking (Some name), c ++ d ++ rest) = Ok (Found (VVar i x), rest).
  Proof.
    intros Hf Hi Hx Hc Hd. destruct Hwf as (_ & _ & _ & Hct & Hne). unfold adj_step. cbn [fst snd].
    rewrite (Hkey _ c _ Hct) by (assumption || discriminate). cbn [bind].
    replace (val_eqb (e_content e) (e_tag e)) with false by (symmetry; apply val_eqb_neq; congruence).
    rewrite val_eqb_refl, Hf, Hi.
    rewrite (Hbody name t (nth_error_In _ _ Hi) x d _ Hx) by (assumption || discriminate). reflexivity.
  Qed.

  Lemma adj_rt : rt false (has_type p (plain e)) (adj_enc M e) (adj_dec M e).
  Proof.
    intros v bs rest Hv _ He. destruct v as [| | | | | | | | |i x]; try discriminate.
    destruct (ewf_var p e i x Hwf Hv) as (name & t & Hi & Hx & _ & Hn & Hf).
    cbn [adj_enc] in He. rewrite Hi in He. inv_bind He. inv_bind He. inv_bind He. inv_bind He. inv_bind He.
    inversion He; subst bs. clear He. unfold adj_dec. rewrite <- app_assoc.
    pose proof (usize_bits_ge p) as Hub.
    assert (2 < 2 ^ usize_bits p).
    { apply N.lt_le_trans with (2 ^ 8); [reflexivity|]. apply N.pow_le_mono_r; lia. }
    rewrite (Hmap 2 a) by assumption. cbn [bind].
    rewrite iterN_nat. change (N.to_nat 2) with 2%nat. cbn [iter_nat].
    rewrite <- !app_assoc. rewrite (step_tag None name) by assumption. cbn [bind].
    rewrite (step_content name i t x) by assumption. reflexivity.
  Qed.
End Adj.

(** With other entries around. *)

Section AdjMore.
  Variables (F : fmt) (p : plat) (o : N) (okleaf : ty -> bool) (skipk : N -> dec unit) (e : tenum).
  Notation M := (of_fmt F p o).
  Notation B := (2 ^ usize_bits p).
  Hypothesis Hwf : ewf p e.
  Hypothesis HL : skip_laws F p okleaf skipk.
  Hypothesis HR : rt_laws F p.
  Hypothesis Hkp : packs_ok p o (e_key e).
  Hypothesis Hko : leaves okleaf (e_key e) = true.

  Notation other := (TaggedSpec.other p okleaf e).

  Notation fields fs := (map (fun ft => (fst ft, genc F p o (snd ft))) fs).

  Lemma looking_skip nm fs : Forall other fs -> forall vs b rest,
    all2 (map (fun ft => has_type p (snd ft)) fs) vs = true ->
    enc_fields (genc F p o (e_key e)) (fields fs) vs = Ok b -> 1 + lenN b < B ->
    iterN (count_fields (map fst fs) vs) (adj_step M e) (Looking nm, b ++ rest) = Ok (Looking nm, rest).
  Proof.
    destruct Hwf as (_ & Hwk & _).
    induction 1 as [|[f t] fs (Hw & Hl & Hn & Ht & Hc) _ IH]; intros [|v vs] b rest Hv He Hb; try discriminate.
    - cbn in He. inversion He; subst. reflexivity.
    - cbn [map all2 fst snd enc_fields count_fields] in *. apply andb_true_iff in Hv. destruct Hv as [Hv Hvs].
      destruct (fskip f v).
      + rewrite N.add_0_l. now apply IH.
      + inv_bind He. inv_bind He. inv_bind He. inversion He; subst b. clear He. rewrite !lenN_app in Hb.
        rewrite iterN_nat, N2Nat.inj_add. change (N.to_nat 1) with 1%nat. cbn [Nat.add iter_nat].
        unfold adj_step at 1. cbn [fst snd of_fmt m_dec m_skip].
        rewrite <- !app_assoc. rewrite (g_roundtrip F p o (e_key e) HR Hwk Hkp (fname f) a) by (assumption || discriminate). cbn [bind].
        replace (val_eqb (fname f) (e_tag e)) with false by (symmetry; now apply val_eqb_neq).
        replace (val_eqb (fname f) (e_content e)) with false by (symmetry; now apply val_eqb_neq).
        rewrite (g_skip F p o okleaf skipk HL t v a0) by (assumption || lia). cbn [bind].
        rewrite <- iterN_nat. apply IH; try assumption. lia.
  Qed.

  Lemma found_skip u fs : Forall other fs -> forall vs b rest,
    all2 (map (fun ft => has_type p (snd ft)) fs) vs = true ->
    enc_fields (genc F p o (e_key e)) (fields fs) vs = Ok b -> 1 + lenN b < B ->
    iterN (count_fields (map fst fs) vs) (adj_step M e) (Found u, b ++ rest) = Ok (Found u, rest).
  Proof.
    destruct Hwf as (_ & Hwk & _).
    induction 1 as [|[f t] fs (Hw & Hl & Hn & Ht & Hc) _ IH]; intros [|v vs] b rest Hv He Hb; try discriminate.
    - cbn in He. inversion He; subst. reflexivity.
    - cbn [map all2 fst snd enc_fields count_fields] in *. apply andb_true_iff in Hv. destruct Hv as [Hv Hvs].
      destruct (fskip f v).
      + rewrite N.add_0_l. now apply IH.
      + inv_bind He. inv_bind He. inv_bind He. inversion He; subst b. clear He. rewrite !lenN_app in Hb.
        rewrite iterN_nat, N2Nat.inj_add. change (N.to_nat 1) with 1%nat. cbn [Nat.add iter_nat].
        unfold adj_step at 1. cbn [fst snd of_fmt m_dec m_skip].
        rewrite <- !app_assoc. rewrite (g_skip F p o okleaf skipk HL (e_key e) (fname f) a) by (assumption || lia). cbn [bind].
        rewrite (g_skip F p o okleaf skipk HL t v a0) by (assumption || lia). cbn [bind].
        rewrite <- iterN_nat. apply IH; try assumption. lia.
  Qed.
End AdjMore.

Lemma enc_fields_app ek fs1 vs1 fs2 vs2 b : length fs1 = length vs1 ->
  enc_fields ek (fs1 ++ fs2) (vs1 ++ vs2) = Ok b ->
  exists b1 b2, enc_fields ek fs1 vs1 = Ok b1 /\ enc_fields ek fs2 vs2 = Ok b2 /\ b = b1 ++ b2.
Proof.
  revert vs1 b. induction fs1 as [|[f e] fs1 IH]; intros [|v vs1] b Hl He; try discriminate.
  - exists [], b. repeat split. exact He.
  - cbn in Hl. injection Hl as Hl. cbn [app enc_fields] in *. destruct (fskip f v).
    + destruct (IH vs1 b Hl He) as (b1 & b2 & E1 & E2 & ->). exists b1, b2. auto.
    + inv_bind He. inv_bind He. inv_bind He. inversion He; subst b. clear He.
      destruct (IH vs1 _ Hl He2) as (b1 & b2 & E1 & E2 & ->). exists (a ++ a0 ++ b1), b2.
      split; [rewrite He0; cbn [bind]; rewrite He1; cbn [bind]; rewrite E1; reflexivity|]. split; [assumption|]. now rewrite <- !app_assoc.
Qed.

Lemma count_fields_app fs1 vs1 fs2 vs2 : length fs1 = length vs1 ->
  count_fields (fs1 ++ fs2) (vs1 ++ vs2) = count_fields fs1 vs1 + count_fields fs2 vs2.
Proof.
  revert vs1. induction fs1 as [|f fs1 IH]; intros [|v vs1] Hl; try discriminate; cbn [app count_fields].
  - reflexivity.
  - rewrite IH by (cbn in Hl; congruence). apply N.add_assoc.
Qed.

Lemma all2_split {A} (f : A -> val -> bool) fs1 fs2 vs1 vs2 : length fs1 = length vs1 ->
  all2 (map f (fs1 ++ fs2)) (vs1 ++ vs2) = true ->
  all2 (map f fs1) vs1 = true /\ all2 (map f fs2) vs2 = true.
Proof.
  revert vs1. induction fs1 as [|x fs1 IH]; intros [|v vs1] Hl H; try discriminate; [auto|].
  cbn [app map all2] in *. apply andb_true_iff in H. destruct H as [Hx H].
  destruct (IH vs1) as [H1 H2]; [cbn in Hl; congruence|exact H|]. now rewrite Hx.
Qed.

Lemma all2_join {A} (f : A -> val -> bool) fs1 fs2 vs1 vs2 :
  all2 (map f fs1) vs1 = true -> all2 (map f fs2) vs2 = true ->
  all2 (map f (fs1 ++ fs2)) (vs1 ++ vs2) = true.
Proof.
  revert vs1. induction fs1 as [|x fs1 IH]; intros [|v vs1] H1 H2; try discriminate; [auto|].
  cbn [app map all2] in *. apply andb_true_iff in H1. destruct H1 as [Hx H1]. rewrite Hx. now apply IH.
Qed.

Lemma iterN_plus {A} (f : A -> res A) n m s s' : iterN n f s = Ok s' -> iterN (n + m) f s = iterN m f s'.
Proof.
  rewrite !iterN_nat, N2Nat.inj_add, iter_nat_add. intros ->. reflexivity.
Qed.

Section AdjStruct.
  Variables (F : fmt) (p : plat) (o : N) (okleaf : ty -> bool) (skipk : N -> dec unit) (e : tenum).
  Notation M := (of_fmt F p o).
  Hypothesis Hwf : ewf p e.
  Hypothesis HL : skip_laws F p okleaf skipk.
  Hypothesis HR : rt_laws F p.
  Hypothesis Hp : each_ty (packs_ok p o) e.
  Hypothesis Hko : leaves okleaf (e_key e) = true.
  Notation other := (TaggedSpec.other p okleaf e).
  Notation typed fs vs := (all2 (map (fun ft => has_type p (snd ft)) fs) vs = true).

  Let RTK : rt false (has_type p (e_key e)) (m_enc M (e_key e)) (m_dec M (e_key e)).
  Proof. apply g_roundtrip; [assumption|apply Hwf|apply Hp]. Qed.
  Let RTN : rt false (has_type p (e_name e)) (m_enc M (e_name e)) (m_dec M (e_name e)).
  Proof. apply g_roundtrip; [assumption|apply Hwf|apply Hp]. Qed.
  Let RTB : forall name t, In (name, t) (e_vars e) -> rt false (has_type p t) (m_enc M t) (m_dec M t).
  Proof.
    intros name t Hin. destruct Hwf as (Hw & _). cbn [plain wf] in Hw. destruct Hw as (_ & Hw & _).
    rewrite allP_Forall, Forall_forall in Hw. apply g_roundtrip; [assumption|exact (Hw (name, t) Hin)|].
    destruct Hp as (_ & _ & Hb). eauto.
  Qed.

  (** The tag, then the content, with other fields anywhere *)
  Lemma adj_struct pre mid post vs1 vs2 vs3 i name t x bs rest :
    Forall other pre -> Forall other mid -> Forall other post ->
    typed pre vs1 -> typed mid vs2 -> typed post vs3 ->
    length pre = length vs1 -> length mid = length vs2 ->
    lenN (pre ++ mid ++ post) + 2 < 2 ^ usize_bits p ->
    nth_error (e_vars e) i = Some (name, t) -> has_type p t x = true ->
    genc F p o (TStruct (e_key e) (pre ++ (always (e_tag e), e_name e) :: mid ++ (always (e_content e), t) :: post))
      (VList (vs1 ++ name :: vs2 ++ x :: vs3)) = Ok bs -> 1 + lenN bs < 2 ^ usize_bits p ->
    adj_dec M e (bs ++ rest) = Ok (VVar i x, rest).
  Proof.
    intros O1 O2 O3 T1 T2 T3 L1 L2 HB Hi Hx He Hlen. cbn [genc] in He.
    inv_bind He. inv_bind He. inversion He; subst bs. clear He.
    rewrite map_app, count_fields_app in He0 by (now rewrite map_length). cbn [map count_fields fst always fskip] in He0.
    rewrite map_app, count_fields_app in He0 by (now rewrite map_length). cbn [map count_fields fst always fskip] in He0.
    rewrite map_app in He1. apply enc_fields_app in He1; [|now rewrite map_length].
    destruct He1 as (b1 & b2 & E1 & E2 & ->). cbn [map fst snd enc_fields always fskip fname] in E2.
    inv_bind E2. inv_bind E2. inv_bind E2. inversion E2; subst b2. clear E2.
    rewrite map_app in E4. apply enc_fields_app in E4; [|now rewrite map_length].
    destruct E4 as (b3 & b4 & E5 & E6 & ->). cbn [map fst snd enc_fields always fskip fname] in E6.
    inv_bind E6. inv_bind E6. inv_bind E6. inversion E6; subst b4. clear E6.
    rewrite !lenN_app in Hlen.
    pose proof (count_fields_le (map fst pre) vs1) as C1. pose proof (count_fields_le (map fst mid) vs2) as C2.
    pose proof (count_fields_le (map fst post) vs3) as C3.
    assert (lenN (map fst pre) = lenN pre /\ lenN (map fst mid) = lenN mid /\ lenN (map fst post) = lenN post) as (Z1 & Z2 & Z3)
      by (unfold lenN; rewrite !map_length; auto).
    rewrite !lenN_app in HB.
    assert (Hv : has_type p (plain e) (VVar i x) = true).
    { cbn [plain has_type]. now rewrite nth_error_map, Hi. }
    destruct (ewf_var p e i x Hwf Hv) as (name' & t' & Hi' & _ & _ & Hn & Hf).
    rewrite Hi in Hi'. inversion Hi'; subst name' t'. clear Hi'.
    unfold adj_dec. rewrite <- !app_assoc. cbn [of_fmt m_map_dec].
    pose proof (fun r H => l_map F p HR _ a r H He0) as Hm. rewrite Hm by lia. cbn [bind].
    rewrite (iterN_plus _ _ _ _ _ (looking_skip F p o okleaf skipk e Hwf HL HR (proj1 Hp) None pre O1 vs1 b1 _ T1 E1 ltac:(lia))).
    rewrite (iterN_plus _ 1 _ _ (Looking (Some name), b3 ++ a2 ++ a3 ++ a4 ++ rest)).
    2:{ rewrite iterN_nat. change (N.to_nat 1) with 1%nat. cbn [iter_nat].
        rewrite (step_tag M p e Hwf RTK RTN None name a0 a1) by assumption. reflexivity. }
    rewrite (iterN_plus _ _ _ _ _ (looking_skip F p o okleaf skipk e Hwf HL HR (proj1 Hp) (Some name) mid O2 vs2 b3 _ T2 E5 ltac:(lia))).
    rewrite (iterN_plus _ 1 _ _ (Found (VVar i x), a4 ++ rest)).
    2:{ rewrite iterN_nat. change (N.to_nat 1) with 1%nat. cbn [iter_nat].
        rewrite (step_content M p e Hwf RTK RTB name i t x a2 a3) by assumption. reflexivity. }
    rewrite (found_skip F p o okleaf skipk e Hwf HL Hko (VVar i x) post O3 vs3 a4 _ T3 E7 ltac:(lia)). reflexivity.
  Qed.

  (** The content before the tag *)
  Lemma adj_swapped pre post vs1 vs3 t x bs rest :
    Forall other pre -> typed pre vs1 -> length pre = length vs1 ->
    lenN (pre ++ post) + 1 < 2 ^ usize_bits p -> 
    genc F p o (TStruct (e_key e) (pre ++ (always (e_content e), t) :: post)) (VList (vs1 ++ x :: vs3)) = Ok bs ->
    1 + lenN bs < 2 ^ usize_bits p ->
    adj_dec M e (bs ++ rest) = Err.
  Proof.
    intros O1 T1 L1 HB He Hlen. cbn [genc] in He.
    inv_bind He. inv_bind He. inversion He; subst bs. clear He.
    rewrite map_app, count_fields_app in He0 by (now rewrite map_length). cbn [map count_fields fst always fskip] in He0.
    rewrite map_app in He1. apply enc_fields_app in He1; [|now rewrite map_length].
    destruct He1 as (b1 & b2 & E1 & E2 & ->). cbn [map fst snd enc_fields always fskip fname] in E2.
    inv_bind E2. inv_bind E2. inv_bind E2. inversion E2; subst b2. clear E2.
    rewrite !lenN_app in Hlen.
    pose proof (count_fields_le (map fst pre) vs1) as C1. pose proof (count_fields_le (map fst post) vs3) as C3.
    assert (lenN (map fst pre) = lenN pre /\ lenN (map fst post) = lenN post) as (Z1 & Z3)
      by (unfold lenN; rewrite !map_length; auto).
    rewrite !lenN_app in HB.
    unfold adj_dec. rewrite <- !app_assoc. cbn [of_fmt m_map_dec].
    pose proof (fun r H => l_map F p HR _ a r H He0) as Hm. rewrite Hm by lia. cbn [bind].
    rewrite (iterN_plus _ _ _ _ _ (looking_skip F p o okleaf skipk e Hwf HL HR (proj1 Hp) None pre O1 vs1 b1 _ T1 E1 ltac:(lia))).
    rewrite iterN_nat, N2Nat.inj_add. change (N.to_nat 1) with 1%nat. cbn [Nat.add iter_nat].
    unfold adj_step at 1. cbn [fst snd].
    destruct Hwf as (_ & _ & _ & Hct & Hne).
    rewrite (RTK (e_content e) a0 _ Hct) by (assumption || discriminate). cbn [bind].
    replace (val_eqb (e_content e) (e_tag e)) with false by (symmetry; apply val_eqb_neq; congruence).
    rewrite val_eqb_refl. reflexivity.
  Qed.
End AdjStruct.

(** Any input *)
Lemma adj_stab (pan : Prop) M p e : ewf p e ->
  stab pan (fun v => has_type p (e_key e) v = true) (m_dec M (e_key e)) ->
  stab pan (fun v => has_type p (e_name e) v = true) (m_dec M (e_name e)) ->
  (forall name t, In (name, t) (e_vars e) -> stab pan (fun v => has_type p t v = true) (m_dec M t)) ->
  stab pan (fun n => n < 2 ^ usize_bits p) (m_map_dec M) ->
  stab pan (fun _ : unit => True) (m_skip M) ->
  stab pan (fun v => has_type p (plain e) v = true) (adj_dec M e).
Proof.
  intros Hw Hk Hn Hb Hm Hs. unfold adj_dec.
  apply (stab_bind (fun n => n < 2 ^ usize_bits p)); [assumption|]. intros n _. cbn beta iota.
  apply (stab_bind (fun s => match s with Found v => has_type p (plain e) v = true | Looking _ => True end)).
  - apply (stab_iter_inv (fun s => match s with Found v => has_type p (plain e) v = true | Looking _ => True end)); [|exact Logic.I].
    intros s Hst. unfold adj_step. cbn [fst snd]. destruct s as [nm|v].
    + apply (stab_bind (fun v => has_type p (e_key e) v = true)); [assumption|]. intros k _. cbn beta iota.
      destruct (val_eqb k (e_tag e)).
      { apply (stab_bind (fun v => has_type p (e_name e) v = true)); [assumption|]. intros k' _. now apply stab_ret. }
      destruct (val_eqb k (e_content e)).
      { destruct nm as [nm|]; [|apply stab_err]. destruct (find_name nm (map fst (e_vars e))) as [i|]; [|apply stab_err].
        destruct (nth_error (e_vars e) i) as [[name t]|] eqn:Ei; [|apply stab_err].
        apply (stab_bind (fun v => has_type p t v = true)); [exact (Hb name t (nth_error_In _ _ Ei))|].
        intros x Hx. apply stab_ret. cbn [plain has_type]. now rewrite nth_error_map, Ei. }
      apply (stab_bind (fun _ : unit => True)); [assumption|]. intros k' _. now apply stab_ret.
    + apply (stab_bind (fun _ : unit => True)); [assumption|]. intros k _.
      apply (stab_bind (fun _ : unit => True)); [assumption|]. intros k' _. now apply stab_ret.
  - intros [nm|v] Hst; [apply stab_err|now apply stab_ret].
Qed.

Lemma adj_sound p o e : ewf p e ->
  sound (fun v => has_type p (plain e) v = true) (adj_dec (of_storage p o) e).
Proof.
  intros Hw. pose proof Hw as (Hwp & Hwk & _). destruct Hwp as (Hwn & Hwb & _). unfold adj_dec. cbn [of_storage m_map_dec].
  apply (sound_bind (fun n => n < 2 ^ usize_bits p)); [apply sound_usize|]. intros n _. cbn beta iota.
  apply (sound_bind (fun s => match s with Found v => has_type p (plain e) v = true | Looking _ => True end)).
  - apply (sound_iter_inv (fun s => match s with Found v => has_type p (plain e) v = true | Looking _ => True end)); [|exact Logic.I].
    intros s Hst. unfold adj_step. cbn [fst snd of_storage m_dec m_skip]. destruct s as [nm|v].
    + apply (sound_bind (fun v => has_type p (e_key e) v = true)); [now apply dec_sound|]. intros k _. cbn beta iota.
      destruct (val_eqb k (e_tag e)).
      { apply (sound_bind (fun v => has_type p (e_name e) v = true)); [now apply dec_sound|]. intros k' _. now apply sound_ret. }
      destruct (val_eqb k (e_content e)).
      { destruct nm as [nm|]; [|apply sound_err]. destruct (find_name nm (map fst (e_vars e))) as [i|]; [|apply sound_err].
        destruct (nth_error (e_vars e) i) as [[name t]|] eqn:Ei; [|apply sound_err].
        apply (sound_bind (fun v => has_type p t v = true)).
        - apply dec_sound. rewrite allP_Forall, Forall_forall in Hwb. exact (Hwb _ (nth_error_In _ _ Ei)).
        - intros x Hx. apply sound_ret. cbn [plain has_type]. now rewrite nth_error_map, Ei. }
      apply sound_err.
    + apply sound_err.
  - intros [nm|v] Hst; [apply sound_err|now apply sound_ret].
Qed.

(** ** Internally tagged *)

Section Internal.
  Variables (p : plat) (o : N).
  Notation F := (descriptive p o).
  Notation RB := (R p BUFFER_OPTIONS).

  (** The fields of a struct as the entries of a dynamic map *)
  Lemma fields_value kt fs : wf p kt -> buf_ok p o kt ->
    Forall (fun ft => wf p (snd ft) /\ buf_ok p o (snd ft) /\ has_type p kt (fname (fst ft)) = true) fs ->
    forall vs b, all2 (map (fun ft => has_type p (snd ft)) fs) vs = true ->
    enc_fields (genc F p o kt) (map (fun ft => (fst ft, genc F p o (snd ft))) fs) vs = Ok b ->
    exists es, concat_res (fun '(k, y) => let* a := uenc F k in let* b := uenc F y in Ok (a ++ b)) es = Ok b /\
      lenN es = count_fields (map fst fs) vs /\
      Forall (fun kv => value_ok p (fst kv) /\ value_ok p (snd kv)) es /\
      forall keys, ents p BUFFER_OPTIONS keys kt fs vs (map (fun '(k, y) => (norm p k, norm p y)) es).
  Proof.
    intros Hwk Hbk.
    assert (HB : forall t, buf_ok p o t -> bufd p o BUFFER_OPTIONS t).
    { intros t [H|[Ho H]]; [now left|right]. split; [assumption|]. split; [assumption|]. subst. left. reflexivity. }
    assert (HA : forall t, wf p t -> as_value F p o BUFFER_OPTIONS t).
    { intros t. now apply as_value_all. }
    induction 1 as [|[f t] fs (Hw & Hb & Hn) _ IH]; intros [|v vs] b Hv He; try discriminate.
    - cbn in He. inversion He; subst. exists []. repeat split; constructor.
    - cbn [map all2 fst snd enc_fields count_fields] in *. apply andb_true_iff in Hv. destruct Hv as [Hv Hvs].
      destruct (fskip f v) eqn:Es.
      + destruct (IH vs b Hvs He) as (es & E & El & Eo & Er). exists es. split; [assumption|]. split; [lia|].
        split; [assumption|]. intros keys. now apply E_skip.
      + inv_bind He. inv_bind He. inv_bind He. inversion He; subst b. clear He.
        destruct (IH vs a1 Hvs He2) as (es & E & El & Eo & Er).
        destruct (HA kt Hwk _ _ Hn He0) as (x & Ex & Hx & _). destruct (HA t Hw _ _ Hv He1) as (y & Ey & Hy & _).
        destruct (Hx (HB _ Hbk)) as [Ox Rx]. destruct (Hy (HB _ Hb)) as [Oy Ry].
        exists ((x, y) :: es). cbn [concat_res]. rewrite Ex, Ey. cbn [bind]. rewrite E. cbn [bind].
        rewrite <- app_assoc. split; [reflexivity|]. rewrite lenN_cons. split; [lia|].
        split; [constructor; [split; assumption|assumption]|]. intros keys. cbn [map]. apply E_keep; auto.
  Qed.

  Lemma ents_app keys kt fs1 vs1 fs2 vs2 es : length fs1 = length vs1 ->
    ents p BUFFER_OPTIONS keys kt (fs1 ++ fs2) (vs1 ++ vs2) es ->
    exists es1 es2, es = es1 ++ es2 /\ ents p BUFFER_OPTIONS keys kt fs1 vs1 es1 /\ ents p BUFFER_OPTIONS keys kt fs2 vs2 es2.
  Proof.
    revert vs1 es. induction fs1 as [|[f t] fs1 IH]; intros [|v vs1] es Hl H; try discriminate.
    - exists [], es. repeat split; [constructor|assumption].
    - cbn in Hl. injection Hl as Hl. cbn [app] in H. inversion H; subst.
      + destruct (IH vs1 es Hl) as (es1 & es2 & -> & H1 & H2); [assumption|]. exists es1, es2.
        split; [reflexivity|]. split; [now apply E_skip|assumption].
      + destruct (IH vs1 es0 Hl) as (es1 & es2 & -> & H1 & H2); [assumption|]. exists ((k, x) :: es1), es2.
        split; [reflexivity|]. split; [now apply E_keep|assumption].
  Qed.

  Lemma ents_join keys kt fs1 vs1 fs2 vs2 es1 es2 :
    ents p BUFFER_OPTIONS keys kt fs1 vs1 es1 -> ents p BUFFER_OPTIONS keys kt fs2 vs2 es2 ->
    ents p BUFFER_OPTIONS keys kt (fs1 ++ fs2) (vs1 ++ vs2) (es1 ++ es2).
  Proof.
    intros H1 HE2. induction H1; cbn [app]; [assumption|apply E_skip|apply E_keep]; auto.
  Qed.

  Lemma vfold_noop {S A} (f : S -> A -> res S) l1 a l2 s : (forall s, f s a = Ok s) ->
    vfold f s (l1 ++ a :: l2) = vfold f s (l1 ++ l2).
  Proof.
    intros H. revert s. induction l1 as [|x l1 IH]; intros s; cbn [app vfold].
    - now rewrite H.
    - destruct (f s x); cbn [bind]; auto.
  Qed.

  Lemma find_tag_app keys kt tag fs1 vs1 es1 k x es2 : ents p BUFFER_OPTIONS keys kt fs1 vs1 es1 ->
    (forall ft, In ft fs1 -> fname (fst ft) <> tag) -> RB keys keys kt tag k ->
    find_tag (vdec p BUFFER_OPTIONS keys keys kt) tag (es1 ++ (k, x) :: es2) = Ok x.
  Proof.
    intros H Hn Hk. induction H; cbn [app find_tag].
    - rewrite Hk. cbn [bind]. now rewrite val_eqb_refl.
    - apply IHents. intros ft Hin. apply Hn. now right.
    - unfold R in H0. rewrite H0. cbn [bind].
      replace (val_eqb (fname f) tag) with false
        by (symmetry; apply val_eqb_neq; apply (Hn (f, t)); now left).
      apply IHents. intros ft Hin. apply Hn. now right.
  Qed.

  (** A variant whose tag is among its fields, as a dynamic value *)
  Lemma int_value_rt keys e i name fs1 fs2 vs1 vs2 es1 es2 k x :
    ewf p e -> nth_error (e_vars e) i = Some (name, TStruct (e_key e) (fs1 ++ fs2)) ->
    NoDup (e_tag e :: map (fun ft => fname (fst ft)) (fs1 ++ fs2)) ->
    (forall ft v, In ft (fs1 ++ fs2) -> fskip (fst ft) v = true -> fdefault (fst ft) = Some v) ->
    ents p BUFFER_OPTIONS keys (e_key e) fs1 vs1 es1 -> ents p BUFFER_OPTIONS keys (e_key e) fs2 vs2 es2 ->
    RB keys keys (e_key e) (e_tag e) k -> RB keys false (e_name e) name x ->
    int_dec_value p BUFFER_OPTIONS keys e (UMap (es1 ++ (k, x) :: es2)) = Ok (VVar i (VList (vs1 ++ vs2))).
  Proof.
    intros Hw Hi Hnd Hsk H1 H2 Hk Hx. inversion Hnd as [|? ? Hnt Hnd']; subst.
    unfold int_dec_value. rewrite (find_tag_app keys _ _ fs1 vs1).
    2: assumption.
    2:{ intros ft Hin E. apply Hnt. rewrite <- E. apply (in_map (fun ft => fname (fst ft))). apply in_or_app. now left. }
    2: assumption.
    cbn [bind]. unfold R in Hx. rewrite Hx. cbn [bind].
    destruct Hw as (Hwp & _). cbn [plain wf] in Hwp. destruct Hwp as (_ & _ & _ & Hd).
    rewrite (find_name_nth _ i name) by (try (now apply distinct_NoDup); now rewrite nth_error_map, Hi).
    rewrite Hi.
    enough (HV : vdec p BUFFER_OPTIONS keys false (TStruct (e_key e) (fs1 ++ fs2)) (UMap (es1 ++ (k, x) :: es2)) = Ok (VList (vs1 ++ vs2)))
      by (rewrite HV; reflexivity).
    pose proof (R_struct p BUFFER_OPTIONS keys false (e_key e) (fs1 ++ fs2) (vs1 ++ vs2) (es1 ++ es2)
      (ents_join _ _ _ _ _ _ _ _ H1 H2) Hnd' Hsk) as HS. unfold R in HS. cbn [vdec] in *.
    destruct (fs1 ++ fs2) as [|ft0 fs'] eqn:Efs; [exact HS|]. rewrite <- Efs in *.
    rewrite vfold_noop; [exact HS|]. intros s. unfold vdec_field. cbn [fst snd]. unfold R in Hk. rewrite Hk. cbn [bind].
    replace (find_name (e_tag e) (map (fun ft => fname (fst ft)) (fs1 ++ fs2))) with (@None nat); [reflexivity|].
    symmetry. now apply find_name_none.
  Qed.

  Lemma int_struct_rt e i name fs1 fs2 vs1 vs2 bs rest :
    ewf p e -> each_ty (buf_ok p o) e ->
    nth_error (e_vars e) i = Some (name, TStruct (e_key e) (fs1 ++ fs2)) -> wf p (with_tag e fs1 fs2) ->
    length fs1 = length vs1 ->
    has_type p (TStruct (e_key e) (fs1 ++ fs2)) (VList (vs1 ++ vs2)) = true ->
    genc F p o (with_tag e fs1 fs2) (VList (vs1 ++ name :: vs2)) = Ok bs ->
    int_dec p o e (bs ++ rest) = Ok (VVar i (VList (vs1 ++ vs2)), rest).
  Proof.
    intros Hw (Hbk & Hbn & Hbb) Hi Hwt Hl Hv He.
    pose proof (nth_error_In _ _ Hi) as Hin. specialize (Hbb _ _ Hin).
    pose proof Hw as (Hwp & Hwk & Htag & _).
    cbn [plain wf] in Hwp. destruct Hwp as (Hwn & _ & Hnt & Hd). rewrite forallb_forall in Hnt.
    specialize (Hnt _ Hin). cbn [fst] in Hnt.
    unfold with_tag in *. cbn [wf] in Hwt. destruct Hwt as (_ & Hwf & Hlen & Hnames & Hdn & _ & Hsk).
    rewrite allP_Forall, Forall_forall in Hwf. apply distinct_NoDup in Hdn.
    cbn [has_type] in Hv. apply all2_split in Hv; [|assumption]. destruct Hv as [Hv1 Hv2].
    cbn [genc] in He. inv_bind He. inv_bind He. inversion He; subst bs. clear He.
    assert (HB : Forall (fun ft => wf p (snd ft) /\ buf_ok p o (snd ft) /\ has_type p (e_key e) (fname (fst ft)) = true)
                  (fs1 ++ (always (e_tag e), e_name e) :: fs2)).
    { apply Forall_forall. intros ft Hft. split; [now apply Hwf|].
      rewrite forallb_forall in Hnames. split; [|now apply Hnames].
      apply in_app_or in Hft. destruct Hft as [Hft|[<-|Hft]]; [|exact Hbn|];
        (destruct Hbb as [Hb|[Ho Hb]]; [left; cbn [unpacked packs] in Hb; unfold unpacked in *; cbn [packs] in Hb;
           apply andb_true_iff in Hb; destruct Hb as [_ Hb]; rewrite forallb_forall in Hb; apply Hb; apply in_or_app; auto|
           right; split; [assumption|]; apply (packs_ok_sub p o (TStruct (e_key e) (fs1 ++ fs2))); [|assumption];
           intros P HP; cbn [packs] in HP; apply andb_true_iff in HP; destruct HP as [_ HP]; rewrite forallb_forall in HP;
           apply HP; apply in_or_app; auto]). }
    assert (HV : all2 (map (fun ft => has_type p (snd ft)) (fs1 ++ (always (e_tag e), e_name e) :: fs2)) (vs1 ++ name :: vs2) = true).
    { apply all2_join; [assumption|]. cbn [map all2 snd]. now rewrite Hnt, Hv2. }
    destruct (fields_value (e_key e) _ Hwk Hbk HB _ _ HV He1) as (es & Ees & Ec & Eo & Er).
    assert (Hx : uenc F (UMap es) = Ok (a ++ a0)).
    { cbn [uenc]. rewrite concat_in_eq, Ees, Ec. cbn [bind]. fold descriptive in *. now rewrite He0. }
    assert (Hok : value_ok p (UMap es)).
    { constructor; [assumption|]. apply len_ok_lt in Hlen. pose proof (count_fields_le (map fst (fs1 ++ (always (e_tag e), e_name e) :: fs2)) (vs1 ++ name :: vs2)) as Hc.
      unfold lenN in *. rewrite map_length in Hc. lia. }
    destruct (dany_rt p o (UMap es) _ Hok Hx) as [_ Hd'].
    unfold int_dec, desc_decode_value. rewrite Hd' by (rewrite !app_length; lia). cbn [bind norm].
    specialize (Er false). apply ents_app in Er; [|assumption]. destruct Er as (es1 & es2 & -> & E1 & E2).
    inversion E2; subst.
    { match goal with H : fskip (always _) _ = true |- _ => discriminate H end. }
    cbn [fst always fname] in *.
    rewrite (int_value_rt false e i name fs1 fs2 vs1 vs2 es1 es0 k x); try assumption; [reflexivity| |].
    - rewrite map_app in Hdn. cbn [map fst always fname] in Hdn. apply NoDup_remove in Hdn.
      rewrite map_app. constructor; apply Hdn.
    - intros ft v Hft. apply Hsk. apply in_app_or in Hft. apply in_or_app. destruct Hft; [now left|right; now right].
  Qed.
End Internal.

Lemma find_tag_safe p o keys e es : wf p (e_key e) ->
  Forall (fun kv => value_ok p (fst kv) /\ value_ok p (snd kv)) es ->
  safe (value_ok p) (find_tag (vdec p o keys keys (e_key e)) (e_tag e) es).
Proof.
  intros Hw. induction 1 as [|[a b] es [Ha Hb] _ IH]; cbn [find_tag]; [exact Logic.I|].
  pose proof (vdec_safe p o keys (e_key e) Hw keys a Ha) as Hs.
  destruct (vdec p o keys keys (e_key e) a) as [k| |]; cbn [bind]; [|exact Logic.I|contradiction].
  destruct (val_eqb k (e_tag e)); [exact Hb|exact IH].
Qed.

Lemma int_dec_value_safe p o keys e x : ewf p e -> value_ok p x ->
  safe (fun v => has_type p (plain e) v = true) (int_dec_value p o keys e x).
Proof.
  intros (Hwp & Hwk & _) Hx. destruct x; try exact Logic.I. inversion Hx; subst. unfold int_dec_value.
  pose proof (find_tag_safe p o keys e kvs Hwk H0) as Hf.
  destruct (find_tag _ _ kvs) as [b| |]; cbn [bind]; [|exact Logic.I|contradiction]. cbn [safe] in Hf.
  pose proof Hwp as Hwp'. cbn [plain wf] in Hwp'. destruct Hwp' as (Hwn & Hwb & _).
  pose proof (vdec_safe p o keys (e_name e) Hwn false b Hf) as Hs.
  destruct (vdec p o keys false (e_name e) b) as [n| |]; cbn [bind]; [|exact Logic.I|contradiction].
  destruct (find_name n (map fst (e_vars e))) as [i|]; [|exact Logic.I].
  destruct (nth_error (e_vars e) i) as [[name t]|] eqn:Ei; [|exact Logic.I].
  rewrite allP_Forall, Forall_forall in Hwb. pose proof (Hwb _ (nth_error_In _ _ Ei)) as Hwt. cbn [snd] in Hwt.
  pose proof (vdec_safe p o keys t Hwt false (UMap kvs) Hx) as Hy.
  destruct (vdec p o keys false t (UMap kvs)) as [y| |]; cbn [bind]; [|exact Logic.I|contradiction].
  cbn [safe plain has_type]. now rewrite nth_error_map, Ei.
Qed.

(** ** Untagged *)

Lemma unt_from_hit M ts : forall i j t bs x r, nth_error ts j = Some t ->
  (forall k t', (k < j)%nat -> nth_error ts k = Some t' -> m_dec M t' bs = Err) ->
  m_dec M t bs = Ok (x, r) ->
  unt_from M i ts bs = Ok (VVar (i + j) x, if (S j =? length ts)%nat then r else bs).
Proof.
  induction ts as [|t0 ts IH]; intros i j t bs x r Hj Hb Hd; [now destruct j|].
  destruct j as [|j].
  - cbn in Hj. inversion Hj; subst. cbn [unt_from]. rewrite Nat.add_0_r. destruct ts; rewrite Hd; reflexivity.
  - cbn [nth_error] in Hj. cbn [unt_from]. rewrite (Hb 0%nat t0 ltac:(lia) eq_refl).
    destruct ts as [|t1 ts]; [now destruct j|].
    rewrite (IH (S i) j t bs x r Hj); [|intros k t' Hk Ht; apply (Hb (S k) t'); [lia|assumption]|assumption].
    replace (S i + j)%nat with (i + S j)%nat by lia. reflexivity.
Qed.

Lemma unt_from_inv M ts : forall i bs v r, unt_from M i ts bs = Ok (v, r) ->
  exists j t x r', v = VVar (i + j) x /\ nth_error ts j = Some t /\ m_dec M t bs = Ok (x, r') /\
    (forall k t', (k < j)%nat -> nth_error ts k = Some t' -> m_dec M t' bs = Err).
Proof.
  induction ts as [|t0 ts IH]; intros i bs v r H; [discriminate|]. cbn [unt_from] in H.
  assert (Hhit : forall x r', m_dec M t0 bs = Ok (x, r') -> v = VVar i x ->
    exists j t x r', v = VVar (i + j) x /\ nth_error (t0 :: ts) j = Some t /\ m_dec M t bs = Ok (x, r') /\
      (forall k t', (k < j)%nat -> nth_error (t0 :: ts) k = Some t' -> m_dec M t' bs = Err)).
  { intros x r' E ->. exists 0%nat, t0, x, r'. rewrite Nat.add_0_r. repeat split; auto. intros k t' Hk. lia. }
  destruct ts as [|t1 ts].
  - destruct (m_dec M t0 bs) as [[x r']| |]; try discriminate. cbn in H. inversion H; subst. eauto.
  - destruct (m_dec M t0 bs) as [[x r']| |] eqn:E; try discriminate.
    + inversion H; subst. eauto.
    + destruct (IH (S i) bs v r H) as (j & t & x & r' & -> & Hj & Hd & Hb).
      exists (S j), t, x, r'. split; [f_equal; lia|]. split; [assumption|]. split; [assumption|].
      intros [|k] t' Hk Ht; [cbn in Ht; inversion Ht; now subst|]. apply (Hb k t'); [lia|assumption].
Qed.

(** ** Fallback variants *)

Section Fallback.
  Variables (F : fmt) (p : plat) (o : N) (okleaf : ty -> bool) (skipk : N -> dec unit).
  Hypothesis HL : skip_laws F p okleaf skipk.
  Hypothesis HR : rt_laws F p.

  Lemma fb_unknown fast kt vsW vsR fb i name t x bs rest :
    wf p (TEnum fast kt vsW) -> packs_ok p o kt -> leaves okleaf t = true ->
    nth_error vsW i = Some (name, t) -> has_type p t x = true -> ~ In name (map fst vsR) ->
    genc F p o (TEnum fast kt vsW) (VVar i x) = Ok bs -> 1 + lenN bs < 2 ^ usize_bits p ->
    fb_dec F p o kt vsR fb (bs ++ rest) = Ok (VVar fb (VList []), rest) /\
    gdec F p o (TEnum fast kt vsR) (bs ++ rest) = Err.
  Proof.
    intros Hw Hp Hlt Hi Hx Hn He Hlen. cbn [wf] in Hw. destruct Hw as (Hwk & Hwb & Hnt & Hd).
    cbn [genc] in He. rewrite nth_error_map, Hi in He. cbn [option_map fst snd] in He.
    inv_bind He. inv_bind He. inversion He; subst bs. clear He. rewrite !lenN_app in Hlen.
    rewrite forallb_forall in Hnt. pose proof (Hnt _ (nth_error_In _ _ Hi)) as Ht. cbn [fst] in Ht.
    rewrite allP_Forall, Forall_forall in Hwb. pose proof (Hwb _ (nth_error_In _ _ Hi)) as Hwt. cbn [snd] in Hwt.
    assert (HN : find_name name (map fst vsR) = None) by now apply find_name_none.
    unfold fb_dec. cbn [gdec]. rewrite <- !app_assoc, (l_var F p HR). cbn [bind].
    rewrite (g_roundtrip F p o kt HR Hwk Hp name a) by (assumption || discriminate). cbn [bind]. rewrite HN.
    split; [|reflexivity].
    rewrite (g_skip F p o okleaf skipk HL t x a0) by (assumption || lia). reflexivity.
  Qed.

  Lemma fb_known fast kt vs fb v bs rest :
    wf p (TEnum fast kt vs) -> packs_ok p o (TEnum fast kt vs) -> has_type p (TEnum fast kt vs) v = true ->
    genc F p o (TEnum fast kt vs) v = Ok bs ->
    fb_dec F p o kt vs fb (bs ++ rest) = Ok (v, rest).
  Proof.
    intros Hw Hp Hv He. pose proof (g_roundtrip F p o _ HR Hw Hp v bs rest Hv ltac:(discriminate) He) as H.
    cbn [gdec] in H. unfold fb_dec. revert H.
    destruct (f_var_dec F (bs ++ rest)) as [[u r]| |]; cbn [bind]; [|discriminate|discriminate].
    destruct (gdec F p o kt r) as [[k r']| |]; cbn [bind]; [|discriminate|discriminate].
    destruct (find_name k (map fst vs)) as [i|]; [|discriminate].
    rewrite nth_error_map. destruct (nth_error vs i) as [[name t]|]; cbn [option_map snd]; [|discriminate].
    auto.
  Qed.
End Fallback.
