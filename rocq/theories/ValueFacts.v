(** Lemmas about [Value]. *)
From Verif Require Import Base Options Int Utf8 Types Storage StorageSpec Fmt FmtSpec Value ValueSpec
  BaseFacts IntFacts TypesFacts StorageFacts DecFacts StorageSafe FmtFacts FmtSafe IOFacts.
From Coq Require Import ZifyBool ZifyNat ZifyN.
Local Open Scope N_scope.

(** ** Reading a value back

    [x] reads as [v] at type [t]. *)
Definition R (p : plat) (o : N) (keys key : bool) (t : ty) (v : val) (x : value) : Prop :=
  vdec p o keys key t x = Ok v.

Section Reads.
  Variables (p : plat) (o : N) (keys : bool).
  Notation R := (R p o keys).

  Lemma each_R t vs xs : Forall2 (R false t) vs xs -> vdec_each (vdec p o keys false t) xs = Ok vs.
  Proof.
    induction 1 as [|v x vs xs H _ IH]; [reflexivity|]. cbn [vdec_each]. rewrite H. cbn [bind].
    rewrite IH. reflexivity.
  Qed.

  Lemma R_vec key t vs xs : Forall2 (R false t) vs xs -> R key (TVec t) (VList vs) (USeq xs).
  Proof. intros H. unfold ValueFacts.R. cbn [vdec]. rewrite (each_R t vs xs H). reflexivity. Qed.

  Lemma R_array key n t vs xs : Forall2 (R false t) vs xs -> lenN vs = n ->
    R key (TArray n t) (VList vs) (USeq xs).
  Proof.
    intros H Hn. unfold ValueFacts.R. cbn [vdec].
    assert (Hl : lenN xs = n) by (unfold lenN in *; apply Forall2_len in H; lia).
    rewrite firstn_all2 by (unfold lenN in *; lia).
    rewrite (each_R t vs xs H). cbn [bind]. rewrite Hl, N.eqb_refl. reflexivity.
  Qed.

  Lemma R_set key t vs xs : Forall2 (R false t) vs xs -> NoDup vs -> R key (TSet t) (VList vs) (USeq xs).
  Proof.
    intros H Hd. unfold ValueFacts.R. cbn [vdec].
    set (f := fun s x => _).
    assert (Hf : forall acc, NoDup (acc ++ vs) -> vfold f acc xs = Ok (acc ++ vs)).
    { clear Hd. induction H as [|v x vs xs Hv _ IH]; intros acc Hd; cbn [vfold].
      - now rewrite app_nil_r.
      - unfold f at 1. rewrite Hv. cbn [bind].
        rewrite set_insert_fresh.
        2:{ apply NoDup_remove in Hd. intros Hin. apply (proj2 Hd). apply in_or_app. now left. }
        replace (acc ++ v :: vs) with ((acc ++ [v]) ++ vs) in * by now rewrite <- app_assoc.
        now apply IH. }
    rewrite (Hf [] Hd). reflexivity.
  Qed.

  Lemma R_tup key ts vs xs : length ts = length vs ->
    Forall2 (fun tv x => R false (fst tv) (snd tv) x) (combine ts vs) xs ->
    R key (TTup ts) (VList vs) (USeq xs).
  Proof.
    intros Hl H. unfold ValueFacts.R. cbn [vdec].
    assert (E : vdec_list (map (vdec p o keys false) ts) xs = Ok vs).
    { revert vs xs Hl H. induction ts as [|t ts IH]; intros [|v vs] xs Hl H; try discriminate; cbn [map vdec_list].
      - reflexivity.
      - cbn [combine] in H. inversion H; subst. cbn [fst snd] in *. rewrite H2. cbn [bind].
        rewrite (IH vs l') by (auto; now inversion Hl). reflexivity. }
    rewrite E. reflexivity.
  Qed.

  Lemma R_map key tk tv kvs es : NoDup (map fst kvs) ->
    Forall2 (fun kv e => R keys tk (fst kv) (fst e) /\ R false tv (snd kv) (snd e)) kvs es ->
    R key (TMap tk tv) (VMap kvs) (UMap es).
  Proof.
    intros Hd H. unfold ValueFacts.R. cbn [vdec].
    set (f := fun s e => _).
    assert (Hf : forall acc, NoDup (map fst acc ++ map fst kvs) -> vfold f acc es = Ok (acc ++ kvs)).
    { clear Hd. induction H as [|[k v] e kvs es [Hk Hv] _ IH]; intros acc Hd; cbn [vfold].
      - now rewrite app_nil_r.
      - unfold f at 1. cbn [fst snd] in *. rewrite Hk. cbn [bind]. rewrite Hv. cbn [bind].
        cbn [map fst] in Hd. rewrite map_insert_fresh.
        2:{ apply NoDup_remove in Hd. intros Hin. apply (proj2 Hd). apply in_or_app. now left. }
        replace (acc ++ (k, v) :: kvs) with ((acc ++ [(k, v)]) ++ kvs) in * by now rewrite <- app_assoc.
        apply IH. rewrite map_app. cbn. now rewrite <- app_assoc. }
    rewrite (Hf [] Hd). reflexivity.
  Qed.

  (** Entries for the fields that are written. *)
  Inductive ents (kt : ty) : list (finfo * ty) -> list val -> list (value * value) -> Prop :=
  | E_nil : ents kt [] [] []
  | E_skip f t fs v vs es : fskip f v = true -> ents kt fs vs es -> ents kt ((f, t) :: fs) (v :: vs) es
  | E_keep f t fs v vs k x es : fskip f v = false -> R keys kt (fname f) k -> R false t v x ->
      ents kt fs vs es -> ents kt ((f, t) :: fs) (v :: vs) ((k, x) :: es).

  Lemma R_fields kt fs vs es : ents kt fs vs es ->
    forall spre npre dpre,
    NoDup (npre ++ map (fun ft => fname (fst ft)) fs) ->
    length npre = length spre -> length dpre = length spre ->
    vfold (vdec_field (vdec p o keys keys kt) (npre ++ map (fun ft => fname (fst ft)) fs)
                      (dpre ++ map (fun ft => vdec p o keys false (snd ft)) fs))
      (spre ++ map (fun _ => None) fs) es
    = Ok (spre ++ written (map fst fs) vs).
  Proof.
    induction 1 as [|f t fs v vs es Hs _ IH|f t fs v vs k x es Hs Hk Hx _ IH]; intros spre npre dpre Hd H1 H2.
    - reflexivity.
    - cbn [map fst snd written]. rewrite Hs.
      specialize (IH (spre ++ [None]) (npre ++ [fname f]) (dpre ++ [vdec p o keys false t])).
      rewrite <- !app_assoc in IH. apply IH; [exact Hd| |]; rewrite !app_length; cbn; lia.
    - cbn [map fst snd written vfold]. rewrite Hs. unfold vdec_field at 1. cbn [fst snd].
      rewrite Hk. cbn [bind].
      rewrite (find_name_nth _ (length npre) (fname f)); [|exact Hd|apply nth_error_mid].
      replace (length npre) with (length dpre) by congruence. rewrite nth_error_mid. rewrite Hx. cbn [bind].
      replace (length dpre) with (length spre) by congruence. rewrite set_slot_app.
      specialize (IH (spre ++ [Some v]) (npre ++ [fname f]) (dpre ++ [vdec p o keys false t])).
      rewrite <- !app_assoc in IH. apply IH; [exact Hd| |]; rewrite !app_length; cbn; lia.
  Qed.

  Lemma ents_length kt fs vs es : ents kt fs vs es -> length fs = length vs.
  Proof. induction 1; cbn; congruence. Qed.

  Lemma R_struct key kt fs vs es : ents kt fs vs es ->
    NoDup (map (fun ft => fname (fst ft)) fs) ->
    (forall ft v, In ft fs -> fskip (fst ft) v = true -> fdefault (fst ft) = Some v) ->
    R key (TStruct kt fs) (VList vs) (UMap es).
  Proof.
    intros H Hd Hs. unfold ValueFacts.R. cbn [vdec].
    destruct fs as [|ft0 fs'] eqn:Efs; [inversion H; reflexivity|]. rewrite <- Efs in *. clear ft0 fs' Efs.
    pose proof (R_fields kt fs vs es H [] [] [] Hd eq_refl eq_refl) as Hf. cbn [app] in Hf. rewrite Hf.
    cbn [bind]. rewrite fill_written; [reflexivity| |].
    - rewrite map_length. now apply ents_length in H.
    - intros f v Hin. rewrite in_map_iff in Hin. destruct Hin as [ft [<- Hft]]. eauto.
  Qed.

  Lemma R_tag key kt tags i k x : NoDup tags -> nth_error tags i = Some k -> R key kt k x ->
    R key (TTag kt tags) (VVar i VUnit) x.
  Proof.
    intros Hd Hk Hx. unfold ValueFacts.R. cbn [vdec]. rewrite Hx. cbn [bind].
    rewrite (find_name_nth tags i k Hd Hk). reflexivity.
  Qed.

  Lemma R_enum key fast kt vs i tv v a b : NoDup (map fst vs) -> nth_error vs i = Some tv ->
    R false kt (fst tv) a -> R false (snd tv) v b ->
    R key (TEnum fast kt vs) (VVar i v) (UVariant a b).
  Proof.
    intros Hd Hi Ha Hb. unfold ValueFacts.R. cbn [vdec]. rewrite Ha. cbn [bind].
    rewrite (find_name_nth (map fst vs) i (fst tv) Hd) by now rewrite nth_error_map, Hi.
    rewrite nth_error_map, Hi. cbn [option_map]. rewrite Hb. reflexivity.
  Qed.

  Lemma R_pack key c fs vs b : allP (map (fun ft => wf p (snd ft)) fs) ->
    packs_ok p o (TPack c fs) -> all2 (map (fun ft => has_type p (snd ft)) fs) vs = true ->
    pack_body p o fs vs = Ok b -> R key (TPack c fs) (VList vs) (UBytes b).
  Proof.
    intros Hw [Hp Hc] Hv He. cbn [packs] in Hp, Hc. unfold ValueFacts.R. cbn [vdec].
    assert (Hn : native_ok p o).
    { intros E. specialize (Hc E). apply andb_true_iff in Hc. destruct Hc as [Hc _]. unfold native_order in Hc.
      destruct (byteorder_value o), (native_bo p); congruence. }
    assert (Hc' : is_native_fixed p o = true -> forallb (fun ft => coh false (snd ft)) fs = true).
    { intros E. specialize (Hc E). now apply andb_true_iff in Hc. }
    pose proof (dec_list_rt true _ _ _ (pack_body_rts p o fs Hn Hc' Hw Hp) vs b [] Hv ltac:(auto) He) as Hd.
    rewrite app_nil_r in Hd. rewrite Hd. reflexivity.
  Qed.
End Reads.

(** ** Round trip *)

Lemma from_fits n b : n < 2 ^ b -> int_fits false b (Z.of_N n) = true.
Proof.
  intros H. unfold int_fits, int_min, int_max.
  assert (Z.of_N n < 2 ^ Z.of_N b)%Z by (change 2%Z with (Z.of_N 2); rewrite <- N2Z.inj_pow; lia). lia.
Qed.

Lemma from_fits_s z b : in_sb b z = true -> int_fits true b z = true.
Proof. unfold in_sb, int_fits, int_min, int_max. lia. Qed.

Lemma leaf_R p o keys key t v : leaf t = true -> has_type p t v = true ->
  exists w, vleaf_enc t v = Ok w /\ (w = None -> loud t = false) /\ R p o keys key t v (in_place w).
Proof.
  intros Hl Hv. unfold R.
  destruct t; try discriminate; cbn [has_type] in Hv; destruct v; try discriminate;
    (eexists; split; [reflexivity|split; [intros E; first [discriminate|reflexivity]|]]);
    cbn [in_place vdec vleaf_dec]; try reflexivity.
  - unfold as_int, from_number. rewrite from_fits by lia. cbn [bind]. now rewrite N2Z.id.
  - unfold as_int, from_number. rewrite from_fits_s by assumption. reflexivity.
  - unfold as_int, from_number. rewrite from_fits by lia. cbn [bind]. now rewrite N2Z.id.
  - unfold as_int, from_number. rewrite from_fits_s by assumption. reflexivity.
  - unfold as_int, from_number. rewrite from_fits by lia. cbn [bind].
    destruct (Z.eqb_spec (Z.of_N n) 0); [lia|]. now rewrite N2Z.id.
  - apply andb_true_iff in Hv. destruct Hv as [_ Hv]. rewrite Hv. reflexivity.
Qed.

Lemma pushed_loud (ws : list sink) : Forall (fun w => w <> None) ws ->
  pushed ws = map in_place ws.
Proof.
  induction 1 as [|w ws Hw _ IH]; [reflexivity|]. cbn. destruct w; [|congruence]. now rewrite <- IH.
Qed.

Lemma pushed_some (xs : list value) : pushed (map Some xs) = xs.
Proof. induction xs as [|x xs IH]; [reflexivity|]. cbn [map]. unfold pushed in *. cbn [flat_map app]. now rewrite IH. Qed.

(** Elements of a list that are written and read back. *)
Definition good_v (p : plat) (o : N) (t : ty) : Prop :=
  forall v, has_type p t v = true ->
    exists w, venc p o t v = Ok w /\ (w = None -> loud t = false) /\
      forall keys key, R p o keys key t v (in_place w).

Lemma good_v_list p o t : good_v p o t -> loud t = true -> forall vs,
  forallb (has_type p t) vs = true ->
  exists xs, list_res (map (venc p o t) vs) = Ok (map Some xs) /\ pushed (map Some xs) = xs /\
    forall keys, Forall2 (R p o keys false t) vs xs.
Proof.
  intros Hg Hl. induction vs as [|v vs IH]; intros Hv.
  - exists []. repeat split. constructor.
  - cbn in Hv. apply andb_true_iff in Hv. destruct Hv as [Hv Hvs].
    destruct (IH Hvs) as (xs & E & Ep & HR). destruct (Hg v Hv) as (w & Ew & Hw & HRw).
    destruct w as [x|]; [|specialize (Hw eq_refl); congruence].
    exists (x :: xs). cbn [map list_res]. rewrite Ew. cbn [bind]. rewrite E. cbn [bind].
    split; [reflexivity|]. split.
    + exact (pushed_some (x :: xs)).
    + intros keys. constructor; [apply (HRw keys false)|apply HR].
Qed.

Lemma packs_ok_sub p o t t' :
  (forall P, packs P t = true -> packs P t' = true) -> packs_ok p o t -> packs_ok p o t'.
Proof. intros H [H1 H2]. split; [now apply H|]. intros E. apply H. now apply H2. Qed.

Lemma venc_ok p o t : lengths_fit p o -> wf p t -> keeps t = true -> packs_ok p o t -> good_v p o t.
Proof.
  intros Hlf.
  induction t using ty_ind'; intros Hw Hk Hp;
    try (intros v Hv; match goal with Hv : has_type _ ?t v = true |- _ =>
           destruct (leaf_R p o false false t v eq_refl Hv) as (w' & E & Hn & _);
           exists w'; split; [exact E|split; [exact Hn|intros keys key;
             destruct (leaf_R p o keys key t v eq_refl Hv) as (w2 & E2 & _ & HR2);
             rewrite E in E2; injection E2 as <-; exact HR2]] end);
    cbn [wf] in Hw; cbn [keeps] in Hk; intros v Hv; cbn [has_type] in Hv; cbn [venc].
  - (* option *)
    apply andb_true_iff in Hk. destruct Hk as [Hld Hk].
    specialize (IHt Hw Hk (packs_ok_sub p o (TOpt t) t ltac:(auto) Hp)).
    destruct v; try discriminate.
    + eexists; split; [reflexivity|]. split; [discriminate|]. reflexivity.
    + destruct (IHt v Hv) as (w & Ew & Hn & HR). destruct w as [x|]; [|specialize (Hn eq_refl); congruence].
      rewrite Ew. cbn [bind wrapped]. eexists; split; [reflexivity|]. split; [discriminate|].
      intros keys key. unfold R. cbn [in_place vdec]. pose proof (HR keys false) as E. unfold R in E. cbn [in_place] in E.
      rewrite E. reflexivity.
  - exact (IHt Hw Hk (packs_ok_sub p o (TBox t) t ltac:(auto) Hp) v Hv).
  - (* vec *)
    apply andb_true_iff in Hk. destruct Hk as [Hld Hk].
    specialize (IHt Hw Hk (packs_ok_sub p o (TVec t) t ltac:(auto) Hp)).
    destruct v; try discriminate. apply andb_true_iff in Hv. destruct Hv as [Hv _].
    destruct (good_v_list p o t IHt Hld vs Hv) as (xs & E & Ep & HR). rewrite E. cbn [bind]. rewrite Ep.
    eexists; split; [reflexivity|]. split; [discriminate|]. intros keys key. apply R_vec. apply HR.
  - (* array *)
    apply andb_true_iff in Hk. destruct Hk as [Hld Hk]. destruct Hw as [Hw _].
    specialize (IHt Hw Hk (packs_ok_sub p o (TArray n t) t ltac:(auto) Hp)).
    destruct v; try discriminate. apply andb_true_iff in Hv. destruct Hv as [Hv Hn].
    destruct (good_v_list p o t IHt Hld vs Hv) as (xs & E & Ep & HR). rewrite E. cbn [bind]. rewrite Ep.
    eexists; split; [reflexivity|]. split; [discriminate|]. intros keys key. apply R_array; [apply HR|lia].
  - (* set *)
    apply andb_true_iff in Hk. destruct Hk as [Hld Hk].
    specialize (IHt Hw Hk (packs_ok_sub p o (TSet t) t ltac:(auto) Hp)).
    destruct v; try discriminate. rewrite !andb_true_iff in Hv. destruct Hv as [[Hv _] Hd].
    destruct (good_v_list p o t IHt Hld vs Hv) as (xs & E & Ep & HR). rewrite E. cbn [bind]. rewrite Ep.
    eexists; split; [reflexivity|]. split; [discriminate|]. intros keys key. apply R_set; [apply HR|].
    now apply distinct_NoDup.
  - (* tuple *)
    destruct Hw as [Hw _]. rewrite allP_Forall in Hw.
    destruct v; try discriminate.
    assert (HG : exists xs, venc_list (map (venc p o) ts) vs = Ok (map Some xs) /\ pushed (map Some xs) = xs /\
               length ts = length vs /\
               forall keys, Forall2 (fun tv x => R p o keys false (fst tv) (snd tv) x) (combine ts vs) xs).
    { destruct Hp as [Hp1 Hp2]. cbn [packs] in Hp1, Hp2.
      revert vs Hv. induction ts as [|t ts IH]; intros [|v vs] Hv; try discriminate.
      - exists []. repeat split. constructor.
      - cbn in Hv, Hk, Hp1. apply andb_true_iff in Hv, Hk, Hp1. destruct Hv as [Hv Hvs], Hk as [Hk1 Hk2], Hp1 as [Hp1 Hp1'].
        apply andb_true_iff in Hk1. destruct Hk1 as [Hld Hk1].
        inversion H; inversion Hw; subst.
        assert (Hp2' : is_native_fixed p o = true -> packs (fun fs => native_order p o && forallb (fun ft => coh false (snd ft)) fs) t = true /\ forallb (packs (fun fs => native_order p o && forallb (fun ft => coh false (snd ft)) fs)) ts = true).
        { intros E. specialize (Hp2 E). cbn in Hp2. now apply andb_true_iff in Hp2. }
        destruct (IH H3 H7 Hk2 Hp1' (fun E => proj2 (Hp2' E)) vs Hvs) as (xs & E & Ep & Hl & HR).
        destruct (H2 H6 Hk1 (conj Hp1 (fun E => proj1 (Hp2' E))) v Hv) as (w & Ew & Hn & HRw).
        destruct w as [x|]; [|specialize (Hn eq_refl); congruence].
        exists (x :: xs). cbn [map venc_list]. rewrite Ew. cbn [bind]. rewrite E. cbn [bind].
        split; [reflexivity|]. split; [exact (pushed_some (x :: xs))|]. split; [cbn; congruence|].
        intros keys. cbn [combine]. constructor; [apply (HRw keys false)|apply HR]. }
    destruct HG as (xs & E & Ep & Hl & HR). rewrite E. cbn [bind]. rewrite Ep.
    eexists; split; [reflexivity|]. split; [discriminate|]. intros keys key. now apply R_tup.
  - (* map *)
    destruct Hw as [Hw1 Hw2]. apply andb_true_iff in Hk. destruct Hk as [Hk1 Hk2].
    specialize (IHt1 Hw1 Hk1 (packs_ok_sub p o (TMap t1 t2) t1 ltac:(cbn [packs]; intros; now apply andb_true_iff in H) Hp)).
    specialize (IHt2 Hw2 Hk2 (packs_ok_sub p o (TMap t1 t2) t2 ltac:(cbn [packs]; intros; now apply andb_true_iff in H) Hp)).
    destruct v; try discriminate. rewrite !andb_true_iff in Hv. destruct Hv as [[Hv _] Hd].
    set (f := fun kv : val * val => _).
    assert (HG : exists es, list_res (map f kvs) = Ok es /\
      forall keys, Forall2 (fun kv e => R p o keys keys t1 (fst kv) (fst e) /\ R p o keys false t2 (snd kv) (snd e)) kvs es).
    { clear Hd. induction kvs as [|[k v] kvs IH].
      - exists []. split; [reflexivity|constructor].
      - cbn [forallb fst snd] in Hv. rewrite !andb_true_iff in Hv. destruct Hv as [[Hvk Hvv] Hvs].
        destruct (IH Hvs) as (es & E & HR).
        destruct (IHt1 k Hvk) as (a & Ea & _ & HRa). destruct (IHt2 v Hvv) as (b & Eb & _ & HRb).
        exists ((in_place a, in_place b) :: es). cbn [map list_res]. unfold f at 1. cbn [fst snd].
        rewrite Ea, Eb. cbn [bind]. rewrite E. cbn [bind]. split; [reflexivity|].
        intros keys. constructor; [split; [apply HRa|apply HRb]|apply HR]. }
    destruct HG as (es & E & HR). rewrite E. cbn [bind]. eexists; split; [reflexivity|]. split; [discriminate|].
    intros keys key. apply R_map; [now apply distinct_NoDup|apply HR].
  - (* packed struct *)
    destruct Hw as [Hw _]. destruct v; try discriminate.
    pose proof Hw as Hw'. rewrite allP_Forall, Forall_forall in Hw'.
    destruct (good_list (map (fun ft => has_type p (snd ft)) fs) (map (fun ft => enc p o true (snd ft)) fs) vs) as [b [Eb Ob]].
    { apply Forall2_map_in. intros ft Hin. apply enc_total; auto. }
    { assumption. }
    assert (Eb' : pack_body p o fs vs = Ok b) by exact Eb.
    rewrite Eb'. cbn [bind]. eexists; split; [reflexivity|]. split; [discriminate|].
    intros keys key. apply R_pack; auto.
  - (* struct *)
    destruct Hw as (Hwk & Hw & Hl & Hnt & Hnd & Hdef & Hskip). rewrite allP_Forall in Hw.
    apply andb_true_iff in Hk. destruct Hk as [Hkk Hk].
    specialize (IHt Hwk Hkk (packs_ok_sub p o (TStruct t fs) t ltac:(cbn [packs]; intros P HP; now apply andb_true_iff in HP) Hp)).
    destruct v; try discriminate.
    assert (HG : exists es, venc_fields (venc p o t) (map (fun ft => (fst ft, venc p o (snd ft))) fs) vs = Ok es /\
               forall keys, ents p o keys t fs vs es).
    { destruct Hp as [Hp1 Hp2]. cbn [packs] in Hp1, Hp2. apply andb_true_iff in Hp1. destruct Hp1 as [_ Hp1].
      assert (Hp2' : is_native_fixed p o = true -> forallb (fun ft => packs (fun fs => native_order p o && forallb (fun ft => coh false (snd ft)) fs) (snd ft)) fs = true).
      { intros E. specialize (Hp2 E). now apply andb_true_iff in Hp2. }
      clear Hp2 Hl Hnd Hdef Hskip. revert vs Hv. induction fs as [|[f t'] fs IH]; intros [|v vs] Hv; try discriminate.
      - exists []. split; [reflexivity|constructor].
      - cbn [map all2 forallb fst snd] in *. apply andb_true_iff in Hv, Hk, Hp1, Hnt.
        destruct Hv as [Hv Hvs], Hk as [Hk1 Hk2], Hp1 as [Hp1 Hp1'], Hnt as [Hn1 Hn2].
        inversion H; inversion Hw; subst. cbn [snd] in *.
        assert (Hq1 : is_native_fixed p o = true -> packs (fun fs => native_order p o && forallb (fun ft => coh false (snd ft)) fs) t' = true)
          by (intros E; specialize (Hp2' E); now apply andb_true_iff in Hp2').
        assert (Hq2 : is_native_fixed p o = true -> forallb (fun ft => packs (fun fs => native_order p o && forallb (fun ft => coh false (snd ft)) fs) (snd ft)) fs = true)
          by (intros E; specialize (Hp2' E); now apply andb_true_iff in Hp2').
        destruct (IH H3 H7 Hn2 Hk2 Hp1' Hq2 vs Hvs) as (es & E & HR).
        cbn [map venc_fields fst snd].
        destruct (fskip f v) eqn:Es.
        + exists es. split; [exact E|]. intros keys. apply E_skip; auto.
        + destruct (IHt (fname f) Hn1) as (a & Ea & _ & HRa).
          destruct (H2 H6 Hk1 (conj Hp1 Hq1) v Hv) as (b & Eb & _ & HRb).
          rewrite Ea, Eb. cbn [bind]. rewrite E. cbn [bind]. eexists; split; [reflexivity|].
          intros keys. apply E_keep; auto. }
    destruct HG as (es & E & HR). rewrite E. cbn [bind]. eexists; split; [reflexivity|]. split; [discriminate|].
    intros keys key. apply R_struct; [apply HR|now apply distinct_NoDup|assumption].
  - (* tag *)
    destruct Hw as (Hwk & Hnt & Hnd). specialize (IHt Hwk Hk (packs_ok_sub p o (TTag t tags) t ltac:(auto) Hp)).
    destruct v as [| | | | | | | | |i v]; try discriminate. destruct v; try discriminate.
    destruct (nth_error tags i) as [k|] eqn:Ek.
    + rewrite forallb_forall in Hnt. destruct (IHt k (Hnt k (nth_error_In _ _ Ek))) as (w & Ew & Hn & HR).
      exists w. split; [exact Ew|]. split; [exact Hn|]. intros keys key. apply (R_tag p o keys key t tags i k); auto.
      now apply distinct_NoDup.
    + apply nth_error_None in Ek. apply Nat.ltb_lt in Hv. lia.
  - (* enum *)
    destruct Hw as (Hwk & Hw & Hnt & Hnd).
    rewrite allP_Forall, Forall_forall in Hw. rewrite forallb_forall in Hnt. rewrite Forall_forall in H.
    apply andb_true_iff in Hk. destruct Hk as [Hkk Hk]. rewrite forallb_forall in Hk.
    specialize (IHt Hwk Hkk (packs_ok_sub p o (TEnum f t vs) t ltac:(cbn [packs]; intros P HP; now apply andb_true_iff in HP) Hp)).
    destruct v as [| | | | | | | | |i v]; try discriminate. rewrite nth_error_map in Hv |- *.
    destruct (nth_error vs i) as [tv|] eqn:Ei; [|discriminate]. cbn [option_map] in Hv |- *.
    pose proof (nth_error_In _ _ Ei) as Hin.
    assert (Hp' : packs_ok p o (snd tv)).
    { apply (packs_ok_sub p o (TEnum f t vs)); [|assumption]. cbn [packs]. intros P HP.
      apply andb_true_iff in HP. destruct HP as [_ HP]. rewrite forallb_forall in HP. exact (HP tv Hin). }
    destruct (IHt (fst tv) (Hnt tv Hin)) as (a & Ea & _ & HRa).
    destruct (H tv Hin (Hw tv Hin) (Hk tv Hin) Hp' v Hv) as (b & Eb & _ & HRb).
    rewrite Ea, Eb. cbn [bind]. eexists; split; [reflexivity|]. split; [discriminate|].
    intros keys key. cbn [in_place]. apply (R_enum p o keys key f t vs i tv); auto. now apply distinct_NoDup.
Qed.

(** ** Safety on arbitrary values *)

Definition safe {A} (P : A -> Prop) (r : res A) : Prop :=
  match r with Ok a => P a | Err => True | Panic => False end.

Lemma safe_bind {A B} (P : A -> Prop) (Q : B -> Prop) (r : res A) k :
  safe P r -> (forall a, P a -> safe Q (k a)) -> safe Q (bind r k).
Proof. destruct r; cbn; auto. Qed.

Lemma safe_weaken {A} (P Q : A -> Prop) r : safe P r -> (forall a, P a -> Q a) -> safe Q r.
Proof. destruct r; cbn; auto. Qed.

Lemma int_fits_range s b z : int_fits s b z = true ->
  (int_min s b <= z <= int_max s b)%Z.
Proof. unfold int_fits. lia. Qed.

Lemma int_min_max s b : 1 <= b -> (int_min s b <= int_max s b)%Z.
Proof.
  intros H. unfold int_min, int_max. destruct s.
  - assert (0 < 2 ^ (Z.of_N b - 1))%Z by (apply Z.pow_pos_nonneg; lia). lia.
  - assert (0 < 2 ^ Z.of_N b)%Z by (apply Z.pow_pos_nonneg; lia). lia.
Qed.

Lemma saturate_range s b x : 1 <= b -> (int_min s b <= saturate s b x <= int_max s b)%Z.
Proof.
  intros H. pose proof (int_min_max s b H). unfold saturate. destruct x as [z|[|]]; lia.
Qed.

Lemma as_int_safe key s b x : 1 <= b ->
  safe (fun z => int_min s b <= z <= int_max s b)%Z (as_int key s b x).
Proof.
  intros Hb. unfold as_int. destruct x; try exact Logic.I.
  - unfold from_number. destruct n;
      try (match goal with |- context [int_fits s b ?z] => destruct (int_fits s b z) eqn:E end; [|exact Logic.I];
           cbn; now apply int_fits_range);
      cbn; now apply saturate_range.
  - destruct key; [|exact Logic.I]. unfold parse_int.
    assert (Hbody : forall (f : Z -> Z) r,
      safe (fun z => int_min s b <= z <= int_max s b)%Z
        (match match r with [] => None | _ => match digits 0 r with
           | Some z => if int_fits s b (f z) then Some (f z) else None | None => None end end with
         | Some z => Ok z | None => Err end)).
    { intros f [|c r]; [exact Logic.I|]. destruct (digits 0 (c :: r)) as [z|]; [|exact Logic.I].
      destruct (int_fits s b (f z)) eqn:E; [|exact Logic.I]. now apply int_fits_range. }
    destruct bs as [|c r]; [exact Logic.I|].
    destruct (N.eq_dec c 43) as [->|H43]; [apply (Hbody (fun z => z) r)|].
    destruct (N.eq_dec c 45) as [->|H45].
    { destruct s; [apply (Hbody Z.opp r)|exact Logic.I]. }
    assert (Hm : forall (X Y Z : option Z), match c with 43 => X | 45 => Y | _ => Z end = Z).
    { intros X Y Z. destruct c as [|[q|q|]]; try reflexivity.
      - destruct q as [[[[[?|?|]|[?|?|]|]|[[?|?|]|[?|?|]|]|]|[[[?|?|]|[?|?|]|]|[[?|?|]|[?|?|]|]|]|]
                      |[[[[?|?|]|[?|?|]|]|[[?|?|]|[?|?|]|]|]|[[[?|?|]|[?|?|]|]|[[?|?|]|[?|?|]|]|]|]|];
          first [reflexivity|exfalso; lia]. }
    match goal with |- context [match c with _ => _ end] => idtac end.
    specialize (Hbody (fun z => z) (c :: r)).
    rewrite (Hm _ _ _). exact Hbody.
Qed.

Lemma urange n z : (int_min false n <= z <= int_max false n)%Z -> (Z.to_N z <? 2 ^ n) = true.
Proof.
  unfold int_min, int_max. intros H. apply N.ltb_lt.
  assert (Z.of_N (2 ^ n) = 2 ^ Z.of_N n)%Z by (rewrite N2Z.inj_pow; reflexivity). lia.
Qed.

Lemma srange n z : (int_min true n <= z <= int_max true n)%Z -> in_sb n z = true.
Proof. unfold int_min, int_max, in_sb. lia. Qed.

Lemma bits_ge w : 1 <= bits w.
Proof. destruct w; vm_compute; discriminate. Qed.

Lemma vleaf_safe p key t x : leaf t = true -> wf p t -> value_ok p x ->
  safe (fun v => has_type p t v = true) (vleaf_dec p key t x).
Proof.
  intros Hl Hw Hx. pose proof (usize_bits_ge p) as Hub.
  assert (HU : forall b, 1 <= b -> safe (fun v => match v with VN n => n <? 2 ^ b | _ => false end = true)
            (let* z := as_int key false b x in Ok (VN (Z.to_N z)))).
  { intros b Hb. eapply safe_bind; [apply (as_int_safe key false b x Hb)|]. intros z Hz. cbn. now apply urange. }
  assert (HI : forall b, 1 <= b -> safe (fun v => match v with VZ z => in_sb b z | _ => false end = true)
            (let* z := as_int key true b x in Ok (VZ z))).
  { intros b Hb. eapply safe_bind; [apply (as_int_safe key true b x Hb)|]. intros z Hz. cbn [safe]. now apply srange. }
  destruct t; try discriminate; cbn [vleaf_dec has_type].
  - destruct x; cbn; auto.
  - destruct x; cbn; auto.
  - inversion Hx; subst; cbn [safe]; auto.
  - apply HU, bits_ge.
  - apply HI, bits_ge.
  - apply HU. lia.
  - apply HI. lia.
  - inversion Hx; subst; cbn [safe]; auto. destruct n; cbn [safe]; auto. now apply N.ltb_lt.
  - inversion Hx; subst; cbn [safe]; auto. destruct n; cbn [safe]; auto. now apply N.ltb_lt.
  - eapply safe_bind; [apply (as_int_safe key false (bits w) x (bits_ge w))|]. intros z Hz.
    destruct (Z.eqb_spec z 0); [exact Logic.I|]. cbn [safe]. rewrite urange by assumption. cbn.
    unfold int_min in Hz. destruct (Z.to_N z) eqn:E; [lia|reflexivity].
  - inversion Hx; subst; cbn [safe]; auto. rewrite H, H0. now apply len_ok_lt.
  - inversion Hx; subst; cbn [safe]; auto. rewrite H. now apply len_ok_lt.
  - inversion Hx; subst; cbn [safe]; auto. destruct (N.eqb_spec (lenN bs) n); cbn [safe]; auto.
    rewrite H. subst n. apply N.eqb_refl.
Qed.

Lemma each_safe (P : val -> bool) d xs : Forall (fun x => safe (fun v => P v = true) (d x)) xs ->
  safe (fun vs => forallb P vs = true /\ lenN vs = lenN xs) (vdec_each d xs).
Proof.
  induction 1 as [|x xs H _ IH]; cbn [vdec_each].
  - now split.
  - eapply safe_bind; [exact H|]. intros v Hv. eapply safe_bind; [exact IH|]. intros vs [Hvs Hl].
    cbn [safe forallb]. rewrite Hv, Hvs, !lenN_cons, Hl. auto.
Qed.

Lemma fold_safe {S A} (I : N -> S -> Prop) (f : S -> A -> res S) xs :
  (forall k s x, In x xs -> I k s -> safe (I (k + 1)) (f s x)) ->
  forall k s, I k s -> safe (I (k + lenN xs)) (vfold f s xs).
Proof.
  induction xs as [|x xs IH]; intros Hf k s Hs; cbn [vfold].
  - change (lenN []) with 0. rewrite N.add_0_r. exact Hs.
  - eapply safe_bind; [apply (Hf k s x); [now left|assumption]|]. intros s' Hs'.
    rewrite lenN_cons. replace (k + (1 + lenN xs)) with (k + 1 + lenN xs) by lia.
    apply IH; auto. intros k' s'' y Hy. apply Hf. now right.
Qed.

Lemma vdec_safe p o keys t : wf p t -> forall key x, value_ok p x ->
  safe (fun v => has_type p t v = true) (vdec p o keys key t x).
Proof.
  induction t using ty_ind'; intros Hw key x Hx;
    try (match goal with |- safe (fun v => has_type p ?t v = true) _ => exact (vleaf_safe p key t x eq_refl Hw Hx) end);
    cbn [wf] in Hw; cbn [vdec].
  - inversion Hx; subst; try exact Logic.I; [reflexivity|].
    eapply safe_bind; [apply (IHt Hw); assumption|]. intros v Hv. exact Hv.
  - now apply IHt.
  - inversion Hx; subst; try exact Logic.I.
    eapply safe_bind; [apply (each_safe (has_type p t))|].
    + eapply Forall_impl; [|exact H]. intros y Hy. now apply IHt.
    + intros vs [Hvs Hl]. cbn [safe has_type]. rewrite Hvs. apply len_ok_lt. lia.
  - destruct Hw as [Hw Hn]. inversion Hx; subst; try exact Logic.I.
    eapply safe_bind; [apply (each_safe (has_type p t))|].
    + rewrite Forall_forall in H |- *. intros y Hy. apply IHt; auto. apply H.
      rewrite <- (firstn_skipn (N.to_nat (N.min (lenN xs) (n + 1))) xs). apply in_or_app. now left.
    + intros vs [Hvs Hl]. destruct (N.eqb_spec (lenN xs) n); [|exact Logic.I]. cbn [safe has_type]. rewrite Hvs.
      cbn. apply N.eqb_eq. rewrite Hl. unfold lenN in *. rewrite firstn_length. lia.
  - inversion Hx; subst; try exact Logic.I.
    eapply safe_bind; [apply (fold_safe (fun k s => Forall (fun v => has_type p t v = true) s /\ NoDup s /\ lenN s <= k))|].
    + intros k s y Hy (H1 & H2 & H3). rewrite Forall_forall in H.
      eapply safe_bind; [apply (IHt Hw false y (H y Hy))|]. intros v Hv. cbn [safe].
      destruct (set_insert_inv (fun v => has_type p t v = true) v s Hv H1 H2) as (H4 & H5 & H6).
      repeat split; auto. lia.
    + instantiate (1 := 0). repeat split; try constructor. cbn. lia.
    + intros vs (H1 & H2 & H3). cbn [safe has_type]. rewrite !andb_true_iff. split; [split|].
      * rewrite forallb_forall. now rewrite Forall_forall in H1.
      * apply len_ok_lt. lia.
      * now apply distinct_NoDup.
  - destruct Hw as [Hw _]. rewrite allP_Forall in Hw. inversion Hx; subst; try exact Logic.I.
    assert (HL : safe (fun vs => all2 (map (has_type p) ts) vs = true) (vdec_list (map (vdec p o keys false) ts) xs)).
    { clear Hx H1. revert xs H0. induction ts as [|t ts IH]; intros xs Hxs; cbn [map vdec_list]; [reflexivity|].
      destruct xs as [|y ys]; [exact Logic.I|]. inversion H; inversion Hw; inversion Hxs; subst.
      eapply safe_bind; [apply (H2 H6 false y); assumption|]. intros v Hv.
      eapply safe_bind; [apply (IH H3 H7 ys); assumption|]. intros vs Hvs. cbn [safe all2]. now rewrite Hv, Hvs. }
    eapply safe_bind; [exact HL|]. intros vs Hvs. exact Hvs.
  - destruct Hw as [Hw1 Hw2]. inversion Hx; subst; try exact Logic.I.
    eapply safe_bind; [apply (fold_safe (fun k s => Forall (fun kv => has_type p t1 (fst kv) && has_type p t2 (snd kv) = true) s
              /\ NoDup (map fst s) /\ lenN s <= k))|].
    + intros k s e He (H1 & H2 & H3). rewrite Forall_forall in H. destruct (H e He) as [Hk Hv].
      eapply safe_bind; [apply (IHt1 Hw1 keys _ Hk)|]. intros a Ha.
      eapply safe_bind; [apply (IHt2 Hw2 false _ Hv)|]. intros b Hb. cbn [safe].
      destruct (map_insert_inv (fun kv => has_type p t1 (fst kv) && has_type p t2 (snd kv) = true) a b s) as (H4 & H5 & H6); auto.
      { cbn. now rewrite Ha, Hb. }
      repeat split; auto. lia.
    + instantiate (1 := 0). repeat split; try constructor. cbn. lia.
    + intros vs (H1 & H2 & H3). cbn [safe has_type]. rewrite !andb_true_iff. split; [split|].
      * rewrite forallb_forall. now rewrite Forall_forall in H1.
      * apply len_ok_lt. lia.
      * now apply distinct_NoDup.
  - destruct Hw as (Hw & Hl & Hdef). rewrite allP_Forall, Forall_forall in Hw.
    inversion Hx; subst; try exact Logic.I.
    assert (HS : @soundx _ False (fun vs => all2 (map (fun ft => has_type p (snd ft)) fs) vs = true)
              (dec_list (map (fun ft => pack_field (fst ft) (dec_ p o true (snd ft))) fs))).
    { apply (sound_list (map (fun ft => has_type p (snd ft)) fs)).
      apply Forall2_map_in. intros ft Hft. apply pack_field_sound. apply dec_sound; auto. }
    specialize (HS bs H0). destruct (dec_list _ bs) as [[vs r]| |]; cbn [bind safe]; auto. apply HS.
  - destruct Hw as (Hwk & Hw & Hl & Hnt & Hnd & Hdef & _). rewrite allP_Forall, Forall_forall in Hw.
    rewrite Forall_forall in H. inversion Hx; subst; try exact Logic.I.
    destruct fs as [|ft0 fs'] eqn:Efs; [reflexivity|]. rewrite <- Efs in *. clear ft0 fs' Efs.
    set (Ps := map (fun ft => has_type p (snd ft)) fs).
    eapply safe_bind; [refine (fold_safe (fun _ s => slots_ok Ps s) _ _ _ 0 _ _)|].
    + intros _ s e He Hs. rewrite Forall_forall in H0. destruct (H0 e He) as [Hk Hv].
      unfold vdec_field. eapply safe_bind; [apply (IHt Hwk keys _ Hk)|]. intros k Hk'.
      destruct (find_name k _) as [i|]; [|exact Hs]. rewrite nth_error_map.
      destruct (nth_error fs i) as [ft|] eqn:Ei; [|exact Logic.I]. cbn [option_map].
      pose proof (nth_error_In _ _ Ei) as Hin.
      eapply safe_bind; [apply (H ft Hin (Hw ft Hin) false _ Hv)|]. intros v Hv'. cbn [safe].
      apply (set_slot_ok Ps s i (has_type p (snd ft))); auto. subst Ps. now rewrite nth_error_map, Ei.
    + subst Ps. pose proof (slots_ok_none (map (fun ft => has_type p (snd ft)) fs)) as Hs.
      rewrite map_map in Hs. exact Hs.
    + intros s Hs. pose proof (fill_no_panic (map fst fs) s).
      destruct (fill (map fst fs) s) as [vs| |] eqn:Ef; [|exact Logic.I|congruence]. cbn [bind safe has_type].
      apply (fill_ok (map fst fs) Ps s); auto.
      { subst Ps. now rewrite !map_length. }
      intros f P d Hin Hd. subst Ps.
      assert (Hex : exists ft, In ft fs /\ f = fst ft /\ P = has_type p (snd ft)).
      { clear - Hin. induction fs as [|ft fs IH]; cbn in Hin; [destruct Hin|].
        destruct Hin as [E|Hin]; [inversion E; subst; exists ft; split; [now left|auto]|].
        destruct (IH Hin) as [y [Hy E]]. exists y. split; [now right|assumption]. }
      destruct Hex as [ft [Hft [-> ->]]]. eauto.
  - destruct Hw as (Hwk & Hnt & _).
    eapply safe_bind; [apply (IHt Hwk key x Hx)|]. intros k Hk.
    destruct (find_name k tags) as [i|] eqn:E; [|exact Logic.I]. cbn [safe has_type].
    apply Nat.ltb_lt. apply find_name_some in E. apply nth_error_Some. congruence.
  - destruct Hw as (Hwk & Hw & Hnt & _). rewrite allP_Forall, Forall_forall in Hw. rewrite Forall_forall in H.
    inversion Hx; subst; try exact Logic.I.
    eapply safe_bind; [apply (IHt Hwk false a H0)|]. intros k Hk.
    destruct (find_name k (map fst vs)) as [i|] eqn:E; [|exact Logic.I].
    rewrite nth_error_map. destruct (nth_error vs i) as [tv|] eqn:Ei; [|exact Logic.I].
    cbn [option_map]. pose proof (nth_error_In _ _ Ei) as Hin.
    eapply safe_bind; [apply (H tv Hin (Hw tv Hin) false b H1)|].
    intros v Hv. cbn [safe has_type]. rewrite nth_error_map, Ei. exact Hv.
Qed.
