(** Facts about the serde bridge over the binary formats. *)
From Verif Require Import Base Options Int Utf8 Types Storage StorageSpec Fmt FmtSpec Json Dec2flt NumText Serde
  BaseFacts IntFacts TypesFacts StorageFacts FmtFacts.
From Coq Require Import ZifyBool ZifyNat ZifyN.
Local Open Scope N_scope.

(** ** Induction over serde types *)

Section StyInd.
  Variable P : sty -> Prop.
  Hypothesis HUnit : P SUnit.
  Hypothesis HBool : P SBool.
  Hypothesis HChar : P SChar.
  Hypothesis HU : forall w, P (SU w).
  Hypothesis HI : forall w, P (SI w).
  Hypothesis HF32 : P SF32.
  Hypothesis HF64 : P SF64.
  Hypothesis HStr : P SStr.
  Hypothesis HBytes : P SBytes.
  Hypothesis HOpt : forall t, P t -> P (SOpt t).
  Hypothesis HNew : forall t, P t -> P (SNew t).
  Hypothesis HSeq : forall t, P t -> P (SSeq t).
  Hypothesis HSet : forall t, P t -> P (SSet t).
  Hypothesis HTup : forall ts, Forall P ts -> P (STup ts).
  Hypothesis HMap : forall k v, P k -> P v -> P (SMap k v).
  Hypothesis HStruct : forall fs, Forall (fun ft => P (snd ft)) fs -> P (SStruct fs).
  Hypothesis HEnum : forall vs, Forall (fun tv => P (snd (snd tv))) vs -> P (SEnum vs).

  Fixpoint sty_ind' (t : sty) : P t :=
    match t with
    | SUnit => HUnit | SBool => HBool | SChar => HChar | SU w => HU w | SI w => HI w
    | SF32 => HF32 | SF64 => HF64 | SStr => HStr | SBytes => HBytes
    | SOpt t => HOpt t (sty_ind' t)
    | SNew t => HNew t (sty_ind' t)
    | SSeq t => HSeq t (sty_ind' t)
    | SSet t => HSet t (sty_ind' t)
    | STup ts =>
        HTup ts ((fix go ts : Forall P ts :=
          match ts with [] => Forall_nil _ | t :: r => Forall_cons _ (sty_ind' t) (go r) end) ts)
    | SMap k v => HMap k v (sty_ind' k) (sty_ind' v)
    | SStruct fs =>
        HStruct fs ((fix go fs : Forall (fun ft => P (snd ft)) fs :=
          match fs with [] => Forall_nil _
          | ft :: r => Forall_cons _ (sty_ind' (snd ft)) (go r) end) fs)
    | SEnum vs =>
        HEnum vs ((fix go fs : Forall (fun ft => P (snd (snd ft))) fs :=
          match fs with [] => Forall_nil _
          | ft :: r => Forall_cons _ (sty_ind' (snd (snd ft))) (go r) end) vs)
    end.
End StyInd.

(** ** The same bytes as the compatible type *)

(** The field of the compatible struct. *)
Definition sfinfo (ft : sfield * sty) : finfo :=
  {| fname := VBytes (sname (fst ft)); fdefault := missing (fst ft) (snd ft); fskip := sskip (fst ft) |}.

Lemma ser_count_shape fs vs :
  ser_count (map fst fs) vs = count_fields (map fst (map (fun ft => (sfinfo ft, shape (snd ft))) fs)) vs.
Proof.
  revert vs. induction fs as [|ft fs IH]; intros [|v vs]; try reflexivity.
  cbn [map ser_count count_fields fst sfinfo fskip]. now rewrite IH.
Qed.

Lemma ser_fields_shape ek (e : sty -> val -> res bytes) (g : ty -> val -> res bytes) fs :
  Forall (fun ft => forall v, e (snd ft) v = g (shape (snd ft)) v) fs ->
  forall vs,
  ser_fields ek (map (fun ft => (fst ft, e (snd ft))) fs) vs
  = enc_fields ek (map (fun ft => (fst ft, g (snd ft))) (map (fun ft => (sfinfo ft, shape (snd ft))) fs)) vs.
Proof.
  induction 1 as [|ft fs H _ IH]; intros [|v vs]; try reflexivity.
  cbn [map ser_fields enc_fields fst snd sfinfo fskip fname]. rewrite IH, H. reflexivity.
Qed.

Lemma concat_res_ext {A} (f g : A -> res bytes) l : (forall x, f x = g x) -> concat_res f l = concat_res g l.
Proof. intros H. induction l as [|x l IH]; cbn; [reflexivity|]. now rewrite H, IH. Qed.

Lemma enc_list_ext (fs gs : list (val -> res bytes)) vs :
  Forall2 (fun f g => forall v, f v = g v) fs gs -> enc_list fs vs = enc_list gs vs.
Proof.
  intros H. revert vs. induction H as [|f g fs gs Hfg _ IH]; intros [|v vs]; cbn; try reflexivity.
  now rewrite Hfg, IH.
Qed.

Lemma Forall2_map_same {A B C} (R : B -> C -> Prop) (f : A -> B) (g : A -> C) l :
  Forall (fun x => R (f x) (g x)) l -> Forall2 R (map f l) (map g l).
Proof. induction 1; cbn; constructor; auto. Qed.

Lemma senc_shape F p o t v : senc F t v = genc F p o (shape t) v.
Proof.
  revert v. induction t using sty_ind'; intros v; cbn [senc shape genc]; try reflexivity; auto.
  - destruct v; try reflexivity. now rewrite IHt.
  - destruct v; try reflexivity. now rewrite (concat_res_ext _ _ _ IHt).
  - destruct v; try reflexivity. now rewrite (concat_res_ext _ _ _ IHt).
  - destruct v; try reflexivity. unfold lenN. rewrite map_length.
    destruct (f_seq_enc F _) as [l| |]; try reflexivity. cbn [bind].
    rewrite (enc_list_ext (map (senc F) ts) (map (genc F p o) (map shape ts))); [reflexivity|].
    rewrite map_map. now apply Forall2_map_same.
  - destruct v; try reflexivity.
    rewrite (concat_res_ext _ (fun kv => let* a := genc F p o (shape t1) (fst kv) in
                                         let* b := genc F p o (shape t2) (snd kv) in Ok (a ++ b)));
      [reflexivity|].
    intros [k x]. cbn [fst snd]. now rewrite IHt1, IHt2.
  - destruct v; try reflexivity. rewrite ser_count_shape.
    rewrite (ser_fields_shape _ (senc F) (genc F p o)) by assumption. reflexivity.
  - destruct v as [| | | | | | | | |i x]; try reflexivity. rewrite !nth_error_map.
    destruct (nth_error vs i) as [tv|] eqn:Ei; [|reflexivity]. cbn [option_map fst snd].
    rewrite Forall_forall in H. rewrite (H tv) by (eapply nth_error_In; eassumption). reflexivity.
Qed.

(** The storage format without its fast path. *)
Lemma sel_enc_off p o t e : is_native_fixed p o = false -> sel_enc p o t e = e.
Proof. intros H. unfold sel_enc. now rewrite H. Qed.

Lemma senc_storage p o t v : is_native_fixed p o = false ->
  senc (storage p o) t v = enc p o false (shape t) v.
Proof.
  intros Hn. revert v. induction t using sty_ind'; intros v;
    cbn [senc shape enc storage f_leaf_enc f_none f_some f_seq_enc f_map_enc f_var];
    rewrite ?Hn; cbn [andb]; rewrite ?sel_enc_off by assumption; try reflexivity; auto.
  - destruct v; try reflexivity. now rewrite IHt.
  - destruct v; try reflexivity. now rewrite (concat_res_ext _ _ _ IHt).
  - destruct v; try reflexivity. now rewrite (concat_res_ext _ _ _ IHt).
  - destruct v; try reflexivity. unfold lenN. rewrite map_length.
    destruct (encode_usize p o _) as [l| |]; try reflexivity. cbn [bind].
    rewrite (enc_list_ext (map (senc (storage p o)) ts)
      (map (fun t' => sel_enc p o t' (enc p o false t')) (map shape ts))); [reflexivity|].
    rewrite map_map. apply Forall2_map_same. revert H. apply Forall_impl. intros t Ht v.
    rewrite sel_enc_off by assumption. apply Ht.
  - destruct v; try reflexivity.
    rewrite (concat_res_ext _ (fun kv => let* a := enc p o false (shape t1) (fst kv) in
                                         let* b := enc p o false (shape t2) (snd kv) in Ok (a ++ b)));
      [reflexivity|].
    intros [k x]. cbn [fst snd]. now rewrite IHt1, IHt2.
  - destruct v; try reflexivity. rewrite ser_count_shape.
    rewrite (ser_fields_shape _ (senc (storage p o)) (enc p o false)) by assumption. reflexivity.
  - destruct v as [| | | | | | | | |i x]; try reflexivity. rewrite !nth_error_map.
    destruct (nth_error vs i) as [tv|] eqn:Ei; [|reflexivity]. cbn [option_map fst snd].
    rewrite Forall_forall in H. rewrite (H tv) by (eapply nth_error_In; eassumption). reflexivity.
Qed.

(** ** Round trip *)

(** The leaves that serde types have. *)
Definition sleaf (t : ty) : bool :=
  match t with
  | TUnit | TBool | TChar | TU _ | TI _ | TF32 | TF64 | TStr | TBytes => true
  | _ => false
  end.

Record srt_laws (F : fmt) (p : plat) : Prop := {
  s_leaf : forall t, sleaf t = true -> wf p t ->
    rt false (has_type p t) (f_leaf_enc F t) (f_leaf_dec F t);
  s_seq : forall n b rest, n < 2 ^ usize_bits p -> f_seq_enc F n = Ok b ->
    f_seq_dec F (b ++ rest) = Ok (n, rest);
  s_map : forall n b rest, n < 2 ^ usize_bits p -> f_map_enc F n = Ok b ->
    f_map_dec F (b ++ rest) = Ok (n, rest);
  s_none : forall rest, f_opt_dec F (f_none F ++ rest) = Ok (false, rest);
  s_some : forall rest, f_opt_dec F (f_some F ++ rest) = Ok (true, rest);
  s_var : forall rest, f_var_dec F (f_var F ++ rest) = Ok (tt, rest);
  s_rest0 : forall bs, f_skip_rest F 0 bs = Ok (tt, bs)
}.

Lemma rt_srt F p : rt_laws F p -> srt_laws F p.
Proof.
  intros L. constructor; try apply L.
  intros t Ht. apply (l_leaf F p L). destruct t; try discriminate; reflexivity.
Qed.

Lemma storage_srt p o : srt_laws (storage p o) p.
Proof.
  pose proof (usize_bits_ge p) as Hub.
  constructor; cbn [storage f_leaf_enc f_leaf_dec f_seq_enc f_seq_dec f_map_enc f_map_dec f_none f_some f_opt_dec
    f_var f_var_dec f_pack_enc f_pack_dec f_skip f_skip_rest]; try reflexivity.
  - intros t Hl _ v bs rest Hv _ He.
    destruct t; try discriminate Hl; cbn [has_type] in Hv; cbn [enc dec_] in *.
    + destruct v; try discriminate. rewrite (usize_roundtrip p o 0 bs rest); [reflexivity| |assumption].
      lia.
    + destruct v; try discriminate. inversion He; subst. destruct b; reflexivity.
    + destruct v; try discriminate. inversion He; subst. rewrite unsigned_roundtrip.
      * cbn [bind]. rewrite Hv. reflexivity.
      * unfold char_valid in Hv. cbn [bits]. lia.
    + destruct v; try (destruct w; discriminate).
      destruct w; inversion He; subst; try reflexivity; rewrite unsigned_roundtrip by lia; reflexivity.
    + destruct v; try (destruct w; discriminate). apply in_sb_s in Hv.
      destruct w; inversion He; subst; try (rewrite signed_roundtrip by assumption; reflexivity).
      cbn. rewrite to_s_to_u by (assumption || lia). reflexivity.
    + destruct v; try discriminate. inversion He; subst. rewrite unsigned_roundtrip by (cbn [bits]; lia).
      reflexivity.
    + destruct v; try discriminate. inversion He; subst. rewrite unsigned_roundtrip by (cbn [bits]; lia).
      reflexivity.
    + destruct v; try discriminate. inv_bind He. inversion He; subst.
      rewrite !andb_true_iff in Hv. destruct Hv as [[_ Hu] Hlen]. apply len_ok_lt in Hlen.
      rewrite <- app_assoc, (usize_roundtrip p o _ _ _ Hlen He0). cbn [bind].
      unfold read_bytes. rewrite take_opt_app. cbn [bind]. rewrite Hu. reflexivity.
    + destruct v; try discriminate. inv_bind He. inversion He; subst.
      rewrite !andb_true_iff in Hv. destruct Hv as [_ Hlen]. apply len_ok_lt in Hlen.
      rewrite <- app_assoc, (usize_roundtrip p o _ _ _ Hlen He0). cbn [bind].
      unfold read_bytes. rewrite take_opt_app. reflexivity.
  - intros n b rest Hn He. now apply usize_roundtrip.
  - intros n b rest Hn He. now apply usize_roundtrip.
Qed.

(** Reading back the entries that were written, as [dec_fields_rt]: a field is never set before. *)
Lemma de_fields_rt Pk ek dk skip : rt false Pk ek dk ->
  forall fs es ds Ps vs bs rest spre npre dpre,
    forallb (fun f => Pk (fname f)) fs = true ->
    NoDup (npre ++ map fname fs) ->
    length npre = length spre -> length dpre = length spre ->
    length fs = length Ps ->
    fields_rt Ps es ds -> all2 Ps vs = true ->
    enc_fields ek (combine fs es) vs = Ok bs ->
    iterN (count_fields fs vs)
      (de_field dk (npre ++ map fname fs) (dpre ++ ds) skip)
      (spre ++ map (fun _ => None) fs, bs ++ rest)
    = Ok (spre ++ written fs vs, rest).
Proof.
  intros Hk. induction fs as [|f fs IH];
    intros es ds Ps vs bs rest spre npre dpre Hn Hd Hl1 Hl2 Hlp Hrts Hv He.
  - destruct Ps; [|discriminate]. cbn in Hv. destruct vs; [|discriminate].
    cbn in He. inversion He; subst. reflexivity.
  - destruct Ps as [|P Ps]; [discriminate|]. cbn in Hlp.
    destruct es as [|e es]; [destruct ds; cbn in Hrts; contradiction|].
    destruct ds as [|d ds]; [cbn in Hrts; contradiction|].
    cbn [fields_rt rts] in Hrts. destruct Hrts as [Hrt Hrts].
    assert (Hrt' : rt false P e d) by (destruct Ps; exact Hrt).
    destruct vs as [|v vs]; [discriminate|]. cbn [all2] in Hv.
    apply andb_true_iff in Hv. destruct Hv as [Hv Hvs].
    cbn [forallb] in Hn. apply andb_true_iff in Hn. destruct Hn as [Hnf Hn].
    cbn [enc_fields combine] in He. cbn [count_fields map written].
    assert (Hnames : npre ++ fname f :: map fname fs = (npre ++ [fname f]) ++ map fname fs)
      by now rewrite <- app_assoc.
    assert (Hds : dpre ++ d :: ds = (dpre ++ [d]) ++ ds) by now rewrite <- app_assoc.
    destruct (fskip f v) eqn:Es.
    + rewrite N.add_0_l.
      replace (spre ++ None :: map (fun _ : finfo => None) fs)
        with ((spre ++ [@None val]) ++ map (fun _ => None) fs) by now rewrite <- app_assoc.
      replace (spre ++ None :: written fs vs) with ((spre ++ [None]) ++ written fs vs)
        by now rewrite <- app_assoc.
      rewrite Hnames, Hds. apply (IH es ds Ps); try assumption.
      * cbn [map] in Hd. now rewrite Hnames in Hd.
      * rewrite !app_length. cbn. lia.
      * rewrite !app_length. cbn. lia.
      * lia.
    + inv_bind He. inv_bind He. inv_bind He. inversion He; subst.
      rewrite N.add_1_l, iterN_nat, N2Nat.inj_succ. cbn [iter_nat].
      unfold de_field at 1. cbn [snd fst].
      rewrite <- !app_assoc, (Hk (fname f)) by (assumption || discriminate). cbn [bind].
      rewrite (find_name_nth _ (length npre)) by
        (first [exact Hd | apply nth_error_mid]).
      rewrite Hl1 at 1. rewrite <- Hl2 at 1. rewrite nth_error_mid.
      rewrite Hl1 at 1. rewrite nth_error_mid.
      rewrite (Hrt' v) by (assumption || discriminate). cbn [bind].
      rewrite Hl1, set_slot_app.
      replace (spre ++ Some v :: map (fun _ : finfo => None) fs)
        with ((spre ++ [Some v]) ++ map (fun _ => None) fs) by now rewrite <- app_assoc.
      replace (spre ++ Some v :: written fs vs) with ((spre ++ [Some v]) ++ written fs vs)
        by now rewrite <- app_assoc.
      rewrite <- iterN_nat. rewrite Hnames, Hds. apply (IH es ds Ps); try assumption.
      * cbn [map] in Hd. now rewrite Hnames in Hd.
      * rewrite !app_length. cbn. lia.
      * rewrite !app_length. cbn. lia.
      * lia.
Qed.

Lemma de_fill_fill fs s : de_fill (map fdefault fs) s = fill fs s.
Proof.
  revert s. induction fs as [|f fs IH]; intros [|x s]; cbn [map de_fill fill]; try reflexivity.
  rewrite IH. destruct x, (fdefault f); reflexivity.
Qed.

Lemma map_combine_gen {A B C} (f : A -> B) (g : A -> C) l :
  map (fun x => (f x, g x)) l = combine (map f l) (map g l).
Proof. induction l as [|x l IH]; cbn; [reflexivity|]. now rewrite IH. Qed.

Lemma s_roundtrip F p t : srt_laws F p -> wf p (shape t) ->
  rt false (has_type p (shape t)) (senc F t) (sdec F t).
Proof.
  intros L. pose proof (usize_bits_ge p) as Hub.
  induction t using sty_ind'; intros Hw;
    try (match goal with |- rt _ (has_type p (shape ?t)) _ _ => exact (s_leaf F p L (shape t) eq_refl Hw) end);
    cbn [shape wf] in Hw; intros v bs rest Hv _ He; cbn [senc] in He; cbn [sdec]; cbn [shape has_type] in Hv.
  - specialize (IHt Hw). destruct v; try discriminate.
    + inversion He; subst. rewrite (s_none F p L). reflexivity.
    + inv_bind He. inversion He; subst. rewrite <- app_assoc, (s_some F p L). cbn [bind].
      rewrite (IHt v) by (assumption || discriminate). reflexivity.
  - exact (IHt Hw v bs rest Hv ltac:(discriminate) He).
  - specialize (IHt Hw). destruct v; try discriminate.
    apply andb_true_iff in Hv. destruct Hv as [Hv Hl]. apply len_ok_lt in Hl.
    inv_bind He. inv_bind He. inversion He; subst.
    rewrite <- app_assoc, (s_seq F p L _ _ _ Hl He0). cbn [bind].
    rewrite (dec_count_rt _ _ _ IHt vs _ rest Hv He1). reflexivity.
  - specialize (IHt Hw). destruct v; try discriminate.
    rewrite !andb_true_iff in Hv. destruct Hv as [[Hv Hl] Hd]. apply len_ok_lt in Hl.
    inv_bind He. inv_bind He. inversion He; subst.
    rewrite <- app_assoc, (s_seq F p L _ _ _ Hl He0). cbn [bind].
    apply distinct_NoDup in Hd.
    pose proof (dec_set_rt _ _ _ IHt vs a0 rest [] Hv Hd He1) as Hs.
    match goal with |- bind ?x _ = _ => replace x with (@Ok (list val * bytes) (vs, rest)) by (symmetry; exact Hs) end.
    reflexivity.
  - destruct Hw as [Hw Hl]. rewrite map_map, allP_Forall, Forall_forall in Hw. apply len_ok_lt in Hl.
    rewrite Forall_forall in H. unfold lenN in Hl. rewrite map_length in Hl. fold (lenN ts) in Hl.
    destruct v; try discriminate. inv_bind He. inv_bind He. inversion He; subst.
    rewrite <- app_assoc, (s_seq F p L _ _ _ Hl He0). cbn [bind].
    rewrite N.ltb_irrefl. rewrite map_map in Hv.
    rewrite (dec_list_rt false (map (fun t => has_type p (shape t)) ts) (map (senc F) ts) (map (sdec F) ts)) with (vs := vs);
      [|apply (rts_map ts (fun t => has_type p (shape t)) (senc F) (sdec F))|assumption|discriminate|assumption].
    + cbn [bind]. rewrite N.sub_diag, (s_rest0 F p L). reflexivity.
    + intros t Ht. apply H; auto.
  - destruct Hw as [Hw1 Hw2]. specialize (IHt1 Hw1). specialize (IHt2 Hw2). destruct v; try discriminate.
    rewrite !andb_true_iff in Hv. destruct Hv as [[Hv Hl] Hd]. apply len_ok_lt in Hl.
    inv_bind He. inv_bind He. inversion He; subst.
    rewrite <- app_assoc, (s_map F p L _ _ _ Hl He0). cbn [bind].
    apply distinct_NoDup in Hd.
    pose proof (dec_map_rt _ _ _ _ _ _ IHt1 IHt2 kvs a0 rest [] Hv Hd He1) as Hs.
    match goal with |- bind ?x _ = _ => replace x with (@Ok (list (val * val) * bytes) (kvs, rest)) by (symmetry; exact Hs) end.
    reflexivity.
  - destruct Hw as (Hwk & Hw & Hl & Hnt & Hnd & Hdef & Hskip).
    change (map (fun ft : sfield * sty => ({| fname := VBytes (sname (fst ft)); fdefault := missing (fst ft) (snd ft);
                            fskip := sskip (fst ft) |}, shape (snd ft))) fs)
      with (map (fun ft : sfield * sty => (sfinfo ft, shape (snd ft))) fs) in *.
    rewrite map_map, allP_Forall, Forall_forall in Hw. apply len_ok_lt in Hl. rewrite Forall_forall in H.
    unfold lenN in Hl. rewrite map_length in Hl. fold (lenN fs) in Hl.
    destruct v; try discriminate. inv_bind He. inv_bind He. inversion He; subst. clear He.
    rewrite ser_count_shape in He0. rewrite map_map in He0, Hv. cbn [fst snd] in He0, Hv.
    assert (Hlt : count_fields (map sfinfo fs) vs < 2 ^ usize_bits p).
    { pose proof (count_fields_le (map sfinfo fs) vs) as Hcnt. unfold lenN in *. rewrite map_length in Hcnt. lia. }
    rewrite <- app_assoc, (s_map F p L _ _ _ Hlt He0). cbn [bind].
    pose proof (de_fields_rt (has_type p TStr) (f_leaf_enc F TStr) (f_leaf_dec F TStr) (f_skip F)
      (s_leaf F p L TStr eq_refl I)
      (map sfinfo fs) (map (fun ft => senc F (snd ft)) fs) (map (fun ft => sdec F (snd ft)) fs)
      (map (fun ft => has_type p (shape (snd ft))) fs) vs a0 rest [] [] []) as Hd.
    cbn [app] in Hd. rewrite !map_map in Hd.
    match goal with |- bind ?x _ = _ =>
      assert (Hx : x = Ok (written (map sfinfo fs) vs, rest)) end.
    { apply Hd; try reflexivity; try assumption; clear Hd.
      - clear - Hnt. rewrite forallb_forall in *. intros f Hf. rewrite in_map_iff in Hf.
        destruct Hf as [ft [<- Hft]]. apply (Hnt (sfinfo ft, shape (snd ft))).
        rewrite in_map_iff. eauto.
      - apply distinct_NoDup in Hnd. now rewrite map_map in Hnd.
      - now rewrite !map_length.
      - apply (rts_map fs (fun ft => has_type p (shape (snd ft))) (fun ft => senc F (snd ft))
                 (fun ft => sdec F (snd ft)) false).
        intros ft Hft. exact (H ft Hft (Hw ft Hft)).
      - rewrite <- He1. clear. revert vs. induction fs as [|ft fs IH]; intros [|v vs]; try reflexivity.
        cbn [map combine enc_fields ser_fields fst sfinfo fskip fname]. rewrite IH. reflexivity. }
    rewrite Hx. cbn [bind].
    replace (map (fun ft => missing (fst ft) (snd ft)) fs) with (map fdefault (map sfinfo fs))
      by (rewrite map_map; reflexivity).
    rewrite de_fill_fill, fill_written; [reflexivity| |].
    + apply all2_length in Hv. rewrite map_length in *. assumption.
    + intros f v Hf Hs. rewrite in_map_iff in Hf. destruct Hf as [ft [<- Hft]].
      apply (Hskip (sfinfo ft, shape (snd ft))); [rewrite in_map_iff; eauto|assumption].
  - destruct Hw as (_ & Hw & Hnt & Hnd).
    rewrite map_map, allP_Forall, Forall_forall in Hw. rewrite forallb_forall in Hnt. rewrite Forall_forall in H.
    destruct v as [| | | | | | | | |i v]; try discriminate. rewrite !nth_error_map in Hv. rewrite nth_error_map in He.
    destruct (nth_error vs i) as [tv|] eqn:Ei; [|discriminate]. cbn [option_map fst snd] in Hv, He.
    pose proof (nth_error_In _ _ Ei) as Hin.
    inv_bind He. inv_bind He. inversion He; subst. clear He.
    rewrite <- !app_assoc, (s_var F p L). cbn [bind].
    rewrite (s_leaf F p L TStr eq_refl I (VBytes (fst tv)) a (a0 ++ rest)); [|
      exact (Hnt _ (in_map (fun tv => (VBytes (fst tv), shape (snd (snd tv)))) _ _ Hin))|discriminate|assumption].
    cbn [bind].
    rewrite (find_name_nth (map (fun tv => VBytes (fst tv)) vs) i (VBytes (fst tv))).
    + rewrite nth_error_map, Ei. cbn [option_map].
      rewrite (H tv Hin (Hw tv Hin)) with (v := v); [reflexivity|assumption|discriminate|assumption].
    + apply distinct_NoDup in Hnd. now rewrite map_map in Hnd.
    + rewrite nth_error_map, Ei. reflexivity.
Qed.

(** ** Serde types accept no more than the compatible types *)

(** [a] is an error, or the same as [b]. *)
Definition fits {A} (a b : res A) : Prop := a = Err \/ a = b.

Lemma fits_refl {A} (a : res A) : fits a a.
Proof. now right. Qed.

Lemma fits_err {A} (b : res A) : fits Err b.
Proof. now left. Qed.

Lemma fits_bind {A B} (a b : res A) (f g : A -> res B) :
  fits a b -> (forall x, fits (f x) (g x)) -> fits (bind a f) (bind b g).
Proof.
  intros [->| ->] H; [left; reflexivity|]. destruct b; cbn [bind]; [apply H| |]; right; reflexivity.
Qed.

Lemma fits_iter {S} (f g : S -> res S) n : (forall s, fits (f s) (g s)) -> forall s, fits (iterN n f s) (iterN n g s).
Proof.
  intros H s. rewrite !iterN_nat. revert s. induction (N.to_nat n) as [|m IH]; intros s; cbn [iter_nat].
  - apply fits_refl.
  - apply fits_bind; [apply H|assumption].
Qed.

Lemma fits_count n (d e : dec val) : (forall bs, fits (d bs) (e bs)) ->
  forall bs, fits (dec_count n d bs) (dec_count n e bs).
Proof.
  intros H bs. unfold dec_count. apply fits_bind; [|intros [? ?]; apply fits_refl].
  apply fits_iter. intros [acc r]. cbn [fst snd]. apply fits_bind; [apply H|intros [? ?]; apply fits_refl].
Qed.

Lemma fits_list (ds es : list (dec val)) : Forall2 (fun d e => forall bs, fits (d bs) (e bs)) ds es ->
  forall bs, fits (dec_list ds bs) (dec_list es bs).
Proof.
  induction 1 as [|d e ds es H _ IH]; intros bs; cbn [dec_list]; [apply fits_refl|].
  apply fits_bind; [apply H|]. intros [v r]. apply fits_bind; [apply IH|]. intros [? ?]. apply fits_refl.
Qed.

Lemma Forall2_firstn {A B} (R : A -> B -> Prop) n l m : Forall2 R l m -> Forall2 R (firstn n l) (firstn n m).
Proof. intros H. revert n. induction H; intros [|n]; cbn; constructor; auto. Qed.

Lemma Forall2_len {A B} (R : A -> B -> Prop) l m : Forall2 R l m -> length l = length m.
Proof. induction 1; cbn; congruence. Qed.

Lemma fits_field (dk dk' : dec val) names (ds es : list (dec val)) skip : (forall bs, fits (dk bs) (dk' bs)) ->
  Forall2 (fun d e => forall bs, fits (d bs) (e bs)) ds es ->
  forall s, fits (de_field dk names ds skip s) (dec_field dk' names es skip s).
Proof.
  intros Hk Hd [s bs]. unfold de_field, dec_field. cbn [fst snd]. apply fits_bind; [apply Hk|]. intros [k r].
  destruct (find_name k names) as [i|]; [|apply fits_refl].
  destruct (nth_error ds i) as [d|] eqn:Ed; [|apply fits_err].
  destruct (nth_error s i) as [[?|]|]; try apply fits_err.
  destruct (nth_error es i) as [e|] eqn:Ee.
  - apply fits_bind; [|intros [? ?]; apply fits_refl].
    clear - Hd Ed Ee. revert i Ed Ee. induction Hd as [|d' e' ds es H _ IH]; intros [|i]; cbn; try discriminate.
    + intros [= ->] [= ->]. apply H.
    + apply IH.
  - exfalso. pose proof (Forall2_len _ _ _ Hd) as El. apply nth_error_None in Ee.
    assert (Hne : nth_error ds i <> None) by congruence. apply nth_error_Some in Hne. unfold dec in *. lia.
Qed.

(** Every struct has a field. *)
Fixpoint fielded (t : sty) : bool :=
  match t with
  | SOpt t | SNew t | SSeq t | SSet t => fielded t
  | STup ts => forallb fielded ts
  | SMap k v => fielded k && fielded v
  | SStruct fs => negb (match fs with [] => true | _ => false end) && forallb (fun ft => fielded (snd ft)) fs
  | SEnum vs => forallb (fun tv => fielded (snd (snd tv))) vs
  | _ => true
  end.

Lemma Forall_use {A} (P : A -> bool) (Q : A -> Prop) l :
  Forall (fun x => P x = true -> Q x) l -> forallb P l = true -> Forall Q l.
Proof. rewrite forallb_forall, !Forall_forall. auto. Qed.

Lemma sdec_fits F p o t : fielded t = true -> forall bs, fits (sdec F t bs) (gdec F p o (shape t) bs).
Proof.
  induction t using sty_ind'; cbn [fielded]; intros Hf bs; cbn [sdec shape gdec]; try apply fits_refl; auto.
  - apply fits_bind; [apply fits_refl|]. intros [[|] r]; [|apply fits_refl].
    apply fits_bind; [auto|]. intros [? ?]. apply fits_refl.
  - apply fits_bind; [apply fits_refl|]. intros [n r].
    apply fits_bind; [apply fits_count; auto|]. intros [? ?]. apply fits_refl.
  - apply fits_bind; [apply fits_refl|]. intros [n r].
    apply fits_bind; [|intros [? ?]; apply fits_refl]. apply fits_iter. intros [s q]. cbn [fst snd].
    apply fits_bind; [auto|]. intros [? ?]. apply fits_refl.
  - apply fits_bind; [apply fits_refl|]. intros [m r].
    unfold lenN. rewrite map_length.
    pose proof (Forall_use _ _ _ H Hf) as Hd.
    assert (Hd2 : Forall2 (fun d e => forall bs, fits (d bs) (e bs)) (map (sdec F) ts) (map (gdec F p o) (map shape ts))).
    { rewrite map_map. apply Forall2_map_same. exact Hd. }
    destruct (m <? _).
    + apply fits_bind; [apply fits_list, Forall2_firstn, Hd2|]. intros [? ?]. apply fits_refl.
    + apply fits_bind; [apply fits_list, Hd2|]. intros [vs q].
      apply fits_bind; [apply fits_refl|]. intros [? ?]. apply fits_refl.
  - apply andb_true_iff in Hf. destruct Hf as [Hf1 Hf2].
    apply fits_bind; [apply fits_refl|]. intros [n r].
    apply fits_bind; [|intros [? ?]; apply fits_refl]. apply fits_iter. intros [s q]. cbn [fst snd].
    apply fits_bind; [auto|]. intros [k q']. apply fits_bind; [auto|]. intros [? ?]. apply fits_refl.
  - apply andb_true_iff in Hf. destruct Hf as [Hn Hf]. pose proof (Forall_use _ _ _ H Hf) as Hd.
    apply fits_bind; [apply fits_refl|]. intros [n r]. rewrite !map_map. cbn [fst snd fname].
    destruct fs as [|ft fs]; [discriminate Hn|]. set (fs' := ft :: fs) in *.
    apply fits_bind.
    + apply fits_iter. apply (fits_field (f_leaf_dec F TStr) (gdec F p o TStr)); [intros; apply fits_refl|].
      apply Forall2_map_same. exact Hd.
    + intros [s q]. apply fits_bind; [|intros; apply fits_refl]. right.
      rewrite <- de_fill_fill, map_map. reflexivity.
  - pose proof (Forall_use _ _ _ H Hf) as Hd.
    apply fits_bind; [apply fits_refl|]. intros [u r]. apply fits_bind; [apply fits_refl|]. intros [k q].
    rewrite map_map. cbn [fst]. destruct (find_name k _) as [i|]; [|apply fits_refl].
    rewrite !nth_error_map. destruct (nth_error vs i) as [tv|] eqn:Ei; [|apply fits_refl]. cbn [option_map snd].
    apply fits_bind; [|intros [? ?]; apply fits_refl].
    rewrite Forall_forall in Hd. apply Hd. eapply nth_error_In. eassumption.
Qed.

Lemma sel_dec_off p o t d : is_native_fixed p o = false -> sel_dec p o t d = d.
Proof. intros H. unfold sel_dec. now rewrite H. Qed.

Lemma sdec_storage_fits p o t : is_native_fixed p o = false ->
  forall bs, fits (sdec (storage p o) t bs) (dec_ p o false (shape t) bs).
Proof.
  intros Hnf. induction t using sty_ind'; intros bs;
    cbn [sdec shape dec_ storage f_leaf_dec f_opt_dec f_seq_dec f_map_dec f_var_dec f_skip f_skip_rest];
    rewrite ?Hnf; cbn [andb]; rewrite ?sel_dec_off by assumption; try apply fits_refl; auto.
  - destruct (read_byte bs) as [[b r]| |]; cbn [bind]; try apply fits_refl.
    destruct (b =? 1); [|apply fits_refl].
    apply fits_bind; [auto|]. intros [? ?]. apply fits_refl.
  - unfold dec_seq. destruct (decode_usize p o bs) as [[n r]| |]; cbn [bind]; try apply fits_refl.
    apply fits_bind; [apply fits_count; auto|]. intros [? ?]. apply fits_refl.
  - apply fits_bind; [apply fits_refl|]. intros [n r].
    apply fits_bind; [|intros [? ?]; apply fits_refl]. apply fits_iter. intros [s q]. cbn [fst snd].
    apply fits_bind; [auto|]. intros [? ?]. apply fits_refl.
  - apply fits_bind; [apply fits_refl|]. intros [m r].
    assert (Hd2 : Forall2 (fun d e => forall bs, fits (d bs) (e bs)) (map (sdec (storage p o)) ts)
        (map (fun t' => sel_dec p o t' (dec_ p o false t')) (map shape ts))).
    { rewrite map_map. apply Forall2_map_same. revert H. apply Forall_impl. intros t Ht.
      now rewrite sel_dec_off. }
    assert (El : lenN (map shape ts) = lenN ts) by (unfold lenN; now rewrite map_length).
    rewrite El. destruct (m <? lenN ts) eqn:Em.
    + replace (N.min m (lenN ts)) with m by lia. apply fits_bind; [apply fits_list, Forall2_firstn, Hd2|].
      intros [? ?]. apply fits_err.
    + replace (N.min m (lenN ts)) with (lenN ts) by lia. unfold lenN at 2. rewrite Nat2N.id.
      rewrite (firstn_all2 (n := length ts)) by (now rewrite !map_length).
      apply fits_bind; [apply fits_list, Hd2|]. intros [vs q].
      destruct (m =? lenN ts) eqn:E.
      * replace (m - lenN ts) with 0 by lia. apply fits_refl.
      * replace (m - lenN ts =? 0) with false by lia. apply fits_err.
  - apply fits_bind; [apply fits_refl|]. intros [n r].
    apply fits_bind; [|intros [? ?]; apply fits_refl]. apply fits_iter. intros [s q]. cbn [fst snd].
    apply fits_bind; [auto|]. intros [k q']. apply fits_bind; [auto|]. intros [? ?]. apply fits_refl.
  - apply fits_bind; [apply fits_refl|]. intros [n r]. rewrite !map_map. cbn [fst snd fname].
    apply fits_bind.
    + apply fits_iter. apply (fits_field (dec_ p o false TStr) (dec_ p o false TStr)); [intros; apply fits_refl|].
      apply Forall2_map_same. exact H.
    + intros [s q]. apply fits_bind; [|intros; apply fits_refl]. right.
      rewrite <- de_fill_fill, map_map. reflexivity.
  - cbn [bind].
    apply fits_bind; [apply fits_refl|]. intros [k q].
    rewrite map_map. cbn [fst]. destruct (find_name k _) as [i|]; [|apply fits_refl].
    rewrite !nth_error_map. destruct (nth_error vs i) as [tv|] eqn:Ei; [|apply fits_refl]. cbn [option_map snd].
    apply fits_bind; [|intros [? ?]; apply fits_refl].
    rewrite Forall_forall in H. apply H. eapply nth_error_In. eassumption.
Qed.
