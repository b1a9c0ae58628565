(** Tidy programs never run into a dangerous event. *)
From Coq Require Import List NArith Bool Lia Arith.
From Verif Require Import Base BaseFacts Alloc AllocSpec AllocFacts AllocGrow AllocVec AllocMerge AllocRun.
Import ListNotations.
Open Scope N_scope.

(** As [wp], but a bad end comes without a dangerous event. *)
Definition hp {A} (m : out A) (P : A -> Prop) : Prop :=
  match m with Done x => P x | Panicked z => z = [] | Undefined z => z = [] end.

Lemma hp_bind : forall {A B} (m : out A) (f : A -> out B) P Q,
  hp m P -> (forall x, P x -> hp (f x) Q) -> hp (obind m f) Q.
Proof. intros A B m f P Q H K. destruct m; simpl in *; auto. Qed.

Lemma hp_mono : forall {A} (m : out A) (P Q : A -> Prop), hp m P -> (forall x, P x -> Q x) -> hp m Q.
Proof. intros A m P Q H K. destruct m; simpl in *; auto. Qed.

(** ** The list of regions is determined by the state *)

Lemma seg_det : forall g u u', seg g None u None -> seg g None u' None -> NoDup u -> NoDup u' ->
  last_or u None = last_or u' None -> u = u'.
Proof.
  intros g.
  assert (Snoc : forall l k n, seg g None (l ++ [k]) n -> seg g None l (Some k) /\ h_prev (g k) = last_or l None).
  { intros l k n H. apply seg_app in H. simpl in H. destruct H as (H1 & H2 & _). auto. }
  (* backwards along the links to the previous region *)
  assert (K : forall n u u' m m', length u = n -> seg g None u m -> seg g None u' m' ->
     last_or u None = last_or u' None -> u = u').
  { induction n as [|n IH]; intros u u' m m' L H H' E.
    - destruct u; [|discriminate]. symmetry in E. apply last_or_none in E. auto.
    - destruct (snoc_cases u) as [->|(t & k & ->)]; [discriminate|].
      destruct (snoc_cases u') as [->|(t' & k' & ->)].
      { rewrite last_or_app in E. discriminate. }
      rewrite !last_or_app in E. simpl in E. injection E as <-.
      apply Snoc in H. apply Snoc in H'. destruct H as (H & P). destruct H' as (H' & P').
      f_equal. apply (IH t t' (Some k) (Some k)); auto; [|congruence].
      rewrite app_length in L. simpl in L. lia. }
  intros u u' H H' _ _ E. apply (K (length u) u u' None None); auto.
Qed.

Lemma inv_det : forall s l l', inv s l -> inv s l' -> l = l'.
Proof.
  intros s l l' I I'. apply (seg_det (a_hdrs s)); try apply I; try apply I'.
  rewrite <- (i_tail _ _ I), <- (i_tail _ _ I'). reflexivity.
Qed.

(** ** Quiet states *)

Record quiet (s : ast) (rl : list N) (sp : bool) : Prop := mkquiet {
  qt_inv : inv s rl;
  qt_occ : a_occ s = None;
  qt_haz : a_haz s = [];
  qt_free : forall f, a_free_head s = Some f -> sp = true /\ h_next (a_hdrs s f) = None }.

Lemma quiet_mem : forall s rl sp m, quiet s rl sp -> quiet (set_mem s m) rl sp.
Proof. intros s rl sp m [I O H F]. constructor; red_s; auto. now apply inv_set_mem. Qed.

Lemma quiet_weaken : forall s rl sp, quiet s rl sp -> quiet s rl true.
Proof. intros s rl sp [I O H F]. constructor; auto. intros f Hf. destruct (F f Hf). auto. Qed.

Lemma quiet_grow : forall s t k sp f, quiet s (t ++ [k]) sp -> a_fs s <= f -> f <= a_fe s ->
  quiet (set_end (set_fs s f) k f) (t ++ [k]) sp.
Proof.
  intros s t k sp f [I O H F] L1 L2. constructor; red_s; auto.
  - apply grow_tail; auto.
  - intros g Hg. destruct (F g Hg) as (A & B). split; auto. destruct (N.eqb_spec g k) as [->|]; auto.
Qed.

Lemma quiet_align : forall s rl sp al, quiet s rl sp -> 0 < al -> (rl = [] -> a_lo s mod al = 0) ->
  hp (align s al) (fun x => quiet (snd x) rl sp /\ a_lo (snd x) = a_lo s).
Proof.
  intros s rl sp al Q P B. pose proof (qt_inv _ _ _ Q) as I. unfold align. cbv zeta.
  destruct (N.eqb_spec (align_offset (a_fs s) al) 0) as [E|E]; [simpl; auto|].
  rewrite (remaining_eq _ _ I).
  destruct (N.ltb_spec (a_fe s - a_fs s) (align_offset (a_fs s) al)) as [L|L]; [simpl; auto|].
  pose proof (inv_fe _ _ I) as Lfe. pose proof (i_fs _ _ I) as Lfs.
  set (off := align_offset (a_fs s) al) in *.
  rewrite wadd_small by (clear -L Lfe Lfs; lia).
  rewrite (i_tail _ _ I).
  destruct (snoc_cases rl) as [->|(t & k & ->)].
  - exfalso. apply E. apply align_offset_zero; auto. pose proof (i_tile _ _ I) as T. simpl in T. rewrite <- T. auto.
  - rewrite last_or_app. simpl last_or. cbv iota. cbn [hp snd]. split; [|reflexivity].
    assert (Es : set_fs (set_end s k (a_fs s + off)) (a_fs s + off) = set_end (set_fs s (a_fs s + off)) k (a_fs s + off)) by reflexivity.
    rewrite Es. apply quiet_grow; auto; lia.
Qed.

Lemma quiet_alloc : forall s rl sp al, quiet s rl sp -> 0 < al -> (rl = [] -> a_lo s mod al = 0) ->
  hp (alloc s 0 al) (fun x =>
    match fst x with
    | None => quiet (snd x) rl sp
    | Some i => quiet (snd x) (rl ++ [i]) false
    end).
Proof.
  intros s rl sp al Q P B. unfold alloc. rewrite (qt_occ _ _ _ Q). unfold alloc_fresh.
  apply hp_bind with (1 := quiet_align s rl sp al Q P B).
  intros (ok, s1) (Q1 & _). cbn [snd] in *. destruct ok; cbn [negb]; [|exact Q1].
  pose proof (qt_inv _ _ _ Q1) as I1. pose proof (inv_fe _ _ I1) as Lfe. pose proof (i_fs _ _ I1) as Lfs.
  destruct (N.ltb_spec (remaining s1) 0) as [L|L]; [lia|]. cbv zeta.
  rewrite wadd_small by (clear -Lfe Lfs; replace (2 ^ 64) with (2 ^ 63 + 2 ^ 63) by reflexivity; lia). rewrite N.add_0_r.
  pose proof (alloc_header_spec s1 rl (a_fs s1) I1 ltac:(lia) Lfs) as Sp.
  assert (Cl : hp (alloc_header s1 (a_fs s1)) (fun x => a_haz (snd x) = [] /\ forall i, fst x = Some i -> a_free_head (snd x) = None)).
  { pose proof (qt_haz _ _ _ Q1) as Hz. unfold alloc_header. destruct (a_free_head s1) as [f|] eqn:Fh.
    - destruct (qt_free _ _ _ Q1 f Fh) as (_ & Nx). cbn [hp fst snd]. unfold add_haz. red_s. rewrite Nx. auto.
    - destruct (_ && _); [exact Hz|]. cbv zeta.
      destruct (N.ltb_spec (wsub (a_fe s1) hdr_size) (a_fs s1)) as [L3|L3]; [cbn; split; [auto|discriminate]|]. cbn [orb].
      destruct (_ <=? _); [cbn; split; [auto|discriminate]|].
      destruct (_ || _); [cbn; split; [auto|discriminate]|]. cbn [hp fst snd]. unfold add_haz. red_s.
      destruct (N.ltb_spec (wsub (a_fe s1) hdr_size) (a_fs s1)); [lia|]. auto. }
  destruct (alloc_header s1 (a_fs s1)) as [(r, s2)|z|z]; cbn [hp obind] in *; auto. cbn [wp fst snd] in *.
  destruct Cl as (Hz & Fh). destruct r as [i|].
  2:{ subst s2. exact Q1. }
  specialize (Fh i eq_refl). destruct Sp as [Sp|G]; [contradiction|].
  pose proof (push_back_frame (set_fs s2 (a_fs s1)) i) as (F1 & F2 & F3 & F4 & F5 & F6 & F7). red_s.
  replace (a_fs s1 <=? a_fe s2) with true by (symmetry; apply N.leb_le; apply (g_fe _ _ _ _ _ G)).
  cbn [negb]. rewrite andb_false_r. cbn [hp fst snd].
  assert (Ec : push_back (set_fs s2 (a_fs s1)) i = set_fs (push_back s2 i) (a_fs s1)).
  { unfold push_back. red_s. destruct (a_tail s2); reflexivity. }
  constructor.
  - rewrite Ec. apply push_back_inv with (s := s1); auto. lia.
  - rewrite F3, (g_occ _ _ _ _ _ G). apply Q1.
  - rewrite F1. exact Hz.
  - intros f Hf. exfalso. rewrite Ec in Hf. unfold push_back in Hf. destruct (a_tail s2); red_s; congruence.
Qed.

Lemma free_region_next : forall s i, h_next (a_hdrs (snd (free_region s i)) i) = a_free_head (unlink s (a_hdrs s i)).
Proof. intros s i. unfold free_region. cbn [snd]. red_s. rewrite N.eqb_refl. reflexivity. Qed.

Lemma unlink_head : forall s h, a_free_head (unlink s h) = a_free_head s.
Proof. intros s h. unfold unlink. destruct (h_next h), (h_prev h); reflexivity. Qed.

Lemma quiet_free_region : forall s i old s', free_region s i = (old, s') -> (forall f, a_free_head s = Some f -> False) ->
  h_next (a_hdrs s' i) = None.
Proof.
  intros s i old s' E N. pose proof (free_region_next s i) as H. rewrite E in H. cbn [snd] in H. rewrite H, unlink_head.
  destruct (a_free_head s) as [f|]; auto. destruct (N f eq_refl).
Qed.

Lemma quiet_free : forall s t k, quiet s (t ++ [k]) false -> hp (free s k) (fun s' => quiet s' t true).
Proof.
  intros s t k Q. pose proof (qt_inv _ _ _ Q) as I.
  assert (Nf : forall f, a_free_head s = Some f -> False) by (intros f Hf; destruct (qt_free _ _ _ Q f Hf); discriminate).
  pose proof (inv_split _ _ _ _ I) as (Ep & En & T1 & Le & T2 & N1 & N2 & ND).
  destruct (free_region_spec s t k [] (i_nodup _ _ I) (i_seg _ _ I) (i_tail _ _ I)) as (s' & Fr & F).
  destruct (i_ids _ _ I) as (n & Eh & Li & Lf).
  pose proof (quiet_free_region s k _ s' Fr Nf) as Nx.
  unfold free. rewrite En. simpl hd_or. unfold free_tail.
  rewrite (i_tail _ _ I), last_or_app. simpl last_or. simpl oeqb at 1.
  rewrite N.eqb_refl. cbn [negb]. rewrite andb_false_r. rewrite Fr, En. cbn [hd_or oeqb negb]. rewrite andb_false_r.
  rewrite (f_occ _ _ _ _ _ F), (qt_occ _ _ _ Q). cbn [oeqb].
  rewrite app_nil_r in *.
  assert (Qe : quiet (set_fs s' (h_start (a_hdrs s k))) t true).
  { constructor; red_s.
    - constructor; red_s; auto.
      + pose proof (f_seg _ _ _ _ _ F) as G. rewrite app_nil_r in G. exact G.
      + rewrite (f_tail _ _ _ _ _ F), app_nil_r. reflexivity.
      + rewrite (f_lo _ _ _ _ _ F). apply (tile_ext (a_hdrs s)); [|exact T1].
        intros j J. apply F. intros ->. auto.
      + intros f Hf. rewrite (f_head _ _ _ _ _ F) in Hf. injection Hf as <-. split; [exact N1|apply F].
      + intros o Hoc. rewrite (f_occ _ _ _ _ _ F), (qt_occ _ _ _ Q) in Hoc. discriminate.
      + rewrite (f_lo _ _ _ _ _ F). apply I.
      + rewrite (f_fe _ _ _ _ _ F). simpl in T2. pose proof (i_fs _ _ I). lia.
      + rewrite (f_hi _ _ _ _ _ F). apply I.
      + exists n. rewrite (f_hi _ _ _ _ _ F), (f_fe _ _ _ _ _ F). split; [exact Eh|]. split.
        { intros j J. apply Li. rewrite in_app_iff. auto. }
        intros f Hf. rewrite (f_head _ _ _ _ _ F) in Hf. injection Hf as <-. apply Li. rewrite in_app_iff. simpl. auto.
      + rewrite (f_dbg _ _ _ _ _ F), (f_fe _ _ _ _ _ F). apply I.
    - rewrite (f_occ _ _ _ _ _ F). apply Q.
    - rewrite (f_haz _ _ _ _ _ F). apply Q.
    - intros f Hf. rewrite (f_head _ _ _ _ _ F) in Hf. injection Hf as <-. auto. }
  destruct (h_prev (a_hdrs s k)); exact Qe.
Qed.

Lemma quiet_resize : forall s rl sp v len n, quiet s rl sp -> v_sz v <> 0 -> 0 < v_al v ->
  (v_region v = None \/ exists t k, rl = t ++ [k] /\ v_region v = Some k) ->
  hp (resize s v len n) (fun x => quiet (snd x) rl sp /\ v_region (snd (fst x)) = v_region v /\ v_sz (snd (fst x)) = v_sz v).
Proof.
  intros s rl sp v len n Q Z P R. pose proof (qt_inv _ _ _ Q) as I. unfold resize, uplus.
  assert (G : forall x, hp (let! t := x in
     if t <=? v_cap v then Done (true, v, s) else if v_sz v =? 0 then Done (true, v, s) else
     match v_region v with
     | None => Done (false, v, s)
     | Some i =>
      let l := len * v_sz v in
      let a := n * v_sz v in
      if (usz <=? l) || (usz <=? a) || (usz <=? l + a) then Done (false, v, s)
      else
        let requested := l + a in
        if max_bytes <? requested then Done (false, v, s)
        else
          let actual := capacity (a_hdrs s i) in
          if requested <=? actual then Done (true, with_region v (Some i) (actual / v_sz v), s)
          else
            let! (r, s) := realloc s i l requested (v_al v) in
            match r with
            | None => Done (false, v, s)
            | Some j => Done (true, with_region v (Some j) (capacity (a_hdrs s j) / v_sz v), s)
            end
     end) (fun y => quiet (snd y) rl sp /\ v_region (snd (fst y)) = v_region v /\ v_sz (snd (fst y)) = v_sz v)
   \/ exists z, x = Panicked z \/ x = Undefined z).
  { intros x. destruct x as [t|z|z]; [left|right; eauto|right; eauto]. cbn [obind].
    destruct (_ <=? _); [cbn; auto|]. apply N.eqb_neq in Z. rewrite Z.
    destruct (v_region v) as [i|] eqn:Ri; [|cbn; auto]. cbv zeta.
    destruct (_ || _ || _); [cbn; auto|].
    destruct (N.ltb_spec max_bytes (len * v_sz v + n * v_sz v)) as [Lm|Lm]; [cbn; auto|].
    destruct (N.leb_spec (len * v_sz v + n * v_sz v) (capacity (a_hdrs s i))) as [Lc|Lc]; [cbn; auto|].
    destruct R as [R|(u & k & -> & R)]; [discriminate|]. injection R as ->.
    set (req := len * v_sz v + n * v_sz v) in *.
    assert (Kin : In k (u ++ [k])) by (rewrite in_app_iff; simpl; auto).
    pose proof (inv_split _ _ _ _ I) as (_ & En & _). unfold realloc. rewrite En. simpl hd_or. cbv iota zeta.
    unfold reserve.
    apply hp_bind with (P := fun x => match fst x with
      | None => quiet (snd x) (u ++ [k]) sp
      | Some j => j = k /\ quiet (snd x) (u ++ [k]) sp end).
    { apply hp_bind with (P := fun x => quiet (snd x) (u ++ [k]) sp /\ forall f, fst x = Some f ->
        f = a_fs (snd x) + (req - capacity (a_hdrs s k)) /\ f <= a_fe (snd x)).
      { apply hp_bind with (1 := quiet_align s (u ++ [k]) sp (v_al v) Q P ltac:(destruct u; discriminate)).
        intros (ok, s1) (Q1 & _). cbn [snd] in Q1. destruct ok; cbn [negb]; [|cbn; split; [auto|discriminate]]. cbv zeta.
        pose proof (qt_inv _ _ _ Q1) as I1. pose proof (inv_fe _ _ I1) as Lfe. pose proof (i_fs _ _ I1) as Lfs.
        assert (Lmm : max_bytes < 2 ^ 63) by reflexivity.
        rewrite wadd_small by (clear -Lfe Lfs Lm Lmm; replace (2 ^ 64) with (2 ^ 63 + 2 ^ 63) by reflexivity; lia).
        destruct (N.ltb_spec (a_fe s1) (a_fs s1 + (req - capacity (a_hdrs s k)))) as [L1|L1]; [cbn; split; [auto|discriminate]|]. cbn [orb].
        destruct (_ <? _); [cbn; split; [auto|discriminate]|]. cbn [hp fst snd]. split; [auto|]. intros f Hf. injection Hf as <-. auto. }
      intros (r, s1) (Q1 & Hf). cbn [fst snd] in *. destruct r as [f|]; [|exact Q1].
      destruct (Hf f eq_refl) as (Ef & Lf). cbn [hp fst snd]. split; [auto|]. red_s.
      pose proof (qt_inv _ _ _ Q1) as I1. rewrite (last_end _ _ _ I1).
      pose proof (inv_fe _ _ I1) as Lfe.
      rewrite wadd_small by (rewrite <- Ef; replace (2 ^ 64) with (2 ^ 63 + 2 ^ 63) by reflexivity; lia).
      rewrite <- Ef. apply quiet_grow; auto. lia. }
    intros (r, s1) H. cbn [fst snd] in H. destruct r as [j|].
    - destruct H as (-> & Q1). cbn. auto.
    - cbn. auto. }
  destruct (len + n <? usz).
  - destruct (G (Done (len + n))) as [H|(z & [H|H])]; [exact H|discriminate|discriminate].
  - destruct (a_dbg s).
    + simpl. apply Q.
    + destruct (G (Done ((len + n) mod usz))) as [H|(z & [H|H])]; [exact H|discriminate|discriminate].
Qed.

Lemma quiet_write : forall s rl sp al a bs, quiet s rl sp -> hp (write_elems s al a bs) (fun s' => quiet s' rl sp).
Proof.
  intros s rl sp al a bs Q. unfold write_elems, write_data.
  destruct (_ || _); [|apply Q]. destruct (in_data _ _ _); [|apply Q]. cbn [hp]. now apply quiet_mem.
Qed.

Lemma quiet_uplus : forall s rl sp a b, quiet s rl sp -> hp (uplus s a b) (fun _ => True).
Proof. intros s rl sp a b Q. unfold uplus. destruct (_ <? _); [exact Logic.I|]. destruct (a_dbg s); [apply Q|exact Logic.I]. Qed.

Definition on_top (rl : list N) (v : vec) : Prop :=
  v_region v = None \/ exists t k, rl = t ++ [k] /\ v_region v = Some k.

Lemma quiet_extend_slice : forall s rl sp v n bs, quiet s rl sp -> v_sz v <> 0 -> 0 < v_al v -> on_top rl v ->
  hp (vec_extend_from_slice s v n bs) (fun x => quiet (snd x) rl sp /\ v_region (snd (fst x)) = v_region v).
Proof.
  intros s rl sp v n bs Q Z P R. unfold vec_extend_from_slice. pose proof Z as Z'. apply N.eqb_neq in Z'. rewrite Z'.
  apply hp_bind with (1 := quiet_resize s rl sp v (v_len v) n Q Z P R).
  intros ((ok, v'), s1) (Q1 & Rv & _). cbn [fst snd] in *. destruct ok; cbn [negb]; [|cbn; auto].
  apply hp_bind with (1 := quiet_write s1 rl sp _ _ bs Q1). intros s2 Q2.
  apply hp_bind with (1 := quiet_uplus s2 rl sp _ _ Q2). intros l _. cbn. auto.
Qed.

Lemma quiet_new : forall s rl sp sz al, quiet s rl sp -> sz <> 0 -> 0 < al -> (rl = [] -> a_lo s mod al = 0) ->
  hp (vec_new s sz al) (fun x =>
    v_sz (fst x) = sz /\ v_al (fst x) = al /\
    match v_region (fst x) with
    | None => quiet (snd x) rl sp
    | Some i => quiet (snd x) (rl ++ [i]) false
    end).
Proof.
  intros s rl sp sz al Q Z P B. unfold vec_new. apply N.eqb_neq in Z. rewrite Z.
  apply hp_bind with (1 := quiet_alloc s rl sp al Q P B). intros (r, s1) H. cbn [fst snd hp v_region v_sz v_al] in *. auto.
Qed.

Lemma quiet_drop : forall s rl sp v, quiet s rl sp -> (v_region v <> None -> sp = false) -> on_top rl v -> v_sz v <> 0 ->
  hp (drop_vec s v) (fun s' => quiet s' (match v_region v with Some _ => removelast rl | None => rl end) true).
Proof.
  intros s rl sp v Q Sp R Z. unfold drop_vec. apply N.eqb_neq in Z. rewrite Z.
  destruct R as [E|(t & k & -> & E)]; rewrite E in *.
  - cbn. eapply quiet_weaken. exact Q.
  - rewrite removelast_last. apply quiet_free. rewrite <- Sp by discriminate. exact Q.
Qed.

Lemma quiet_with_capacity : forall s rl sp sz al n, quiet s rl sp -> sz <> 0 -> 0 < al -> (rl = [] -> a_lo s mod al = 0) ->
  hp (vec_with_capacity s sz al n) (fun x =>
    match fst x with
    | Some v => match v_region v with
        | None => quiet (snd x) rl sp
        | Some i => quiet (snd x) (rl ++ [i]) false
        end
    | None => quiet (snd x) rl true
    end).
Proof.
  intros s rl sp sz al n Q Z P B. unfold vec_with_capacity.
  apply hp_bind with (1 := quiet_new s rl sp sz al Q Z P B).
  intros (v, s1) (V1 & V2 & H). cbn [fst snd] in *.
  destruct (v_region v) as [i|] eqn:Ri.
  - apply hp_bind with (1 := quiet_resize s1 (rl ++ [i]) false v 0 n H ltac:(congruence) ltac:(congruence) (or_intror (ex_intro _ rl (ex_intro _ i (conj eq_refl Ri))))).
    intros ((ok, v'), s2) (Q2 & R2 & Z2). cbn [fst snd] in *. rewrite Ri in R2. destruct ok.
    + cbn. rewrite R2. exact Q2.
    + unfold drop_vec. rewrite R2. destruct (v_sz v' =? 0) eqn:Zv.
      { exfalso. apply N.eqb_eq in Zv. congruence. }
      apply hp_bind with (1 := quiet_free s2 rl i Q2). intros s3 Q3. cbn. exact Q3.
  - apply hp_bind with (1 := quiet_resize s1 rl sp v 0 n H ltac:(congruence) ltac:(congruence) (or_introl Ri)).
    intros ((ok, v'), s2) (Q2 & R2 & Z2). cbn [fst snd] in *. rewrite Ri in R2. destruct ok.
    + cbn. rewrite R2. exact Q2.
    + unfold drop_vec. rewrite R2. destruct (_ =? _); cbn; eapply quiet_weaken; exact Q2.
Qed.

Definition oreg (v : vec) : list N := match v_region v with Some i => [i] | None => [] end.

Lemma quiet_extend : forall s rl t v o sp, quiet s rl sp -> (v_region o <> None -> sp = false) -> rl = t ++ oreg v ++ oreg o ->
  v_sz v <> 0 -> v_sz o <> 0 -> 0 < v_al v ->
  hp (vec_extend s v o) (fun x => quiet (snd x) (t ++ oreg v) true /\ v_region (snd (fst x)) = v_region v).
Proof.
  intros s rl t v o sp Q Sp Er Zv Zo P. pose proof (qt_inv _ _ _ Q) as I. pose proof (qt_haz _ _ _ Q) as Hz.
  assert (Slow : on_top rl v ->
      (forall s1, quiet s1 rl sp -> hp (drop_vec s1 o) (fun s2 => quiet s2 (t ++ oreg v) true)) ->
      hp (let! bs := vec_bytes s o in
      let src := as_ptr s o in
      let! (ok, v', s) := vec_extend_from_slice s v (v_len o) bs in
      if (ok : bool) && negb (v_sz v =? 0) && negb (lenN bs =? 0)
         && negb ((src + lenN bs <=? as_ptr s v' + v_len v * v_sz v)
                  || (as_ptr s v' + v_len v * v_sz v + lenN bs <=? src))
      then Undefined (a_haz s)
      else let! s := drop_vec s o in Done (ok, v', s))
      (fun x => quiet (snd x) (t ++ oreg v) true /\ v_region (snd (fst x)) = v_region v)).
  { intros Tp Dr. apply hp_bind with (P := fun _ => True).
    { unfold vec_bytes, read_data. destruct (in_data _ _ _); [exact Logic.I|exact Hz]. }
    intros bs _. cbv zeta. apply hp_bind with (1 := quiet_extend_slice s rl sp v (v_len o) bs Q Zv P Tp).
    intros ((ok, v'), s1) (Q1 & R1). cbn [fst snd] in *. destruct (_ && _ && _ && _); [apply Q1|].
    apply hp_bind with (1 := Dr s1 Q1). intros s2 Q2. cbn. auto. }
  unfold vec_extend, try_merge. pose proof Zv as Zv'. apply N.eqb_neq in Zv'. rewrite Zv' in Slow |- *. clear Zv'.
  unfold oreg in *. destruct (v_region v) as [i|] eqn:Ri; destruct (v_region o) as [j|] eqn:Rj; cbn [app] in *.
  - (* the two newest regions *)
    rewrite Er in Q, I. rewrite Sp in Q by discriminate.
    assert (Nf : forall f, a_free_head s = Some f -> False) by (intros f Hf; destruct (qt_free _ _ _ Q f Hf); discriminate).
    pose proof (inv_split _ _ _ _ I) as (_ & En & _ & _ & T2 & _). simpl in En. destruct T2 as (Adj & _).
    rewrite En. destruct (_ && _); [exact Hz|].
    rewrite (as_ptr_some s o j Zo Rj), Adj, N.eqb_refl. cbn [negb oeqb]. rewrite N.eqb_refl. cbn [negb].
    unfold add_haz. change (mka (a_free_head s) (a_tail s) (a_occ s) (a_lo s) (a_hi s) (a_fs s) (a_fe s) (a_hdrs s) (a_mem s) (a_dbg s) (a_haz s)) with (set_mem s (a_mem s)).
    cbv zeta.
    apply hp_bind with (P := fun x => fst x = true /\ quiet (snd x) (t ++ [i]) true).
    2:{ intros (m, s1) (Em & Q1). cbn [fst snd] in *. subst m. apply hp_bind with (1 := quiet_uplus s1 _ _ _ _ Q1). intros l _. cbn. auto. }
    apply hp_bind with (P := fun s1 => exists m, s1 = set_mem s m).
    { match goal with |- hp (if ?c then _ else _) _ => destruct c end; [cbn [hp]; eexists; reflexivity|].
      unfold copy_data. match goal with |- hp (if ?c then _ else _) _ => destruct c end; [|exact Hz]. cbn [hp]. eexists. reflexivity. }
    intros s1 (m & ->).
    destruct (join_spec (set_mem s m) t i j []) as (s' & Fr & Ij & Oth & Hs & Hend & Hm & Hoc & Hzz & He & _ & Nij).
    { apply inv_set_mem. exact I. }
    { red_s. rewrite (qt_occ _ _ _ Q). discriminate. }
    pose proof (quiet_free_region (set_mem s m) j _ s' Fr Nf) as Nx.
    assert (Hd : a_free_head s' = Some j).
    { unfold free_region in Fr. injection Fr as _ <-. reflexivity. }
    rewrite Fr. cbn [hp fst snd]. split; [auto|]. constructor; auto.
    + red_s. rewrite Hoc. apply Q.
    + red_s. rewrite Hzz. exact Hz.
    + intros f Hf. red_s. rewrite Hd in Hf. injection Hf as <-. split; auto. rewrite same_hdr by congruence. exact Nx.
  - (* the newest has no region *)
    assert (In : h_next (a_hdrs s i) = None).
    { rewrite Er in I. apply (inv_split s t i []) in I. apply I. }
    rewrite In. destruct (_ && _); [exact Hz|].
    destruct (negb (h_end (a_hdrs s i) =? as_ptr s o)); cbn [obind]; apply Slow.
    1,3: right; exists t, i; auto.
    all: intros s1 Q1; unfold drop_vec; rewrite Rj; destruct (_ =? _); cbn; rewrite Er in Q1; eapply quiet_weaken; exact Q1.
  - cbn [obind]. apply Slow; [left; auto|]. intros s1 Q1. unfold drop_vec. rewrite Rj. apply N.eqb_neq in Zo. rewrite Zo.
    rewrite app_nil_r. apply quiet_free. rewrite <- Er, <- Sp by discriminate. exact Q1.
  - cbn [obind]. apply Slow; [left; auto|]. intros s1 Q1. unfold drop_vec. rewrite Rj. rewrite app_nil_r in *.
    destruct (_ =? _); cbn; rewrite Er in Q1; eapply quiet_weaken; exact Q1.
Qed.

(** ** Stacks *)

Definition reg (vs : list (option vec)) (h : nat) : list N :=
  match nth_error vs h with Some (Some v) => oreg v | _ => [] end.

(** Newest first; the regions come oldest first. *)
Fixpoint regs (vs : list (option vec)) (stack : list nat) : list N :=
  match stack with
  | [] => []
  | h :: t => regs vs t ++ reg vs h
  end.

Lemma regs_ext : forall vs vs' stack, (forall h, In h stack -> reg vs' h = reg vs h) -> regs vs' stack = regs vs stack.
Proof.
  intros vs vs' stack. induction stack as [|h t IH]; intros E; simpl; auto.
  rewrite IH, E; simpl; auto. intros g Hg. apply E. simpl. auto.
Qed.

Lemma reg_put_eq : forall vs h v x, nth_error vs h = Some x -> reg (put vs h (Some v)) h = oreg v.
Proof. intros vs h v x H. unfold reg. rewrite (nth_put_eq vs h (Some v) x H). reflexivity. Qed.

Lemma reg_put_ne : forall vs h g v, h <> g -> reg (put vs h v) g = reg vs g.
Proof. intros vs h g v D. unfold reg. rewrite nth_put_ne by auto. reflexivity. Qed.

Lemma regs_put_out : forall vs h x stack, ~ In h stack -> regs (put vs h x) stack = regs vs stack.
Proof. intros vs h x stack N. apply regs_ext. intros g Hg. apply reg_put_ne. intros ->. auto. Qed.

Lemma regs_put_same : forall vs h v v' stack, nth_error vs h = Some (Some v) -> v_region v' = v_region v ->
  regs (put vs h (Some v')) stack = regs vs stack.
Proof.
  intros vs h v v' stack H R. apply regs_ext. intros g _. destruct (Nat.eq_dec h g) as [<-|D].
  - rewrite (reg_put_eq _ _ _ _ H). unfold reg, oreg. rewrite H, R. reflexivity.
  - apply reg_put_ne. auto.
Qed.

Lemma regs_snoc : forall vs x stack, (forall h, In h stack -> (h < length vs)%nat) -> regs (vs ++ [x]) stack = regs vs stack.
Proof.
  intros vs x stack L. apply regs_ext. intros h Hh. specialize (L h Hh). unfold reg. rewrite nth_error_app1; auto.
Qed.

(** A free header may be left when the newest vector has no region. *)
Definition eff (vs : list (option vec)) (stack : list nat) (sp : bool) : bool :=
  sp || match stack with
        | h :: _ => match reg vs h with [] => true | _ => false end
        | [] => false
        end.

Lemma both_done : forall {A} (m : out A) P Q, wp m P -> hp m Q -> exists x, m = Done x /\ P x /\ Q x.
Proof. intros A m P Q H1 H2. destruct m as [x|z|z]; simpl in *; [eauto|contradiction|contradiction]. Qed.

(** ** The lists of a tidy program *)

Record tracked (l : lists) (stack : list nat) : Prop := mktracked {
  tk_nodup : NoDup stack;
  tk_live : forall h, In h stack <-> exists q, lget l h = Some q;
  tk_sized : forall h q, lget l h = Some q -> q_sz q <> 0 }.

Lemma lget_put_eq : forall l h x q, lget l h = Some q -> lget (lput l h x) h = x.
Proof.
  intros l h x q H. unfold lget, lput in *. destruct (nth_error l h) as [y|] eqn:E; [|discriminate].
  rewrite (nth_put_eq l h x y E). destruct x; reflexivity.
Qed.

Lemma lget_put_ne : forall l h g x, h <> g -> lget (lput l h x) g = lget l g.
Proof. intros l h g x D. unfold lget, lput. rewrite nth_put_ne by auto. reflexivity. Qed.

Lemma lget_snoc : forall l x h, lget (l ++ [x]) h = if Nat.eqb h (length l) then x else lget l h.
Proof. intros l x h. unfold lget. rewrite nth_snoc. destruct (Nat.eqb h (length l)); auto. destruct x; auto. Qed.

Lemma lget_lt : forall l h q, lget l h = Some q -> (h < length l)%nat.
Proof. intros l h q H. unfold lget in H. apply nth_error_Some. destruct (nth_error l h); congruence. Qed.

Lemma tracked_put : forall l stack h q q', tracked l stack -> lget l h = Some q -> q_sz q' = q_sz q ->
  tracked (lput l h (Some q')) stack.
Proof.
  intros l stack h q q' [N L Z] H E. constructor; auto.
  - intros g. rewrite L. destruct (Nat.eq_dec h g) as [<-|D].
    + rewrite (lget_put_eq _ _ _ _ H). split; eauto.
    + rewrite lget_put_ne by auto. tauto.
  - intros g p Hp. destruct (Nat.eq_dec h g) as [<-|D].
    + rewrite (lget_put_eq _ _ _ _ H) in Hp. injection Hp as <-. rewrite E. eauto.
    + rewrite lget_put_ne in Hp by auto. eauto.
Qed.

Lemma tracked_snoc : forall l stack q, tracked l stack -> q_sz q <> 0 -> tracked (l ++ [Some q]) (length l :: stack).
Proof.
  intros l stack q [N L Z] H. constructor.
  - constructor; auto. intros X. apply L in X. destruct X as (p & X). apply lget_lt in X. lia.
  - intros h. rewrite lget_snoc. simpl. destruct (Nat.eqb_spec h (length l)) as [->|D].
    + split; [eauto|auto].
    + rewrite <- L. intuition congruence.
  - intros h p. rewrite lget_snoc. destruct (Nat.eqb_spec h (length l)) as [->|D]; eauto. intros E. injection E as <-. auto.
Qed.

Lemma tracked_snoc_none : forall l stack, tracked l stack -> tracked (l ++ [None]) stack.
Proof.
  intros l stack [N L Z]. constructor; auto.
  - intros h. rewrite lget_snoc. destruct (Nat.eqb_spec h (length l)) as [->|D]; auto. rewrite L.
    split; intros (p & X); [apply lget_lt in X; lia|discriminate].
  - intros h p. rewrite lget_snoc. destruct (Nat.eqb_spec h (length l)) as [->|D]; eauto. discriminate.
Qed.

Lemma tracked_pop : forall l stack h q, tracked l (h :: stack) -> lget l h = Some q -> tracked (lput l h None) stack.
Proof.
  intros l stack h q [N L Z] H. inversion N as [|x xs Nx N' E]; subst. constructor; auto.
  - intros g. destruct (Nat.eq_dec h g) as [<-|D].
    + rewrite (lget_put_eq _ _ _ _ H). split; [tauto|intros (p & X); discriminate].
    + rewrite lget_put_ne by auto. rewrite <- L. simpl. intuition congruence.
  - intros g p Hp. destruct (Nat.eq_dec h g) as [<-|D].
    + rewrite (lget_put_eq _ _ _ _ H) in Hp. discriminate.
    + rewrite lget_put_ne in Hp by auto. eauto.
Qed.

Lemma length_lput : forall l h q, length (lput l h q) = length l.
Proof. intros. apply length_put. Qed.

Lemma tracked_step : forall base l stack sp o r l' stack' sp' n,
  tracked l stack -> call_ok l o -> list_step l o r = Some l' ->
  tidy_step base stack sp (length l) o r = Some (stack', sp', n) ->
  tracked l' stack' /\ n = length l'.
Proof.
  intros base l stack sp o r l' stack' sp' n T Ok E Ts. destruct o; cbn [tidy_step list_step call_ok] in *.
  - destruct (negb (sz =? 0) && (base mod al =? 0)) eqn:C; [|discriminate]. injection Ts as <- <- <-.
    destruct r; try discriminate. injection E as <-. apply andb_true_iff in C. destruct C as (C & _).
    apply negb_true_iff, N.eqb_neq in C. rewrite app_length, Nat.add_1_r. split; auto. apply tracked_snoc; auto.
  - destruct (negb (sz =? 0) && (base mod al =? 0)) eqn:C; [|discriminate].
    apply andb_true_iff in C. destruct C as (C & _). apply negb_true_iff, N.eqb_neq in C.
    destruct r; try discriminate; injection Ts as <- <- <-; injection E as <-; rewrite app_length, Nat.add_1_r; split; auto.
    + apply tracked_snoc; auto.
    + apply tracked_snoc_none; auto.
  - discriminate.
  - destruct stack as [|top t]; [discriminate|]. destruct (Nat.eqb h top); [|discriminate]. injection Ts as <- <- <-.
    destruct r; try discriminate.
    + destruct (lget l h) as [q|] eqn:G; [|discriminate]. injection E as <-. rewrite length_lput. split; auto.
      eapply tracked_put; eauto.
    + injection E as <-. auto.
  - destruct stack as [|top t]; [discriminate|]. destruct (Nat.eqb h top); [|discriminate]. injection Ts as <- <- <-.
    destruct r; try discriminate.
    + destruct (lget l h) as [q|] eqn:G; [|discriminate]. injection E as <-. rewrite length_lput. split; auto.
      eapply tracked_put; eauto.
    + injection E as <-. auto.
  - destruct stack as [|top t]; [discriminate|]. destruct (Nat.eqb h top); [|discriminate]. injection Ts as <- <- <-.
    destruct r; try discriminate; injection E as <-; auto.
  - destruct (tidy_step base stack sp (length l) (OPop h) r) as [((a, b), c)|] eqn:X; cbn [tidy_step] in X.
    2:{ destruct stack; discriminate. }
    assert (Y : (stack', sp', n) = (stack, sp, length l)) by (destruct stack; congruence).
    injection Y as -> -> ->. destruct r; try discriminate. destruct (lget l h) as [q|] eqn:G; [|discriminate].
    destruct (rev (q_items q)) as [|y u]; destruct x as [x|]; try discriminate.
    + injection E as <-. auto.
    + destruct (list_eq_dec N.eq_dec x y); [|discriminate]. injection E as <-. rewrite length_lput. split; auto.
      eapply tracked_put; eauto.
  - assert (Y : (stack', sp', n) = (stack, sp, length l)) by (destruct stack; congruence).
    injection Y as -> -> ->. destruct r; try discriminate. destruct (lget l h) as [q|] eqn:G; [|discriminate].
    injection E as <-. rewrite length_lput. split; auto. eapply tracked_put; eauto.
  - destruct stack as [|top [|below t]]; try discriminate.
    destruct (negb sp && Nat.eqb g top && Nat.eqb h below) eqn:C; [|discriminate]. injection Ts as <- <- <-.
    apply andb_true_iff in C. destruct C as (C & C3). apply andb_true_iff in C. destruct C as (C1 & C2).
    apply Nat.eqb_eq in C2, C3. subst top below.
    destruct Ok as (D & q & p & Hq & Hp & _).
    destruct r; try discriminate.
    + rewrite Hq, Hp in E. injection E as <-. rewrite !length_lput. split; auto.
      apply tracked_pop with (q := p).
      * eapply tracked_put; eauto.
      * rewrite lget_put_ne; auto.
    + injection E as <-. rewrite length_lput. split; auto. eapply tracked_pop; eauto.
  - destruct stack as [|top t]; try discriminate.
    destruct (negb sp && Nat.eqb h top) eqn:C; [|discriminate]. injection Ts as <- <- <-.
    apply andb_true_iff in C. destruct C as (C1 & C2). apply Nat.eqb_eq in C2. subst top.
    destruct Ok as (q & Hq). destruct r; try discriminate. injection E as <-. rewrite length_lput. split; auto.
    eapply tracked_pop; eauto.
Qed.

(** ** One call of a tidy program *)

Lemma head_on_top : forall vs h t v, nth_error vs h = Some (Some v) -> on_top (regs vs (h :: t)) v.
Proof.
  intros vs h t v H. unfold on_top. simpl. unfold reg. rewrite H. unfold oreg.
  destruct (v_region v) as [k|]; [|auto]. right. eauto.
Qed.

Lemma eff_top : forall vs h t sp v, nth_error vs h = Some (Some v) -> v_region v <> None -> eff vs (h :: t) sp = sp.
Proof.
  intros vs h t sp v H R. unfold eff, reg, oreg. rewrite H. destruct (v_region v); [|congruence]. apply orb_false_r.
Qed.

Lemma eff_same : forall vs h v v' stack sp, nth_error vs h = Some (Some v) -> v_region v' = v_region v ->
  eff (put vs h (Some v')) stack sp = eff vs stack sp.
Proof.
  intros vs h v v' stack sp H R. unfold eff. destruct stack as [|g t]; auto.
  destruct (Nat.eq_dec h g) as [<-|D].
  - rewrite (reg_put_eq _ _ _ _ H). unfold reg, oreg. rewrite H, R. reflexivity.
  - rewrite reg_put_ne by auto. reflexivity.
Qed.

Lemma eff_true : forall vs stack, eff vs stack true = true.
Proof. reflexivity. Qed.

Lemma quiet_step : forall base w l stack sp o,
  wok (w_alloc w) (regs (w_vecs w) stack) (w_vecs w) l ->
  quiet (w_alloc w) (regs (w_vecs w) stack) (eff (w_vecs w) stack sp) ->
  a_lo (w_alloc w) = base -> tracked l stack ->
  call_ok l o -> tidy_step base stack sp (length (w_vecs w)) o RDone <> None ->
  hp (step w o) (fun x =>
    exists stack' sp', tidy_step base stack sp (length (w_vecs w)) o (fst x) = Some (stack', sp', length (w_vecs (snd x)))
      /\ quiet (w_alloc (snd x)) (regs (w_vecs (snd x)) stack') (eff (w_vecs (snd x)) stack' sp')).
Proof.
  intros base w l stack sp o K Q B T Ok Ts.
  assert (Lt : forall h, In h stack -> (h < length (w_vecs w))%nat).
  { intros h Hh. apply (tk_live _ _ T) in Hh. destruct Hh as (q & Hq). rewrite (wok_len _ _ _ _ K). eapply lget_lt; eauto. }
  assert (Gv : forall h q, lget l h = Some q -> exists v, get w h = Some v /\ nth_error (w_vecs w) h = Some (Some v)
      /\ v_sz v <> 0 /\ 0 < v_al v).
  { intros h q Hq. destruct (wok_get w _ _ l h q eq_refl K Hq) as (v & G & Nv & _ & V). exists v. split; [auto|]. split; [auto|].
    rewrite (vk_sz _ _ _ _ V), (vk_al _ _ _ _ V). split; [apply (tk_sized _ _ T h q Hq)|].
    apply (layout_pos (q_sz q)). apply V. }
  assert (Nn : forall x, regs (w_vecs w ++ [x]) stack = regs (w_vecs w) stack) by (intros x; apply regs_snoc; auto).
  assert (Nr : forall x, reg (w_vecs w ++ [Some x]) (length (w_vecs w)) = oreg x).
  { intros x. unfold reg. rewrite nth_snoc, Nat.eqb_refl. reflexivity. }
  assert (Made : forall v s, match v_region v with
      | None => quiet s (regs (w_vecs w) stack) (eff (w_vecs w) stack sp)
      | Some i => quiet s (regs (w_vecs w) stack ++ [i]) false
      end -> quiet s (regs (w_vecs w ++ [Some v]) (length (w_vecs w) :: stack)) (eff (w_vecs w ++ [Some v]) (length (w_vecs w) :: stack) false)).
  { intros v s H. unfold eff at 1. simpl regs. rewrite Nn, Nr. unfold oreg. destruct (v_region v) as [i|]; [exact H|].
    rewrite app_nil_r. eapply quiet_weaken. exact H. }
  destruct o; cbn [tidy_step step call_ok] in *.
  - destruct (negb (sz =? 0) && (base mod al =? 0)) eqn:C; [|congruence].
    apply andb_true_iff in C. destruct C as (C1 & C2). apply negb_true_iff, N.eqb_neq in C1. apply N.eqb_eq in C2.
    apply hp_bind with (1 := quiet_new _ _ _ sz al Q C1 (layout_pos _ _ Ok) ltac:(intros _; rewrite B; exact C2)).
    intros (v, s) (_ & _ & H). cbn [fst snd hp w_alloc w_vecs] in *.
    exists (length (w_vecs w) :: stack), false. rewrite app_length, Nat.add_1_r. split; [reflexivity|]. apply Made. exact H.
  - destruct (negb (sz =? 0) && (base mod al =? 0)) eqn:C; [|congruence].
    apply andb_true_iff in C. destruct C as (C1 & C2). apply negb_true_iff, N.eqb_neq in C1. apply N.eqb_eq in C2.
    destruct Ok as (Ok & _).
    apply hp_bind with (1 := quiet_with_capacity _ _ _ sz al n Q C1 (layout_pos _ _ Ok) ltac:(intros _; rewrite B; exact C2)).
    intros (v, s) H. cbn [fst snd hp w_alloc w_vecs] in *. rewrite app_length, Nat.add_1_r. destruct v as [v|]; cbn [to_reply].
    + exists (length (w_vecs w) :: stack), false. split; [reflexivity|]. apply Made. exact H.
    + exists stack, true. split; [reflexivity|]. rewrite Nn. exact H.
  - congruence.
  - destruct Ok as (q & Hq & _). destruct (Gv h q Hq) as (v & G & Nv & Z & P). rewrite G.
    destruct stack as [|top t]; [congruence|]. destruct (Nat.eqb h top) eqn:E; [|congruence]. apply Nat.eqb_eq in E. subst top.
    apply hp_bind with (1 := quiet_extend_slice _ _ _ v 1 value Q Z P (head_on_top _ _ t v Nv)).
    intros ((ok, v'), s) (Q' & R). cbn [fst snd hp w_alloc w_vecs] in *. exists (h :: t), sp.
    rewrite length_put. split; [reflexivity|]. rewrite (regs_put_same _ h v), (eff_same _ h v); auto.
  - destruct Ok as (q & Hq & _). destruct (Gv h q Hq) as (v & G & Nv & Z & P). rewrite G.
    destruct stack as [|top t]; [congruence|]. destruct (Nat.eqb h top) eqn:E; [|congruence]. apply Nat.eqb_eq in E. subst top.
    apply hp_bind with (1 := quiet_extend_slice _ _ _ v (lenN items) (concat items) Q Z P (head_on_top _ _ t v Nv)).
    intros ((ok, v'), s) (Q' & R). cbn [fst snd hp w_alloc w_vecs] in *. exists (h :: t), sp.
    rewrite length_put. split; [reflexivity|]. rewrite (regs_put_same _ h v), (eff_same _ h v); auto.
  - destruct Ok as (q & Hq & _). destruct (Gv h q Hq) as (v & G & Nv & Z & P). rewrite G.
    destruct stack as [|top t]; [congruence|]. destruct (Nat.eqb h top) eqn:E; [|congruence]. apply Nat.eqb_eq in E. subst top.
    unfold vec_reserve. pose proof Z as Z'. apply N.eqb_neq in Z'. rewrite Z'.
    apply hp_bind with (1 := quiet_resize _ _ _ v (v_len v) n Q Z P (head_on_top _ _ t v Nv)).
    intros ((ok, v'), s) (Q' & R & _). cbn [fst snd hp w_alloc w_vecs] in *. exists (h :: t), sp.
    rewrite length_put. split; [reflexivity|]. rewrite (regs_put_same _ h v), (eff_same _ h v); auto.
  - destruct Ok as (q & Hq). destruct (Gv h q Hq) as (v & G & Nv & Z & P). rewrite G.
    unfold vec_pop. destruct (v_len v =? 0).
    + cbn [obind hp fst snd w_alloc w_vecs]. exists stack, sp. rewrite length_put, (regs_put_same _ h v), (eff_same _ h v) by auto.
      split; [destruct stack; reflexivity|exact Q].
    + unfold read_data. destruct (in_data _ _ _); cbn [obind hp fst snd w_alloc w_vecs]; [|apply Q].
      exists stack, sp. rewrite length_put, (regs_put_same _ h v), (eff_same _ h v) by auto.
      split; [destruct stack; reflexivity|exact Q].
  - destruct Ok as (q & Hq). destruct (Gv h q Hq) as (v & G & Nv & Z & P). rewrite G.
    cbn [hp fst snd w_alloc w_vecs]. exists stack, sp. rewrite length_put, (regs_put_same _ h v), (eff_same _ h v) by auto.
    split; [destruct stack; reflexivity|exact Q].
  - destruct Ok as (D & q & p & Hq & Hp & _). destruct (Gv h q Hq) as (v & G & Nv & Z & P). destruct (Gv g p Hp) as (o & G' & No & Zo & Po).
    pose proof D as D'. apply Nat.eqb_neq in D'. rewrite D', G, G'.
    destruct stack as [|top [|below t]]; [congruence|congruence|].
    destruct (negb sp && Nat.eqb g top && Nat.eqb h below) eqn:C; [|congruence].
    apply andb_true_iff in C. destruct C as (C & C3). apply andb_true_iff in C. destruct C as (C1 & C2).
    apply Nat.eqb_eq in C2, C3. subst top below. apply negb_true_iff in C1. subst sp.
    pose proof (tk_nodup _ _ T) as ND. inversion ND as [|x xs Nx ND' E]; subst. inversion ND' as [|x xs Nx' ND'' E]; subst.
    assert (Sp : v_region o <> None -> eff (w_vecs w) (g :: h :: t) false = false) by (intros R; eapply eff_top; eauto).
    simpl regs in Q. unfold reg at 1 2 in Q. rewrite Nv, No in Q. rewrite <- app_assoc in Q.
    apply hp_bind with (1 := quiet_extend _ _ (regs (w_vecs w) t) v o _ Q Sp eq_refl Z Zo P).
    intros ((ok, v'), s) (Q' & R). cbn [fst snd hp w_alloc w_vecs] in *. exists (h :: t), true.
    rewrite !length_put. split; [reflexivity|]. rewrite eff_true.
    simpl regs. rewrite reg_put_ne, (reg_put_eq _ _ _ _ Nv) by auto.
    rewrite !regs_put_out by (simpl in Nx; tauto). unfold oreg at 1. rewrite R. exact Q'.
  - destruct Ok as (q & Hq). destruct (Gv h q Hq) as (v & G & Nv & Z & P). rewrite G.
    destruct stack as [|top t]; [congruence|]. destruct (negb sp && Nat.eqb h top) eqn:C; [|congruence].
    apply andb_true_iff in C. destruct C as (C1 & C2). apply Nat.eqb_eq in C2. subst top.
    apply negb_true_iff in C1. subst sp.
    pose proof (tk_nodup _ _ T) as ND. inversion ND as [|x xs Nx ND' E]; subst.
    assert (Sp : v_region v <> None -> eff (w_vecs w) (h :: t) false = false) by (intros R; eapply eff_top; eauto).
    apply hp_bind with (1 := quiet_drop _ _ _ v Q Sp (head_on_top _ _ t v Nv) Z).
    intros s Q'. cbn [fst snd hp w_alloc w_vecs] in *. exists t, true. rewrite length_put. split; [reflexivity|]. rewrite eff_true.
    rewrite regs_put_out by auto. revert Q'. simpl regs. unfold reg, oreg. rewrite Nv.
    destruct (v_region v); [rewrite removelast_last|rewrite app_nil_r]; auto.
Qed.

(** ** Whole histories of tidy programs *)

Record stacked (base : N) (w : world) (l : lists) (stack : list nat) (sp : bool) : Prop := mkstacked {
  sk_wok : wok (w_alloc w) (regs (w_vecs w) stack) (w_vecs w) l;
  sk_quiet : quiet (w_alloc w) (regs (w_vecs w) stack) (eff (w_vecs w) stack sp);
  sk_base : a_lo (w_alloc w) = base;
  sk_tracked : tracked l stack }.

Lemma stacked_step : forall base w l stack sp o,
  stacked base w l stack sp -> call_ok l o -> tidy_step base stack sp (length (w_vecs w)) o RDone <> None ->
  exists r w' l' stack' sp', step w o = Done (r, w') /\ list_step l o r = Some l'
    /\ tidy_step base stack sp (length (w_vecs w)) o r = Some (stack', sp', length (w_vecs w'))
    /\ stacked base w' l' stack' sp' /\ same_env (w_alloc w) (w_alloc w').
Proof.
  intros base w l stack sp o [K Q B T] Ok Ts.
  destruct (both_done _ _ _ (step_spec w _ l o K Ok) (quiet_step base w l stack sp o K Q B T Ok Ts))
    as ((r, w') & E & Sp & stack' & sp' & Ts' & Q').
  cbn [fst snd] in *. destruct Sp as [H|(rl' & l' & Ls & K' & Hz & He)]; [destruct (H (qt_haz _ _ _ Q'))|].
  exists r, w', l', stack', sp'. split; [auto|]. split; [auto|]. split; [auto|]. split; [|auto].
  rewrite (inv_det _ _ _ (wk_inv _ _ _ _ K') (qt_inv _ _ _ Q')) in K'.
  rewrite (wok_len _ _ _ _ K) in Ts'.
  destruct (tracked_step base l stack sp o r l' stack' sp' _ T Ok Ls Ts') as (T' & _).
  constructor; auto. destruct He as (E1 & _). congruence.
Qed.

Lemma tidy_step_any : forall base stack sp n o r, tidy_step base stack sp n o r <> None -> tidy_step base stack sp n o RDone <> None.
Proof.
  intros base stack sp n o r H. destruct o; destruct stack as [|? [|? ?]]; cbn [tidy_step] in *; auto;
    destruct (negb _ && _); auto; discriminate.
Qed.

Lemma stacked_run : forall base ops w l stack sp rs w' res,
  stacked base w l stack sp -> run w ops = Done (rs, w') -> calls_ok l ops rs ->
  tidy base stack sp (length (w_vecs w)) ops rs = Some res ->
  exists l' stack' sp', list_run l ops rs = Some l' /\ res = (stack', sp', length (w_vecs w'))
    /\ stacked base w' l' stack' sp' /\ same_env (w_alloc w) (w_alloc w').
Proof.
  intros base ops. induction ops as [|o t IH]; intros w l stack sp rs w' res K E Ok Td; cbn [run] in E.
  - injection E as <- <-. cbn [tidy] in Td. injection Td as <-. exists l, stack, sp.
    split; [reflexivity|]. split; [auto|]. split; [auto|apply same_env_refl].
  - destruct (step w o) as [(r, w1)|z|z] eqn:S1; try discriminate. cbn [obind] in E.
    destruct (run w1 t) as [(rs1, w2)|z|z] eqn:S2; try discriminate. cbn [obind] in E. injection E as <- <-.
    cbn [calls_ok] in Ok. destruct Ok as (Ok1 & Ok2). cbn [tidy] in Td.
    destruct (tidy_step base stack sp (length (w_vecs w)) o r) as [((stack1, sp1), n1)|] eqn:Ts; [|discriminate].
    assert (Ts0 : tidy_step base stack sp (length (w_vecs w)) o RDone <> None) by (apply (tidy_step_any _ _ _ _ _ r); congruence).
    destruct (stacked_step base w l stack sp o K Ok1 Ts0) as (r' & w1' & l1 & stack1' & sp1' & E1 & Ls & Ts' & K1 & He).
    rewrite S1 in E1. injection E1 as <- <-. rewrite Ts in Ts'. injection Ts' as <- <- ->.
    rewrite Ls in Ok2.
    destruct (IH w1 l1 stack1 sp1 rs1 w2 res K1 S2 Ok2 Td) as (l' & stack' & sp' & Lr & Er & K' & He').
    exists l', stack', sp'. cbn [list_run]. rewrite Ls. split; [auto|]. split; [auto|]. split; [auto|].
    apply same_env_trans with (s2 := w_alloc w1); auto.
Qed.

Lemma stacked_start : forall dbg base size mem s,
  buffer_ok base size -> dbg = false \/ 7 <= size -> new_slice dbg base size mem = Done s ->
  stacked base (mkw s []) [] [] false.
Proof.
  intros dbg base size mem s B D E. pose proof E as E'.
  destruct (new_slice_inv dbg base size mem s B D E) as (I & Hz & Lo & _).
  unfold new_slice in E'. destruct (negb _); [discriminate|]. cbv zeta in E'. injection E' as E'.
  constructor; cbn [w_alloc w_vecs regs]; auto.
  - now apply wok_start.
  - constructor; auto.
    + rewrite <- E'. reflexivity.
    + rewrite <- E'. discriminate.
  - constructor.
    + constructor.
    + intros h. split; [intros []|]. intros (q & H). destruct h; discriminate.
    + intros h q H. destruct h; discriminate.
Qed.
