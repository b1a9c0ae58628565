(** Growing, merging: the calls that move element data. *)
From Coq Require Import List NArith Bool Lia.
From Verif Require Import Base BaseFacts Alloc AllocSpec AllocFacts.
Import ListNotations.
Open Scope N_scope.

(** ** Once a dangerous event is recorded it stays recorded *)

Lemma add_haz_dirty : forall s b z, a_haz s <> [] -> a_haz (add_haz s b z) <> [].
Proof. intros s [|] z H; unfold add_haz; simpl; auto. discriminate. Qed.

Lemma unlink_haz : forall s h, a_haz (unlink s h) = a_haz s.
Proof. intros s h. unfold unlink. destruct (h_next h), (h_prev h); reflexivity. Qed.

Lemma free_region_haz : forall s i, a_haz (snd (free_region s i)) = a_haz s.
Proof. intros s i. unfold free_region. simpl. apply unlink_haz. Qed.

Lemma push_back_haz : forall s i, a_haz (push_back s i) = a_haz s.
Proof. intros. apply push_back_frame. Qed.

Lemma replace_back_haz : forall s i, a_haz (replace_back s i) = a_haz s.
Proof.
  intros s i. unfold replace_back. rewrite push_back_haz. destruct (h_prev (a_hdrs s i)), (h_next (a_hdrs s i)); reflexivity.
Qed.

Lemma alloc_header_dirty : forall s e, a_haz s <> [] ->
  wp (alloc_header s e) (fun x => a_haz (snd x) <> []).
Proof.
  intros s e H. unfold alloc_header. destruct (a_free_head s) as [i|].
  - cbv zeta. simpl. apply (add_haz_dirty (set_free_head s None)). exact H.
  - destruct (_ && _); [exact H|]. cbv zeta. destruct (_ || _); [exact H|]. destruct (_ || _); [exact H|].
    simpl. apply add_haz_dirty. exact H.
Qed.

Lemma align_dirty : forall s al, a_haz s <> [] -> wp (align s al) (fun x => a_haz (snd x) <> []).
Proof.
  intros s al H. unfold align. cbv zeta. destruct (_ =? 0); [exact H|]. destruct (_ <? _); [exact H|].
  destruct (a_tail s) as [t|]; [exact H|].
  apply wp_bind with (1 := alloc_header_dirty s _ H). intros ([i|], s') H'; [|exact H'].
  simpl. rewrite push_back_haz. exact H'.
Qed.

Lemma alloc_fresh_dirty : forall s n al, a_haz s <> [] -> wp (alloc_fresh s n al) (fun x => a_haz (snd x) <> []).
Proof.
  intros s n al H. unfold alloc_fresh.
  apply wp_bind with (1 := align_dirty s al H). intros (ok, s1) H1. cbn [snd] in H1.
  destruct ok; [|exact H1]. cbn [negb]. destruct (_ <? _); [exact H1|].
  apply wp_bind with (1 := alloc_header_dirty s1 _ H1). intros ([i|], s2) H2; [|exact H2].
  cbv zeta. destruct (_ && _); [exact H2|]. simpl. rewrite push_back_haz. exact H2.
Qed.

Lemma alloc_dirty : forall s n al, a_haz s <> [] -> wp (alloc s n al) (fun x => a_haz (snd x) <> []).
Proof.
  intros s n al H. unfold alloc. destruct (a_occ s) as [o|]; [destruct (_ && _); [exact H|]|]; apply alloc_fresh_dirty; auto.
Qed.

Lemma free_tail_dirty : forall s i, a_haz s <> [] -> wp (free_tail s i) (fun s' => a_haz s' <> []).
Proof.
  intros s i H. unfold free_tail. destruct (_ && _); [exact H|].
  pose proof (free_region_haz s i) as E. destruct (free_region s i) as (cur, s1). simpl in E. rewrite <- E in H.
  destruct (_ && _); [exact H|]. destruct (h_prev cur) as [p|]; [|exact H].
  destruct (oeqb (a_occ s1) (Some p)); [|exact H].
  pose proof (free_region_haz (set_occ s1 None) p) as E2. destruct (free_region (set_occ s1 None) p) as (old, s2).
  simpl in *. congruence.
Qed.

Lemma free_dirty : forall s i, a_haz s <> [] -> wp (free s i) (fun s' => a_haz s' <> []).
Proof.
  intros s i H. unfold free. destruct (h_next (a_hdrs s i)); [|apply free_tail_dirty; auto].
  destruct (h_prev (a_hdrs s i)) as [p|].
  - pose proof (free_region_haz s i) as E. destruct (free_region s i) as (old, s1). simpl in E.
    destruct (h_next old); simpl; congruence.
  - destruct (_ && _); exact H.
Qed.

Lemma reserve_dirty : forall s n al, a_haz s <> [] -> wp (reserve s n al) (fun x => a_haz (snd x) <> []).
Proof.
  intros s n al H. unfold reserve.
  apply wp_bind with (1 := align_dirty s al H). intros (ok, s1) H1. cbn [snd] in H1.
  destruct ok; [|exact H1]. cbn [negb]. destruct (_ || _); exact H1.
Qed.

Lemma copy_dirty : forall s a b n, a_haz s <> [] -> wp (copy_data s a b n) (fun s' => a_haz s' <> []).
Proof. intros. unfold copy_data. destruct (_ && _); auto. Qed.

Lemma copyn_dirty : forall s a b n, a_haz s <> [] -> wp (copy_data_nonoverlapping s a b n) (fun s' => a_haz s' <> []).
Proof. intros. unfold copy_data_nonoverlapping. destruct (_ || _ || _); auto. apply copy_dirty; auto. Qed.

Lemma realloc_dirty : forall s i len n al, a_haz s <> [] -> wp (realloc s i len n al) (fun x => a_haz (snd x) <> []).
Proof.
  intros s i len n al H. unfold realloc. cbv zeta. destruct (h_next (a_hdrs s i)) as [m|].
  - destruct (_ =? _).
    + apply wp_bind with (1 := reserve_dirty s _ al H). intros ([f|], s1) H1; [|exact H1].
      simpl. rewrite replace_back_haz. exact H1.
    + destruct (match h_prev (a_hdrs s i) with Some p => _ | None => _ end) as [p|].
      * pose proof (free_region_haz s i) as E. destruct (free_region s i) as (old, s1). simpl in E. rewrite <- E in H.
        apply wp_bind with (1 := copy_dirty s1 _ _ len H). intros s2 H2. exact H2.
      * apply wp_bind with (1 := alloc_dirty s n al H). intros ([to|], s1) H1; [|exact H1].
        apply wp_bind with (1 := copyn_dirty s1 _ _ len H1). intros s2 H2.
        apply wp_bind with (1 := free_dirty s2 i H2). intros s3 H3. exact H3.
  - apply wp_bind with (1 := reserve_dirty s _ al H). intros ([f|], s1) H1; [|exact H1]. exact H1.
Qed.

Lemma resize_dirty : forall s v len n, a_haz s <> [] -> wp (resize s v len n) (fun x => a_haz (snd x) <> []).
Proof.
  intros s v len n H. unfold resize, uplus.
  assert (K : forall t, wp (if t <=? v_cap v then Done (true, v, s)
  else if v_sz v =? 0 then Done (true, v, s)
  else match v_region v with
  | None => Done (false, v, s)
  | Some i =>
      let l := len * v_sz v in
      let a := n * v_sz v in
      if (usz <=? l) || (usz <=? a) || (usz <=? l + a) then Done (false, v, s)
      else
        let requested := l + a in
        if max_bytes <? requested then Done (false, v, s)
        else
          let actual := capacity (a_hdrs s i) in
          if requested <=? actual then Done (true, with_region v (Some i) (actual / v_sz v), s)
          else
            let! (r, s) := realloc s i l requested (v_al v) in
            match r with
            | None => Done (false, v, s)
            | Some j => Done (true, with_region v (Some j) (capacity (a_hdrs s j) / v_sz v), s)
            end
  end) (fun x => a_haz (snd x) <> [])).
  { intros t. destruct (_ <=? _); [exact H|]. destruct (_ =? _); [exact H|].
    destruct (v_region v) as [i|]; [|exact H]. cbv zeta.
    destruct (_ || _ || _); [exact H|]. destruct (_ <? _); [exact H|]. destruct (_ <=? _); [exact H|].
    apply wp_bind with (1 := realloc_dirty s i _ _ (v_al v) H). intros ([j|], s1) H1; exact H1. }
  destruct (_ <? _); [apply K|]. destruct (a_dbg s); [exact H|apply K].
Qed.

Lemma drop_dirty : forall s v, a_haz s <> [] -> wp (drop_vec s v) (fun s' => a_haz s' <> []).
Proof.
  intros s v H. unfold drop_vec. destruct (_ =? _); [exact H|]. destruct (v_region v); [apply free_dirty; auto|exact H].
Qed.

Lemma write_dirty : forall s al a bs, a_haz s <> [] -> wp (write_elems s al a bs) (fun s' => a_haz s' <> []).
Proof. intros. unfold write_elems, write_data. destruct (_ || _); auto. destruct (in_data _ _ _); auto. Qed.

Lemma uplus_dirty : forall s a b, a_haz s <> [] -> wp (uplus s a b) (fun _ => True).
Proof. intros. unfold uplus. destruct (_ <? _); [exact I|]. destruct (a_dbg s); simpl; auto. Qed.

Lemma extend_slice_dirty : forall s v n bs, a_haz s <> [] ->
  wp (vec_extend_from_slice s v n bs) (fun x => a_haz (snd x) <> []).
Proof.
  intros s v n bs H. unfold vec_extend_from_slice. destruct (_ =? _).
  - apply wp_bind with (1 := uplus_dirty s _ _ H). intros l _. exact H.
  - apply wp_bind with (1 := resize_dirty s v _ _ H). intros ((ok, v'), s1) H1. cbn [snd] in H1.
    destruct ok; [|exact H1]. cbn [negb].
    apply wp_bind with (1 := write_dirty s1 _ _ _ H1). intros s2 H2.
    apply wp_bind with (1 := uplus_dirty s2 _ _ H2). intros l _. exact H2.
Qed.

(** ** Growing the last region *)

Lemma grow_tail : forall s t k f, inv s (t ++ [k]) -> a_fs s <= f -> f <= a_fe s ->
  inv (set_end (set_fs s f) k f) (t ++ [k]).
Proof.
  intros s t k f I L1 L2.
  pose proof (NoDup_remove_2 _ _ _ (i_nodup _ _ I)) as Nk. rewrite app_nil_r in Nk.
  pose proof (last_end _ _ _ I) as Le.
  destruct I as [I1 I2 I3 I4 I5 I6 I7 I8 I9 I10 I11]. constructor; red_s; auto.
  - apply (seg_ext (a_hdrs s)); auto. intros j J. destruct (N.eqb_spec j k) as [->|]; split; reflexivity.
  - apply tile_app in I4. destruct I4 as (m & T1 & T2 & T3 & _). apply tile_app. exists m. split.
    + apply (tile_ext (a_hdrs s)); auto. intros j J. rewrite same_hdr by (intros ->; auto). auto.
    + simpl. neqs. red_s. repeat split; auto. lia.
  - intros g Hg. destruct (I5 g Hg) as (A & B). split; auto.
    destruct (N.eqb_spec g k) as [->|]; auto.
Qed.

Lemma inv_set_mem : forall s l m, inv s l -> inv (set_mem s m) l.
Proof. intros s l m I. destruct I. constructor; red_s; auto. Qed.

Lemma inv_fs_lo : forall s l, inv s l -> a_lo s <= a_fs s.
Proof. intros s l I. exact (tile_le _ _ _ _ (i_tile _ _ I)). Qed.

Lemma in_data_region : forall s l i a n, inv s l -> In i l ->
  h_start (a_hdrs s i) <= a -> a + n <= h_end (a_hdrs s i) -> in_data s a n = true.
Proof.
  intros s l i a n I J L1 L2. destruct (inv_in _ _ _ I J) as (A & B & C). pose proof (i_fs _ _ I).
  unfold in_data. apply orb_true_iff. right. apply andb_true_iff. split; apply N.leb_le; lia.
Qed.

(** ** Relinking an empty region at the back *)

Definition moved (s : ast) (i a f : N) : ast := set_end (set_fs (set_start s i a) f) i f.

Lemma replace_back_inv : forall s l1 i m t f,
  inv s (l1 ++ i :: m :: t) -> a_occ s <> Some i -> h_start (a_hdrs s i) = h_end (a_hdrs s i) ->
  a_fs s <= f -> f <= a_fe s ->
  let s' := replace_back (moved s i (a_fs s) f) i in
  inv s' ((l1 ++ m :: t) ++ [i])
  /\ a_haz s' = a_haz s /\ a_mem s' = a_mem s /\ a_occ s' = a_occ s /\ same_env s s'
  /\ h_start (a_hdrs s' i) = a_fs s /\ h_end (a_hdrs s' i) = f
  /\ (forall j, j <> i -> h_start (a_hdrs s' j) = h_start (a_hdrs s j) /\ h_end (a_hdrs s' j) = h_end (a_hdrs s j)).
Proof.
  intros s l1 i m t f I Ho Em L1 L2. cbv zeta.
  pose proof (inv_split _ _ _ _ I) as (Ep & En & T1 & Le & T2 & N1 & N2 & ND).
  pose proof (unlink_seg s l1 i (m :: t) (i_nodup _ _ I) (i_seg _ _ I) (i_tail _ _ I)) as U. cbv zeta in U.
  destruct U as (U1 & _ & _ & U4 & _).
  assert (Dm : i <> m) by (intros ->; apply N2; left; reflexivity).
  (* the state just before push_back *)
  set (x := let s0 := moved s i (a_fs s) f in
            let s1 := set_next (set_prev s0 i None) i None in
            let s2 := match h_prev (a_hdrs s i) with Some p => set_next s1 p (Some m) | None => s1 end in
            set_prev s2 m (h_prev (a_hdrs s i))).
  assert (Ex : replace_back (moved s i (a_fs s) f) i = push_back x i).
  { unfold replace_back.
    assert (E1 : h_prev (a_hdrs (moved s i (a_fs s) f) i) = h_prev (a_hdrs s i)).
    { unfold moved. red_s. neqs. reflexivity. }
    assert (E2 : h_next (a_hdrs (moved s i (a_fs s) f) i) = Some m).
    { unfold moved. red_s. neqs. exact En. }
    rewrite E1, E2. reflexivity. }
  rewrite Ex.
  assert (Dp : forall p, h_prev (a_hdrs s i) = Some p -> p <> i /\ p <> m /\ In p l1).
  { intros p Hp. rewrite Ep in Hp.
    assert (J : In p l1).
    { apply (last_or_in l1 None); auto. intros ->. discriminate. }
    split; [intros ->; auto|]. split; auto. intros ->. apply in_split in J. destruct J as (q1 & q2 & ->).
    rewrite <- app_assoc in ND. simpl in ND. apply NoDup_remove_2 in ND. apply ND. rewrite !in_app_iff. simpl. auto. }
  assert (Fx : a_free_head x = a_free_head s /\ a_tail x = a_tail s /\ a_occ x = a_occ s /\ a_lo x = a_lo s
     /\ a_hi x = a_hi s /\ a_fs x = f /\ a_fe x = a_fe s /\ a_mem x = a_mem s /\ a_dbg x = a_dbg s /\ a_haz x = a_haz s).
  { subst x. destruct (h_prev (a_hdrs s i)); cbv zeta; unfold moved; red_s; repeat split. }
  destruct Fx as (X1 & X2 & X3 & X4 & X5 & X6 & X7 & X8 & X9 & X10).
  assert (Hi : a_hdrs x i = mkh (a_fs s) f None None).
  { subst x. destruct (h_prev (a_hdrs s i)) as [p|] eqn:Hp; cbv zeta; unfold moved; red_s.
    - destruct (Dp p eq_refl) as (D1 & D2 & _). neqs. reflexivity.
    - neqs. reflexivity. }
  assert (Hj : forall j, j <> i ->
      h_start (a_hdrs x j) = h_start (a_hdrs s j) /\ h_end (a_hdrs x j) = h_end (a_hdrs s j)
      /\ h_prev (a_hdrs x j) = h_prev (a_hdrs (unlink s (a_hdrs s i)) j)
      /\ h_next (a_hdrs x j) = h_next (a_hdrs (unlink s (a_hdrs s i)) j)).
  { intros j D. subst x. unfold unlink. rewrite En. simpl hd_or. cbv iota.
    destruct (h_prev (a_hdrs s i)) as [p|] eqn:Hp; cbv zeta; unfold moved; red_s.
    - destruct (Dp p eq_refl) as (D1 & D2 & _).
      destruct (N.eqb_spec j m) as [->|Dj]; neqs; [repeat split; reflexivity|].
      destruct (N.eqb_spec j p) as [->|Dj']; neqs; repeat split; reflexivity.
    - destruct (N.eqb_spec j m) as [->|Dj]; neqs; repeat split; reflexivity. }
  clearbody x. clear Ex.
  (* with the old start of the free space, the other regions are in order *)
  assert (I0 : inv (set_fs x (a_fs s)) (l1 ++ m :: t)).
  { constructor; red_s; rewrite ?X1, ?X2, ?X3, ?X4, ?X5, ?X7, ?X9; try apply I; auto.
    - apply (seg_ext (a_hdrs (unlink s (a_hdrs s i)))); [|exact U1]. intros j J.
      apply Hj. intros ->. rewrite in_app_iff in J. tauto.
    - rewrite (i_tail _ _ I), !last_or_app. reflexivity.
    - apply tile_app. exists (h_start (a_hdrs s i)). split.
      + apply (tile_ext (a_hdrs s)); [|exact T1]. intros j J. destruct (Hj j) as (A & B & _); [intros ->; auto|]. auto.
      + rewrite Em. apply (tile_ext (a_hdrs s)); [|exact T2]. intros j J.
        destruct (Hj j) as (A & B & _); [intros ->; auto|]. auto.
    - intros g Hg. destruct (i_free _ _ I g Hg) as (A & B). rewrite in_app_iff in *. simpl in A.
      assert (D : g <> i) by (intros ->; tauto). split; [simpl; tauto|].
      destruct (Hj g D) as (_ & _ & -> & _). unfold unlink. rewrite En. simpl hd_or. cbv iota.
      assert (Dgm : g <> m) by (intros ->; tauto).
      destruct (h_prev (a_hdrs s i)) as [p|] eqn:Hp; red_s.
      + destruct (Dp p eq_refl) as (_ & _ & J). assert (g <> p) by (intros ->; tauto). neqs. auto.
      + neqs. auto.
    - intros o Hoc. destruct (i_occ _ _ I o Hoc) as (u & E). destruct l1 as [|q l1]; simpl in E; injection E as -> E; [congruence|].
      simpl. eauto.
    - destruct (i_ids _ _ I) as (n & Eh & Li & Lf). exists n. split; [auto|]. split; [|auto].
      intros j J. apply Li. rewrite in_app_iff in *. simpl in *. tauto. }
  assert (G : got (set_fs x (a_fs s)) x (l1 ++ m :: t) i f).
  { constructor; red_s; auto.
    - rewrite in_app_iff. simpl in N2. simpl. tauto.
    - intros g Hg. split; auto. rewrite X1 in Hg. destruct (i_free _ _ I g Hg) as (A & _).
      intros ->. apply A. rewrite in_app_iff. simpl. auto.
    - repeat split; red_s; auto.
    - split; [|lia]. lia.
    - destruct (i_ids _ _ I) as (n & Eh & Li & Lf). exists n. rewrite X5, X7, X1.
      split; [auto|]. split; [apply Li; rewrite in_app_iff; simpl; auto|]. split; [|auto].
      intros j J. apply Li. rewrite in_app_iff in *. simpl in *. tauto.
    - rewrite X9, X7. apply I. }
  assert (L0 : a_fs (set_fs x (a_fs s)) <= f) by exact L1.
  pose proof (push_back_inv _ _ _ _ _ I0 L0 G) as I1.
  pose proof (push_back_frame x i) as (F1 & F2 & F3 & F4 & F5 & F6 & F7).
  assert (Es : set_fs (push_back x i) f = push_back x i).
  { rewrite <- X6, <- F6. destruct (push_back x i); reflexivity. }
  rewrite Es in I1. split; [exact I1|].
  split; [congruence|]. split; [congruence|]. split; [congruence|].
  split; [destruct F4 as (A & B & C); repeat split; congruence|].
  destruct (F7 i) as (-> & ->). rewrite Hi. split; [reflexivity|]. split; [reflexivity|].
  intros j D. destruct (F7 j) as (-> & ->). destruct (Hj j D) as (-> & -> & _). auto.
Qed.

Lemma tile_cons : forall g a i l b, h_start (g i) = a -> a <= h_end (g i) -> tile g (h_end (g i)) l b -> tile g a (i :: l) b.
Proof. intros. simpl. auto. Qed.

(** ** Growing a region *)

Lemma copy_data_done : forall s a b n, in_data s a n = true -> in_data s b n = true ->
  copy_data s a b n =
  Done (set_mem s (fun x => if (b <=? x) && (x <? b + n) then a_mem s (x - b + a) else a_mem s x)).
Proof. intros s a b n H1 H2. unfold copy_data. now rewrite H1, H2. Qed.

Lemma copied_at : forall (m : N -> N) a b n k, k < n ->
  (if (b <=? b + k) && (b + k <? b + n) then m (b + k - b + a) else m (b + k)) = m (a + k).
Proof.
  intros m a b n k L.
  replace (b <=? b + k) with true by (symmetry; apply N.leb_le; lia).
  replace (b + k <? b + n) with true by (symmetry; apply N.ltb_lt; lia). simpl. f_equal. lia.
Qed.

Lemma copied_out : forall (m : N -> N) a b n x, x < b \/ b + n <= x ->
  (if (b <=? x) && (x <? b + n) then m (x - b + a) else m x) = m x.
Proof.
  intros m a b n x H. destruct (N.leb_spec b x); destruct (N.ltb_spec x (b + n)); simpl; auto. lia.
Qed.

Lemma realloc_spec : forall s l i len n al,
  inv s l -> In i l -> a_occ s <> Some i -> 0 < al -> h_start (a_hdrs s i) mod al = 0 ->
  len <= capacity (a_hdrs s i) -> capacity (a_hdrs s i) < n -> n < 2 ^ 63 ->
  wp (realloc s i len n al) (fun x =>
    let (r, s') := x in
    a_haz s' <> [] \/
    exists l', match r with
    | None => refused s s' l l'
    | Some j => granted s s' l l' j (Some i)
                /\ h_start (a_hdrs s' j) mod al = 0 /\ n <= capacity (a_hdrs s' j)
                /\ (forall k, k < len -> a_mem s' (h_start (a_hdrs s' j) + k) = a_mem s (h_start (a_hdrs s i) + k))
    end).
Proof.
  intros s l i len n al I Hi Ho P Ma Llen Lcap Ln.
  pose proof Hi as Hi'. apply in_split in Hi. destruct Hi as (l1 & l2 & ->).
  pose proof (inv_split _ _ _ _ I) as (Ep & En & T1 & Le & T2 & N1 & N2 & ND).
  rewrite (inv_cap _ _ _ I Hi') in *.
  assert (NE : l1 ++ i :: l2 <> []) by (destruct l1; discriminate).
  unfold realloc. cbv zeta. rewrite En. destruct l2 as [|m t]; simpl hd_or; cbv iota.
  - (* the last region *)
    rewrite (inv_cap _ _ _ I Hi').
    set (add := n - (h_end (a_hdrs s i) - h_start (a_hdrs s i))) in *.
    apply wp_bind with (1 := reserve_spec s _ add al I P ltac:(clear -Ln; lia)).
    intros (r, s1) [H|(l' & A & Hr)].
    { destruct r; simpl; auto. }
    pose proof (al_list _ _ _ _ A NE) as ->.
    destruct r as [f|].
    2:{ simpl. right. eexists. apply aligned_refused. exact A. }
    destruct (Hr f eq_refl) as (Ef & Lf & _). clear Hr.
    pose proof (al_inv _ _ _ _ A) as I1.
    pose proof (last_end _ _ _ I1) as Le1.
    destruct (al_links _ _ _ _ A i Hi') as (Es & _ & _ & Lend).
    pose proof (inv_fe _ _ I1) as Lfe.
    change (a_hdrs (set_fs s1 f) i) with (a_hdrs s1 i). rewrite Le1. rewrite wadd_small by (clear -Ef Lf Lfe; lia). rewrite <- Ef.
    cbn [wp]. right. exists (l1 ++ [i]).
    assert (I2 : inv (set_end (set_fs s1 f) i f) (l1 ++ [i])) by (apply grow_tail; auto; lia).
    assert (Hh : a_hdrs (set_end (set_fs s1 f) i f) i = with_end (a_hdrs s1 i) f) by (red_s; now neqs).
    split; [constructor|]; auto.
    + red_s. rewrite (al_occ _ _ _ _ A). auto.
    + intros q J D O. red_s. assert (q <> i) by congruence. neqs.
      destruct (al_keeps _ _ _ _ A q J ltac:(discriminate) O) as (K1 & K2 & K3 & K4 & K5). repeat split; auto.
    + red_s. apply A.
    + apply A.
    + rewrite (inv_cap _ _ _ I2 Hi'), Hh. red_s. rewrite Es. split; [exact Ma|]. split.
      * clear -Ef Le1 Lend Le. subst add. lia.
      * intros k Lk. red_s. now rewrite (al_mem _ _ _ _ A).
  - destruct (N.eqb_spec (h_start (a_hdrs s i)) (h_end (a_hdrs s i))) as [Em|NEm].
    + (* an empty region *)
      apply wp_bind with (1 := reserve_spec s _ n al I P Ln).
      intros (r, s1) [H|(l' & A & Hr)].
      { destruct r; simpl; [rewrite replace_back_haz|]; auto. }
      pose proof (al_list _ _ _ _ A NE) as ->.
      destruct r as [f|].
      2:{ simpl. right. eexists. apply aligned_refused. exact A. }
      destruct (Hr f eq_refl) as (Ef & Lf & Mf). clear Hr.
      pose proof (al_inv _ _ _ _ A) as I1.
      assert (Eh : a_hdrs s1 i = a_hdrs s i).
      { apply (al_hdrs _ _ _ _ A); auto. rewrite last_or_app. simpl. intros E.
        apply N2. destruct t as [|u t]; [simpl in *; left; congruence|].
        right. apply (last_or_in (u :: t) (Some m)); [exact E|discriminate]. }
      assert (Ho1 : a_occ s1 <> Some i) by (rewrite (al_occ _ _ _ _ A); auto).
      pose proof (replace_back_inv s1 l1 i m t f I1 Ho1 ltac:(rewrite Eh; exact Em) ltac:(lia) Lf) as R.
      cbv zeta in R. destruct R as (R1 & R2 & R3 & R4 & R5 & R6 & R7 & R8).
      cbn [wp]. right. exists ((l1 ++ m :: t) ++ [i]). unfold moved in *. red_s.
      assert (Il : In i ((l1 ++ m :: t) ++ [i])) by (rewrite in_app_iff; simpl; auto).
      split; [constructor|]; auto.
      * rewrite R4. auto.
      * intros q J D O.
        assert (q <> i) by congruence.
        destruct (al_keeps _ _ _ _ A q J ltac:(discriminate) O) as (K1 & K2 & K3 & K4 & K5).
        destruct (R8 q H) as (-> & ->). rewrite R4, R3.
        repeat split; auto. rewrite !in_app_iff in *. simpl in *. intuition congruence.
      * rewrite R2. apply A.
      * apply same_env_trans with (s2 := s1); [apply A|exact R5].
      * rewrite (inv_cap _ _ _ R1 Il), R6, R7. split; [exact Mf|]. split; [lia|].
        intros k Lk. rewrite Em in Llen. lia.
    + destruct (match h_prev (a_hdrs s i) with Some p => _ | None => _ end) as [p|] eqn:Mg.
      * (* into the occupied region before it *)
        destruct (h_prev (a_hdrs s i)) as [p'|] eqn:Hp; [|discriminate].
        destruct (oeqb (a_occ s) (Some p')) eqn:Oc; [|discriminate].
        destruct (n <=? wadd (capacity (a_hdrs s p')) (capacity (a_hdrs s i))) eqn:Cap; [|discriminate].
        destruct (is_aligned (a_hdrs s p') al) eqn:Al; [|discriminate].
        cbn [andb] in Mg. injection Mg as ->. apply oeqb_some in Oc. apply N.leb_le in Cap.
        unfold is_aligned in Al. apply N.eqb_eq in Al. rewrite align_offset_zero in Al by auto.
        assert (El : l1 = [p]).
        { destruct (i_occ _ _ I p Oc) as (u & E). destruct l1 as [|q l1]; [simpl in Ep; discriminate|].
          simpl in E. injection E as -> _. simpl in Ep.
          destruct l1 as [|q l1]; auto. exfalso.
          assert (J : In p (q :: l1)) by (apply (last_or_in _ (Some p)); [symmetry; exact Ep|discriminate]).
          simpl in ND. inversion ND as [|z zs NI]. subst. apply NI.
          change (q :: l1 ++ m :: t) with ((q :: l1) ++ m :: t). rewrite in_app_iff. auto. }
        subst l1. simpl app in *.
        assert (Ip : In p (p :: i :: m :: t)) by (left; reflexivity).
        rewrite (inv_cap _ _ _ I Ip), (inv_cap _ _ _ I Hi') in Cap.
        destruct (inv_in _ _ _ I Ip) as (B1 & B2 & B3). destruct (inv_in _ _ _ I Hi') as (C1 & C2 & C3).
        pose proof (inv_fe _ _ I) as Lfe. pose proof (i_fs _ _ I) as Lfs.
        rewrite wadd_small in Cap by (clear -B1 B2 B3 C1 C2 C3 Lfe Lfs; lia).
        destruct T1 as (Sp & _ & Ep'). simpl in Ep'.
        assert (Npi : p <> i) by (intros ->; apply N1; left; reflexivity).
        destruct (free_region_spec s [p] i (m :: t) (i_nodup _ _ I) (i_seg _ _ I) (i_tail _ _ I)) as (s1 & Fr & F).
        rewrite Fr. destruct (f_same _ _ _ _ _ F p Npi) as (Fs & Fe'). rewrite Fs.
        assert (Ei : in_data s1 (h_start (a_hdrs s i)) len = true).
        { unfold in_data. rewrite (f_lo _ _ _ _ _ F), (f_fe _ _ _ _ _ F).
          apply orb_true_iff; right; apply andb_true_iff; split; apply N.leb_le; lia. }
        assert (Ei2 : in_data s1 (h_start (a_hdrs s p)) len = true).
        { unfold in_data. rewrite (f_lo _ _ _ _ _ F), (f_fe _ _ _ _ _ F).
          apply orb_true_iff; right; apply andb_true_iff; split; apply N.leb_le; lia. }
        rewrite (copy_data_done _ _ _ _ Ei Ei2). cbn [obind wp]. right. exists (p :: m :: t).
        simpl in ND.
        assert (NDp : ~ In p (m :: t)) by (inversion ND; auto).
        assert (I2 : inv (set_occ (set_end (set_mem s1 (fun x =>
             if (h_start (a_hdrs s p) <=? x) && (x <? h_start (a_hdrs s p) + len)
             then a_mem s1 (x - h_start (a_hdrs s p) + h_start (a_hdrs s i)) else a_mem s1 x)) p (h_end (a_hdrs s i))) None)
             (p :: m :: t)).
        { destruct (i_ids _ _ I) as (nn & Ehh & Li & Lff).
          constructor; red_s; rewrite ?(f_lo _ _ _ _ _ F), ?(f_fe _ _ _ _ _ F), ?(f_fs _ _ _ _ _ F), ?(f_hi _ _ _ _ _ F), ?(f_dbg _ _ _ _ _ F), ?(f_head _ _ _ _ _ F); try apply I; auto.
          - apply (seg_ext (a_hdrs s1)); [|apply F]. intros j J. destruct (N.eqb_spec j p) as [->|]; split; reflexivity.
          - apply F.
          - apply tile_cons; neqs; red_s; rewrite ?Fs; [lia|lia|].
            apply (tile_ext (a_hdrs s)); [|exact T2]. intros j J.
            rewrite same_hdr by (intros ->; auto). apply F. intros ->. auto.
          - intros g Hg. injection Hg as <-. rewrite same_hdr by congruence. split; [|apply F].
            simpl. simpl in N2. intuition congruence.
          - discriminate.
          - exists nn. split; [auto|]. split; [|intros g Hg; injection Hg as <-; auto].
            intros j J. apply Li. simpl in *. tauto. }
        split; [constructor|]; auto.
        -- left. reflexivity.
        -- red_s. discriminate.
        -- intros q J D O. assert (q <> i) by congruence. assert (q <> p) by congruence. red_s. neqs.
           destruct (f_same _ _ _ _ _ F q H) as (-> & ->). rewrite (f_mem _ _ _ _ _ F).
           split; [simpl in *; intuition congruence|]. split; [discriminate|]. split; [reflexivity|]. split; [lia|].
           intros a La. apply copied_out. right.
           assert (Jt : In q (m :: t)) by (simpl in *; intuition congruence).
           destruct (tile_in _ _ _ _ _ T2 Jt) as (E1 & _). lia.
        -- red_s. apply F.
        -- repeat split; red_s; apply F.
        -- rewrite (inv_cap _ _ _ I2 (or_introl eq_refl)). red_s. neqs. red_s. rewrite Fs.
           split; [auto|]. split; [lia|]. intros k Lk. rewrite (f_mem _ _ _ _ _ F). now apply copied_at.
      * (* to a new place *)
        clear Mg.
        apply wp_bind with (P := fun x => a_haz (snd x) <> [] \/
            exists l', match fst x with
            | None => refused s (snd x) (l1 ++ i :: m :: t) l'
            | Some j => granted s (snd x) (l1 ++ i :: m :: t) l' j None /\ a_mem (snd x) = a_mem s
                /\ h_start (a_hdrs (snd x) j) mod al = 0 /\ n <= capacity (a_hdrs (snd x) j)
            end).
        { apply wp_mono with (1 := alloc_spec s _ n al I P Ln). intros (r, s1). auto. }
        intros (r, s1) H. cbn [fst snd] in H. destruct H as [H|(l' & H)].
        { destruct r as [to|]; [|simpl; auto].
          apply wp_bind with (1 := copyn_dirty s1 _ _ len H). intros s2 H2.
          apply wp_bind with (1 := free_dirty s2 i H2). intros s3 H3. simpl. auto. }
        destruct r as [to|].
        2:{ simpl. right. exists l'. exact H. }
        destruct H as (G & Em & Mt & Ct).
        assert (Dt : to <> i).
        { destruct (gr_new _ _ _ _ _ _ G) as [X|[X|X]]; [discriminate|intros ->; auto|congruence]. }
        destruct (gr_keeps _ _ _ _ _ _ G i Hi' ltac:(discriminate) Ho) as (K1 & K2 & K3 & K4 & K5).
        pose proof (gr_inv _ _ _ _ _ _ G) as I1. pose proof (gr_in _ _ _ _ _ _ G) as It.
        rewrite (inv_cap _ _ _ I1 It) in Ct.
        destruct (inv_in _ _ _ I1 It) as (B1 & B2 & B3). destruct (inv_in _ _ _ I1 K1) as (C1 & C2 & C3).
        assert (Dj : h_start (a_hdrs s1 i) + len <= h_start (a_hdrs s1 to) \/ h_start (a_hdrs s1 to) + len <= h_start (a_hdrs s1 i)).
        { destruct (tile_disjoint _ _ _ _ i to (i_tile _ _ I1) K1 It) as [X|X]; [congruence|left|right]; lia. }
        unfold copy_data_nonoverlapping.
        replace ((len =? 0) || (h_start (a_hdrs s1 i) + len <=? h_start (a_hdrs s1 to)) || (h_start (a_hdrs s1 to) + len <=? h_start (a_hdrs s1 i))) with true.
        2:{ symmetry. rewrite !orb_true_iff, !N.leb_le. tauto. }
        rewrite copy_data_done.
        2:{ apply (in_data_region s1 l' i); auto; lia. }
        2:{ apply (in_data_region s1 l' to); auto; lia. }
        cbn [obind].
        match goal with |- context [set_mem s1 ?f] => set (mm := f) end.
        destruct (free_spec (set_mem s1 mm) l' i (inv_set_mem _ _ _ I1) K1 K2)
          as (s3 & l3 & Ff & I3 & Kf & Hz & Hm & He & _ & _).
        rewrite Ff. cbn [wp]. right. exists l3.
        destruct (Kf to It) as (J1 & J2 & J3 & J4 & J5); [congruence|red_s; apply G|].
        red_s.
        split; [constructor|]; auto.
        -- destruct (gr_new _ _ _ _ _ _ G) as [X|[X|X]]; [discriminate|auto|auto].
        -- intros q J D O. assert (Dq : q <> i) by congruence.
           assert (Dq2 : q <> to) by (destruct (gr_new _ _ _ _ _ _ G) as [X|[X|X]]; [discriminate|intros ->; auto|congruence]).
           destruct (gr_keeps _ _ _ _ _ _ G q J ltac:(discriminate) O) as (Q1 & Q2 & Q3 & Q4 & Q5).
           destruct (Kf q Q1 D Q2) as (R1 & R2 & R3 & R4 & R5). red_s.
           split; [auto|]. split; [auto|]. split; [congruence|]. split; [lia|].
           intros a La. rewrite R5 by lia. unfold mm. rewrite copied_out; [now rewrite Em|].
           destruct (tile_disjoint _ _ _ _ q to (i_tile _ _ I1) Q1 It Dq2) as [X|X]; lia.
        -- rewrite Hz. apply G.
        -- apply same_env_trans with (s2 := s1); [apply G|]. exact He.
        -- rewrite J3. split; [exact Mt|]. split.
           { rewrite (inv_cap _ _ _ I3 J1), J3. lia. }
           intros k Lk. rewrite J5 by lia. unfold mm. rewrite copied_at by auto. rewrite Em, K3. reflexivity.
Qed.
