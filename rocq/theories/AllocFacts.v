(** Facts about the allocator's data structure: the doubly linked list of
    regions that tile the used part of the buffer. *)
From Coq Require Import List NArith Bool Lia.
From Verif Require Import Base BaseFacts Alloc AllocSpec.
Import ListNotations.
Open Scope N_scope.

Ltac red_s := cbn [a_free_head a_tail a_occ a_lo a_hi a_fs a_fe a_hdrs a_mem a_dbg a_haz
  set_free_head set_tail set_occ set_fs set_fe set_mem set_hdr set_prev set_next set_end set_start
  h_start h_end h_prev h_next with_prev with_next with_end with_start] in *.

(** ** Outcomes *)

(** The call ends well, or a dangerous event came before. *)
Definition wp {A} (m : out A) (P : A -> Prop) : Prop :=
  match m with Done x => P x | Panicked z => z <> [] | Undefined z => z <> [] end.

Lemma wp_bind : forall {A B} (m : out A) (f : A -> out B) P Q,
  wp m P -> (forall x, P x -> wp (f x) Q) -> wp (obind m f) Q.
Proof. intros A B m f P Q H K. destruct m; simpl in *; auto. Qed.

Lemma wp_mono : forall {A} (m : out A) (P Q : A -> Prop), wp m P -> (forall x, P x -> Q x) -> wp m Q.
Proof. intros A m P Q H K. destruct m; simpl in *; auto. Qed.

(** ** Lists of regions *)

Definition hd_or (l : list N) (n : option N) : option N :=
  match l with [] => n | i :: _ => Some i end.
Fixpoint last_or (l : list N) (p : option N) : option N :=
  match l with [] => p | i :: t => last_or t (Some i) end.

(** The headers of [l] are linked in that order, between [p] and [n]. *)
Fixpoint seg (g : N -> hdr) (p : option N) (l : list N) (n : option N) : Prop :=
  match l with
  | [] => True
  | i :: t => h_prev (g i) = p /\ h_next (g i) = hd_or t n /\ seg g (Some i) t n
  end.

(** The regions of [l] follow each other from [a] to [b]. *)
Fixpoint tile (g : N -> hdr) (a : N) (l : list N) (b : N) : Prop :=
  match l with
  | [] => a = b
  | i :: t => h_start (g i) = a /\ a <= h_end (g i) /\ tile g (h_end (g i)) t b
  end.

Lemma last_or_app : forall l1 l2 p, last_or (l1 ++ l2) p = last_or l2 (last_or l1 p).
Proof. induction l1; intros; simpl; auto. Qed.

Lemma hd_or_app : forall l1 l2 n, hd_or (l1 ++ l2) n = hd_or l1 (hd_or l2 n).
Proof. intros [|]; intros; reflexivity. Qed.

Lemma seg_app : forall g l1 l2 p n,
  seg g p (l1 ++ l2) n <-> seg g p l1 (hd_or l2 n) /\ seg g (last_or l1 p) l2 n.
Proof.
  intros g l1. induction l1 as [|i t IH]; intros l2 p n; simpl.
  - tauto.
  - rewrite IH, hd_or_app. tauto.
Qed.

Lemma tile_app : forall g l1 l2 a b,
  tile g a (l1 ++ l2) b <-> exists m, tile g a l1 m /\ tile g m l2 b.
Proof.
  intros g l1. induction l1 as [|i t IH]; intros l2 a b; simpl.
  - split; [intros H; eauto|intros (m & E & H); subst; auto].
  - rewrite IH. split.
    + intros (E & L & m & H1 & H2). eauto 7.
    + intros (m & (E & L & H1) & H2). eauto 7.
Qed.

Lemma seg_ext : forall g g' l p n,
  (forall i, In i l -> h_prev (g' i) = h_prev (g i) /\ h_next (g' i) = h_next (g i)) ->
  seg g p l n -> seg g' p l n.
Proof.
  intros g g' l. induction l as [|i t IH]; intros p n E H; simpl in *; auto.
  destruct H as (H1 & H2 & H3). destruct (E i (or_introl eq_refl)) as (E1 & E2).
  rewrite E1, E2. repeat split; auto.
Qed.

Lemma tile_ext : forall g g' l a b,
  (forall i, In i l -> h_start (g' i) = h_start (g i) /\ h_end (g' i) = h_end (g i)) ->
  tile g a l b -> tile g' a l b.
Proof.
  intros g g' l. induction l as [|i t IH]; intros a b E H; simpl in *; auto.
  destruct H as (H1 & H2 & H3). destruct (E i (or_introl eq_refl)) as (E1 & E2).
  rewrite E1, E2. repeat split; auto.
Qed.

Lemma tile_le : forall g l a b, tile g a l b -> a <= b.
Proof.
  intros g l. induction l as [|i t IH]; intros a b H; simpl in *; [lia|].
  destruct H as (H1 & H2 & H3). apply IH in H3. lia.
Qed.

Lemma tile_in : forall g l a b i, tile g a l b -> In i l ->
  a <= h_start (g i) /\ h_start (g i) <= h_end (g i) /\ h_end (g i) <= b.
Proof.
  intros g l. induction l as [|j t IH]; intros a b i H I; simpl in *; [tauto|].
  destruct H as (H1 & H2 & H3). destruct I as [->|I].
  - apply tile_le in H3. lia.
  - specialize (IH _ _ _ H3 I). lia.
Qed.

Lemma tile_disjoint : forall g l a b i j, tile g a l b -> In i l -> In j l -> i <> j ->
  h_end (g i) <= h_start (g j) \/ h_end (g j) <= h_start (g i).
Proof.
  intros g l. induction l as [|k t IH]; intros a b i j H I J D; simpl in *; [tauto|].
  destruct H as (H1 & H2 & H3).
  destruct I as [->|I], J as [->|J].
  - congruence.
  - left. apply (tile_in _ _ _ _ _ H3) in J. lia.
  - right. apply (tile_in _ _ _ _ _ H3) in I. lia.
  - eauto.
Qed.

Lemma last_or_in : forall l p i, last_or l p = Some i -> l <> [] -> In i l.
Proof.
  induction l as [|j t IH]; intros p i H D; [congruence|].
  destruct t as [|k t']; simpl in *.
  - left. congruence.
  - right. apply (IH (Some j)); [exact H|discriminate].
Qed.

Lemma last_or_none : forall l, last_or l None = None -> l = [].
Proof.
  assert (K : forall t i, last_or t (Some i) <> None).
  { induction t as [|j t IH]; intros i; simpl; [discriminate|apply IH]. }
  intros [|i t] H; auto. simpl in H. destruct (K t i H).
Qed.


Lemma snoc_cases : forall (l : list N), l = [] \/ exists t k, l = t ++ [k].
Proof.
  induction l as [|i t [->|(u & k & ->)]]; [auto| |].
  - right. exists [], i. reflexivity.
  - right. exists (i :: u), k. reflexivity.
Qed.

(** ** The invariant *)

Record inv (s : ast) (l : list N) : Prop := mkinv {
  i_nodup : NoDup l;
  i_seg : seg (a_hdrs s) None l None;
  i_tail : a_tail s = last_or l None;
  i_tile : tile (a_hdrs s) (a_lo s) l (a_fs s);
  i_free : forall f, a_free_head s = Some f -> ~ In f l /\ h_prev (a_hdrs s f) = None;
  i_occ : forall o, a_occ s = Some o -> exists t, l = o :: t;
  i_lo : 0 < a_lo s;
  i_fs : a_fs s <= a_fe s;
  i_hi : a_hi s < 2 ^ 63;
  i_ids : exists n, a_hi s = a_fe s + 24 * n /\ (forall i, In i l -> i <= n)
                    /\ (forall f, a_free_head s = Some f -> f <= n);
  i_dbg : a_dbg s = true -> a_fe s mod 8 = 0 }.

Lemma inv_in : forall s l i, inv s l -> In i l ->
  a_lo s <= h_start (a_hdrs s i) /\ h_start (a_hdrs s i) <= h_end (a_hdrs s i) /\ h_end (a_hdrs s i) <= a_fs s.
Proof. intros s l i I H. exact (tile_in _ _ _ _ _ (i_tile _ _ I) H). Qed.

Lemma inv_cap : forall s l i, inv s l -> In i l ->
  capacity (a_hdrs s i) = h_end (a_hdrs s i) - h_start (a_hdrs s i).
Proof.
  intros s l i I H. destruct (inv_in _ _ _ I H) as (_ & L & _).
  unfold capacity, wsub. apply N.leb_le in L. now rewrite L.
Qed.

Lemma inv_split : forall s l1 i l2, inv s (l1 ++ i :: l2) ->
  h_prev (a_hdrs s i) = last_or l1 None /\ h_next (a_hdrs s i) = hd_or l2 None /\
  tile (a_hdrs s) (a_lo s) l1 (h_start (a_hdrs s i)) /\
  h_start (a_hdrs s i) <= h_end (a_hdrs s i) /\
  tile (a_hdrs s) (h_end (a_hdrs s i)) l2 (a_fs s) /\
  ~ In i l1 /\ ~ In i l2 /\ NoDup (l1 ++ l2).
Proof.
  intros s l1 i l2 I.
  pose proof (i_seg _ _ I) as G. apply seg_app in G. destruct G as (_ & G1 & G2 & _).
  pose proof (i_tile _ _ I) as T. apply tile_app in T. destruct T as (m & T1 & E & L & T2). subst m.
  pose proof (NoDup_remove _ _ _ (i_nodup _ _ I)) as (N1 & N2).
  rewrite in_app_iff in N2.
  repeat split; auto.
Qed.

Lemma same_hdr : forall (g : N -> hdr) i j h, i <> j -> (if i =? j then h else g i) = g i.
Proof. intros g i j h D. apply N.eqb_neq in D. now rewrite D. Qed.

Lemma same_hdr_eq : forall (g : N -> hdr) i h, (if i =? i then h else g i) = h.
Proof. intros. now rewrite N.eqb_refl. Qed.

Ltac neqs := repeat match goal with
  | |- context [?x =? ?x] => rewrite N.eqb_refl
  | D : ?x <> ?y |- context [?x =? ?y] => rewrite (proj2 (N.eqb_neq x y) D)
  | D : ?x <> ?y |- context [?y =? ?x] => rewrite (proj2 (N.eqb_neq y x) (not_eq_sym D))
  end.

(** What keeps its place when region [x] is given up or moved. *)
Definition keeps (s s' : ast) (l l' : list N) (x : option N) : Prop :=
  forall r, In r l -> Some r <> x -> a_occ s <> Some r ->
    In r l' /\ a_occ s' <> Some r
    /\ h_start (a_hdrs s' r) = h_start (a_hdrs s r)
    /\ h_end (a_hdrs s r) <= h_end (a_hdrs s' r)
    /\ (forall a, h_start (a_hdrs s r) <= a < h_end (a_hdrs s r) -> a_mem s' a = a_mem s a).

Lemma keeps_refl : forall s l x, keeps s s l l x.
Proof. intros s l x r I D O. repeat split; auto; lia. Qed.

Lemma keeps_trans : forall s1 s2 s3 l1 l2 l3 x,
  keeps s1 s2 l1 l2 x -> keeps s2 s3 l2 l3 x -> keeps s1 s3 l1 l3 x.
Proof.
  intros s1 s2 s3 l1 l2 l3 x K1 K2 r I D O.
  destruct (K1 r I D O) as (I2 & O2 & E2 & L2 & M2).
  destruct (K2 r I2 D O2) as (I3 & O3 & E3 & L3 & M3).
  split; [exact I3|]. split; [exact O3|]. split; [congruence|]. split; [lia|].
  intros a A. rewrite M3 by lia. apply M2. lia.
Qed.

Lemma keeps_weaken : forall s s' l l' x, keeps s s' l l' None -> keeps s s' l l' x.
Proof. intros s s' l l' x K r I D O. apply (K r I); [discriminate|exact O]. Qed.

(** ** Releasing a header *)

Record freed (s s' : ast) (i : N) (l1 l2 : list N) : Prop := mkfreed {
  f_seg : seg (a_hdrs s') None (l1 ++ l2) None;
  f_tail : a_tail s' = last_or (l1 ++ l2) None;
  f_same : forall j, j <> i -> h_start (a_hdrs s' j) = h_start (a_hdrs s j)
                             /\ h_end (a_hdrs s' j) = h_end (a_hdrs s j);
  f_head : a_free_head s' = Some i;
  f_prev : h_prev (a_hdrs s' i) = None;
  f_occ : a_occ s' = a_occ s;
  f_lo : a_lo s' = a_lo s;
  f_hi : a_hi s' = a_hi s;
  f_fs : a_fs s' = a_fs s;
  f_fe : a_fe s' = a_fe s;
  f_mem : a_mem s' = a_mem s;
  f_dbg : a_dbg s' = a_dbg s;
  f_haz : a_haz s' = a_haz s }.

Lemma unlink_seg : forall s l1 i l2,
  NoDup (l1 ++ i :: l2) -> seg (a_hdrs s) None (l1 ++ i :: l2) None ->
  a_tail s = last_or (l1 ++ i :: l2) None ->
  let s' := unlink s (a_hdrs s i) in
  seg (a_hdrs s') None (l1 ++ l2) None /\ a_tail s' = last_or (l1 ++ l2) None
  /\ a_hdrs s' i = a_hdrs s i
  /\ (forall j, h_start (a_hdrs s' j) = h_start (a_hdrs s j) /\ h_end (a_hdrs s' j) = h_end (a_hdrs s j))
  /\ a_free_head s' = a_free_head s /\ a_occ s' = a_occ s /\ a_lo s' = a_lo s /\ a_hi s' = a_hi s
  /\ a_fs s' = a_fs s /\ a_fe s' = a_fe s /\ a_mem s' = a_mem s /\ a_dbg s' = a_dbg s /\ a_haz s' = a_haz s.
Proof.
  intros s l1 i l2 ND G T.
  pose proof (NoDup_remove _ _ _ ND) as (ND' & NI). rewrite in_app_iff in NI.
  apply seg_app in G. destruct G as (G1 & Ep & En & G2). simpl in G1.
  unfold unlink. rewrite Ep, En.
  destruct (snoc_cases l1) as [->|(t1 & k & ->)]; destruct l2 as [|m t2]; simpl hd_or;
    rewrite ?last_or_app in *; simpl last_or in *; simpl app in *.
  - red_s. repeat split; auto.
  - red_s. simpl in G2. destruct G2 as (G2 & G3 & G4).
    assert (D : i <> m) by (intros ->; apply NI; right; left; reflexivity).
    rewrite (same_hdr _ _ _ _ D).
    repeat split; auto; try (destruct (j =? m) eqn:E; [apply N.eqb_eq in E; subst|]; reflexivity).
    + now rewrite same_hdr_eq.
    + rewrite same_hdr_eq. exact G3.
    + apply (seg_ext (a_hdrs s)); [|exact G4]. intros j J. red_s.
      rewrite same_hdr; auto. intros ->. inversion ND'; auto.
  - red_s. rewrite app_nil_r in *. apply seg_app in G1. destruct G1 as (G1 & G3 & G4 & _). simpl hd_or in G1.
    assert (D : i <> k) by (intros ->; apply NI; left; rewrite in_app_iff; simpl; auto).
    rewrite (same_hdr _ _ _ _ D).
    repeat split; auto; try (destruct (j =? k) eqn:E; [apply N.eqb_eq in E; subst|]; reflexivity).
    apply seg_app. simpl. rewrite same_hdr_eq. red_s. repeat split; auto.
    apply (seg_ext (a_hdrs s)); [|exact G1]. intros j J. red_s. rewrite same_hdr; auto.
    intros ->. apply NoDup_remove_2 in ND'. rewrite app_nil_r in ND'. auto.
  - apply seg_app in G1. destruct G1 as (G1 & G3 & G4 & _). simpl hd_or in *. simpl in G2. destruct G2 as (G5 & G6 & G7).
    assert (D1 : i <> k) by (intros ->; apply NI; left; rewrite in_app_iff; simpl; auto).
    assert (D2 : i <> m) by (intros ->; apply NI; right; left; reflexivity).
    assert (D3 : k <> m).
    { intros ->. rewrite <- app_assoc in ND'. simpl in ND'. apply NoDup_remove_2 in ND'.
      apply ND'. rewrite in_app_iff. simpl. auto. }
    red_s. neqs. red_s.
    split; [|repeat split; auto;
             (destruct (N.eqb_spec j k) as [->|]; [reflexivity|]);
             (destruct (N.eqb_spec j m) as [->|]; reflexivity)].
    rewrite <- app_assoc in *. simpl in *.
    pose proof (NoDup_remove_2 _ _ _ ND') as NK. rewrite in_app_iff in NK.
    assert (NM : ~ In m t1 /\ ~ In m t2).
    { replace (t1 ++ k :: m :: t2) with ((t1 ++ [k]) ++ m :: t2) in ND' by (rewrite <- app_assoc; reflexivity).
      apply NoDup_remove_2 in ND'. rewrite !in_app_iff in ND'. simpl in ND'. tauto. }
    apply seg_app. simpl. neqs. red_s. neqs. red_s.
    split; [|split; [|split; [|split; [|split]]]]; auto.
    + apply (seg_ext (a_hdrs s)); [|exact G1]. intros j J.
      assert (j <> k) by (intros ->; tauto). assert (j <> m) by (intros ->; tauto). neqs. auto.
    + apply (seg_ext (a_hdrs s)); [|exact G7]. intros j J.
      assert (j <> k) by (intros ->; simpl in *; tauto). assert (j <> m) by (intros ->; tauto). neqs. auto.
Qed.

Lemma free_region_spec : forall s l1 i l2,
  NoDup (l1 ++ i :: l2) -> seg (a_hdrs s) None (l1 ++ i :: l2) None ->
  a_tail s = last_or (l1 ++ i :: l2) None ->
  exists s', free_region s i = (a_hdrs s i, s') /\ freed s s' i l1 l2.
Proof.
  intros s l1 i l2 ND G T.
  pose proof (unlink_seg _ _ _ _ ND G T) as U. cbv zeta in U.
  destruct U as (U1 & U2 & U3 & U4 & U5 & U6 & U7 & U8 & U9 & U10 & U11 & U12 & U13).
  pose proof (NoDup_remove_2 _ _ _ ND) as NI.
  unfold free_region. rewrite U3. eexists. split; [reflexivity|].
  constructor; red_s; auto.
  - apply (seg_ext (a_hdrs (unlink s (a_hdrs s i)))); [|exact U1].
    intros j J. rewrite same_hdr; auto. intros ->. auto.
  - intros j D. rewrite same_hdr by auto. apply U4.
  - now rewrite same_hdr_eq.
Qed.

(** Fields that most calls leave alone. *)
Definition same_env (s s' : ast) : Prop :=
  a_lo s' = a_lo s /\ a_hi s' = a_hi s /\ a_dbg s' = a_dbg s.

Lemma same_env_refl : forall s, same_env s s.
Proof. intros; repeat split. Qed.

Lemma same_env_trans : forall s1 s2 s3, same_env s1 s2 -> same_env s2 s3 -> same_env s1 s3.
Proof. unfold same_env. intros s1 s2 s3 (A1 & A2 & A3) (B1 & B2 & B3). repeat split; congruence. Qed.

Lemma oeqb_some : forall a x, oeqb a (Some x) = true <-> a = Some x.
Proof.
  intros [a|] x; simpl; split; intros H; try discriminate.
  - apply N.eqb_eq in H. congruence.
  - injection H as <-. apply N.eqb_refl.
Qed.

Lemma oeqb_some_f : forall a x, a <> Some x -> oeqb a (Some x) = false.
Proof. intros a x H. destruct (oeqb a (Some x)) eqn:E; auto. apply oeqb_some in E. congruence. Qed.

Lemma free_spec : forall s l i, inv s l -> In i l -> a_occ s <> Some i ->
  exists s' l', free s i = Done s' /\ inv s' l' /\ keeps s s' l l' (Some i)
    /\ a_haz s' = a_haz s /\ a_mem s' = a_mem s /\ same_env s s' /\ a_fe s' = a_fe s
    /\ (forall r, In r l' -> In r l).
Proof.
  intros s l i I Hi Ho.
  apply in_split in Hi. destruct Hi as (l1 & l2 & ->).
  pose proof (inv_split _ _ _ _ I) as (Ep & En & T1 & Le & T2 & N1 & N2 & ND).
  destruct (free_region_spec s l1 i l2 (i_nodup _ _ I) (i_seg _ _ I) (i_tail _ _ I)) as (s' & Fr & F).
  destruct (i_ids _ _ I) as (n & Eh & Li & Lf).
  unfold free. rewrite En, Ep.
  destruct l2 as [|m t2]; simpl hd_or.
  - (* the tail *)
    unfold free_tail. rewrite (i_tail _ _ I), last_or_app. simpl last_or. simpl oeqb at 1.
    rewrite N.eqb_refl. cbn [negb]. rewrite andb_false_r. rewrite Fr, En. cbn [hd_or oeqb negb]. rewrite andb_false_r, Ep.
    rewrite (f_occ _ _ _ _ _ F).
    rewrite app_nil_r in *.
    destruct (snoc_cases l1) as [->|(t1 & p & ->)].
    + simpl last_or. simpl in T1. eexists _, []. split; [reflexivity|].
      split; [|split; [|split; [|split; [|split; [|split]]]]]; red_s; try apply F.
      * constructor; red_s; simpl; auto.
        -- apply (f_tail _ _ _ _ _ F).
        -- rewrite (f_lo _ _ _ _ _ F). auto.
        -- intros f Hf. rewrite (f_head _ _ _ _ _ F) in Hf. injection Hf as <-. split; [tauto|apply F].
        -- intros o Hoc. rewrite (f_occ _ _ _ _ _ F) in Hoc. destruct (i_occ _ _ I _ Hoc) as (t & E).
           injection E as <- _. congruence.
        -- rewrite (f_lo _ _ _ _ _ F). apply I.
        -- rewrite (f_fe _ _ _ _ _ F). simpl in T2. pose proof (i_fs _ _ I). lia.
        -- rewrite (f_hi _ _ _ _ _ F). apply I.
        -- exists n. rewrite (f_hi _ _ _ _ _ F), (f_fe _ _ _ _ _ F). split; [exact Eh|]. split; [simpl; tauto|].
           intros f Hf. rewrite (f_head _ _ _ _ _ F) in Hf. injection Hf as <-. apply Li. simpl. auto.
        -- rewrite (f_dbg _ _ _ _ _ F), (f_fe _ _ _ _ _ F). apply I.
      * intros r [<-|[]] D. congruence.
      * repeat split; apply F.
      * intros r [].
    + rewrite last_or_app. simpl last_or. cbv iota beta.
      assert (Np : i <> p) by (intros ->; apply N1; rewrite in_app_iff; simpl; auto).
      destruct (oeqb (a_occ s) (Some p)) eqn:Oc.
      * (* the occupied region before it goes too *)
        apply oeqb_some in Oc. destruct (i_occ _ _ I _ Oc) as (t & E).
        destruct t1 as [|q t1].
        2:{ exfalso. simpl in E. injection E as -> _. simpl in ND. inversion ND as [|x xs NI]. apply NI.
            rewrite in_app_iff. simpl. auto. }
        simpl in T1, ND. clear E. cbv zeta.
        destruct (free_region_spec (set_occ s' None) [] p []) as (s2 & Fr2 & F2).
        { repeat constructor; simpl; tauto. }
        { apply F. }
        { apply F. }
        rewrite Fr2. eexists _, []. split; [reflexivity|].
        assert (Es : h_start (a_hdrs (set_occ s' None) p) = a_lo s).
        { red_s. destruct (f_same _ _ _ _ _ F p) as (-> & _); [congruence|]. destruct T1 as (-> & _). reflexivity. }
        split; [|split; [|split; [|split; [|split; [|split]]]]]; red_s.
        -- constructor; red_s; simpl; auto.
           ++ constructor.
           ++ apply (f_tail _ _ _ _ _ F2).
           ++ rewrite Es, (f_lo _ _ _ _ _ F2). red_s. apply F.
           ++ intros f Hf. rewrite (f_head _ _ _ _ _ F2) in Hf. injection Hf as <-. split; [tauto|apply F2].
           ++ intros o Hoc. rewrite (f_occ _ _ _ _ _ F2) in Hoc. red_s. discriminate.
           ++ rewrite (f_lo _ _ _ _ _ F2). red_s. rewrite (f_lo _ _ _ _ _ F). apply I.
           ++ rewrite (f_fe _ _ _ _ _ F2). red_s. rewrite (f_fe _ _ _ _ _ F), Es.
              pose proof (i_fs _ _ I). pose proof (tile_le _ _ _ _ (i_tile _ _ I)). lia.
           ++ rewrite (f_hi _ _ _ _ _ F2). red_s. rewrite (f_hi _ _ _ _ _ F). apply I.
           ++ exists n. rewrite (f_hi _ _ _ _ _ F2), (f_fe _ _ _ _ _ F2). red_s. rewrite (f_hi _ _ _ _ _ F), (f_fe _ _ _ _ _ F).
              split; [exact Eh|]. split; [simpl; tauto|].
              intros f Hf. rewrite (f_head _ _ _ _ _ F2) in Hf. injection Hf as <-. apply Li. simpl. auto.
           ++ rewrite (f_dbg _ _ _ _ _ F2), (f_fe _ _ _ _ _ F2). red_s. rewrite (f_dbg _ _ _ _ _ F), (f_fe _ _ _ _ _ F). apply I.
        -- intros r [<-|[<-|[]]] D D2; congruence.
        -- rewrite (f_haz _ _ _ _ _ F2). red_s. apply F.
        -- rewrite (f_mem _ _ _ _ _ F2). red_s. apply F.
        -- unfold same_env. red_s. rewrite (f_lo _ _ _ _ _ F2), (f_hi _ _ _ _ _ F2), (f_dbg _ _ _ _ _ F2). red_s.
           repeat split; apply F.
        -- rewrite (f_fe _ _ _ _ _ F2). red_s. apply F.
        -- intros r [].
      * eexists _, (t1 ++ [p]). split; [reflexivity|].
        split; [|split; [|split; [|split; [|split; [|split]]]]]; red_s; try apply F.
        -- constructor; red_s; simpl; auto.
           ++ pose proof (f_seg _ _ _ _ _ F) as G. rewrite app_nil_r in G. exact G.
           ++ rewrite (f_tail _ _ _ _ _ F), app_nil_r. reflexivity.
           ++ rewrite (f_lo _ _ _ _ _ F). apply (tile_ext (a_hdrs s)); [|exact T1].
              intros j J. apply F. intros ->. auto.
           ++ intros f Hf. rewrite (f_head _ _ _ _ _ F) in Hf. injection Hf as <-. split; [exact N1|apply F].
           ++ intros o Hoc. rewrite (f_occ _ _ _ _ _ F) in Hoc. destruct (i_occ _ _ I _ Hoc) as (t & E).
              destruct t1 as [|q t1]; simpl in *; injection E as -> E; eauto.
           ++ rewrite (f_lo _ _ _ _ _ F). apply I.
           ++ rewrite (f_fe _ _ _ _ _ F). simpl in T2. pose proof (i_fs _ _ I). lia.
           ++ rewrite (f_hi _ _ _ _ _ F). apply I.
           ++ exists n. rewrite (f_hi _ _ _ _ _ F), (f_fe _ _ _ _ _ F). split; [exact Eh|]. split.
              { intros j J. apply Li. rewrite in_app_iff. auto. }
              intros f Hf. rewrite (f_head _ _ _ _ _ F) in Hf. injection Hf as <-. apply Li. rewrite in_app_iff. simpl. auto.
           ++ rewrite (f_dbg _ _ _ _ _ F), (f_fe _ _ _ _ _ F). apply I.
        -- intros r J D O. assert (r <> i) by congruence. red_s.
           rewrite in_app_iff in J. simpl in J.
           destruct (f_same _ _ _ _ _ F r) as (-> & ->); auto. rewrite (f_occ _ _ _ _ _ F), (f_mem _ _ _ _ _ F).
           repeat split; auto; try lia. intuition congruence.
        -- repeat split; apply F.
        -- intros r J. rewrite in_app_iff. auto.
  - destruct (snoc_cases l1) as [->|(t1 & p & ->)].
    + (* the first region becomes the occupied one *)
      simpl last_or.
      assert (O : a_occ s = None).
      { destruct (a_occ s) as [o|] eqn:E; auto. destruct (i_occ _ _ I _ E) as (t & E'). injection E' as <- _. congruence. }
      rewrite O. cbn [oeqb negb]. rewrite andb_false_r.
      eexists _, (i :: m :: t2). split; [reflexivity|].
      split; [|split; [|split; [|split; [|split; [|split]]]]]; red_s; auto.
      * destruct I. constructor; red_s; auto. intros o Hoc. injection Hoc as <-. eauto.
      * intros r J D O'. red_s. repeat split; auto; try lia; try congruence.
      * repeat split.
    + (* the region before it grows *)
      rewrite last_or_app. simpl last_or. rewrite Fr.
      assert (Np : i <> p) by (intros ->; apply N1; rewrite in_app_iff; simpl; auto).
      rewrite En. simpl hd_or. cbv iota.
      eexists _, ((t1 ++ [p]) ++ m :: t2). split; [reflexivity|].
      pose proof (NoDup_remove_2 t1 (m :: t2) p) as NP.
      rewrite <- app_assoc in ND. simpl in ND. specialize (NP ND). rewrite in_app_iff in NP.
      apply tile_app in T1. destruct T1 as (a & T1 & Es & Le' & Ee). simpl in Ee.
      split; [|split; [|split; [|split; [|split; [|split]]]]]; red_s; try apply F.
      * constructor; red_s; simpl; auto.
        -- rewrite <- app_assoc. exact ND.
        -- apply (seg_ext (a_hdrs s')); [|apply F]. intros j J.
           destruct (N.eqb_spec j p) as [->|]; split; reflexivity.
        -- apply F.
        -- rewrite (f_lo _ _ _ _ _ F), (f_fs _ _ _ _ _ F).
           apply tile_app. exists (h_end (a_hdrs s i)). split.
           { apply tile_app. exists a. split.
             - apply (tile_ext (a_hdrs s)); [|exact T1]. intros j J.
               rewrite same_hdr by (intros ->; tauto). apply F. intros ->. apply N1. rewrite in_app_iff. auto.
             - simpl. rewrite N.eqb_refl. red_s. destruct (f_same _ _ _ _ _ F p) as (-> & _); [congruence|].
               repeat split; auto. lia. }
           { apply (tile_ext (a_hdrs s)); [|exact T2]. intros j J.
             rewrite same_hdr by (intros ->; tauto). apply F. intros ->. auto. }
        -- intros f Hf. rewrite (f_head _ _ _ _ _ F) in Hf. injection Hf as <-.
           rewrite same_hdr by congruence. split; [|apply F]. rewrite in_app_iff. tauto.
        -- intros o Hoc. rewrite (f_occ _ _ _ _ _ F) in Hoc. destruct (i_occ _ _ I _ Hoc) as (t & E).
           destruct t1 as [|q t1]; simpl in *; injection E as -> E; eauto.
        -- rewrite (f_lo _ _ _ _ _ F). apply I.
        -- rewrite (f_fe _ _ _ _ _ F), (f_fs _ _ _ _ _ F). apply I.
        -- rewrite (f_hi _ _ _ _ _ F). apply I.
        -- exists n. rewrite (f_hi _ _ _ _ _ F), (f_fe _ _ _ _ _ F). split; [exact Eh|]. split.
           { intros j J. apply Li. rewrite !in_app_iff in *. simpl in *. tauto. }
           intros f Hf. rewrite (f_head _ _ _ _ _ F) in Hf. injection Hf as <-. apply Li. rewrite in_app_iff. simpl. auto.
        -- rewrite (f_dbg _ _ _ _ _ F), (f_fe _ _ _ _ _ F). apply I.
      * intros r J D O. assert (r <> i) by congruence. red_s. rewrite (f_occ _ _ _ _ _ F), (f_mem _ _ _ _ _ F).
        destruct (f_same _ _ _ _ _ F r) as (E1 & E2); auto.
        split; [rewrite !in_app_iff in *; simpl in *; intuition congruence|].
        split; [auto|].
        destruct (N.eqb_spec r p) as [->|Dp]; red_s.
        -- rewrite E1. repeat split; auto. lia.
        -- rewrite E1, E2. repeat split; auto. lia.
      * repeat split; apply F.
      * intros r J. rewrite !in_app_iff in *. simpl in *. tauto.
Qed.

(** ** Alignment *)

Lemma align_offset_zero : forall a al, 0 < al -> (align_offset a al = 0 <-> a mod al = 0).
Proof.
  intros a al P. unfold align_offset. pose proof (N.mod_lt a al) as L.
  destruct (N.eq_dec (a mod al) 0) as [E|E].
  - rewrite E, N.sub_0_r, N.mod_same by lia. tauto.
  - rewrite N.mod_small by lia. split; lia.
Qed.

Lemma align_offset_lt : forall a al, 0 < al -> align_offset a al < al.
Proof. intros. unfold align_offset. apply N.mod_lt. lia. Qed.

Lemma align_offset_spec : forall a al, 0 < al -> (a + align_offset a al) mod al = 0.
Proof.
  intros a al P. unfold align_offset. pose proof (N.mod_lt a al) as L.
  rewrite N.add_mod_idemp_r by lia.
  rewrite <- (N.add_mod_idemp_l a) by lia.
  replace (a mod al + (al - a mod al)) with al by lia. apply N.mod_same. lia.
Qed.

(** ** Getting a header *)

Record got (s s' : ast) (l : list N) (i e : N) : Prop := mkgot {
  g_haz : a_haz s' = a_haz s;
  g_new : ~ In i l;
  g_hdr : a_hdrs s' i = mkh (a_fs s) e None None;
  g_same : forall j, j <> i -> a_hdrs s' j = a_hdrs s j;
  g_head : forall f, a_free_head s' = Some f -> a_free_head s = Some f /\ f <> i;
  g_tail : a_tail s' = a_tail s;
  g_occ : a_occ s' = a_occ s;
  g_mem : a_mem s' = a_mem s;
  g_env : same_env s s';
  g_fe : e <= a_fe s' /\ a_fe s' <= a_fe s;
  g_ids : exists n, a_hi s = a_fe s' + 24 * n /\ i <= n /\ (forall j, In j l -> j <= n)
                   /\ (forall f, a_free_head s' = Some f -> f <= n);
  g_dbg : a_dbg s = true -> a_fe s' mod 8 = 0 }.

Lemma alloc_header_spec : forall s l e, inv s l -> a_fs s <= e -> e <= a_fe s ->
  wp (alloc_header s e) (fun x =>
    let (r, s') := x in
    match r with
    | None => s' = s
    | Some i => a_haz s' <> [] \/ got s s' l i e
    end).
Proof.
  intros s l e I L1 L2. unfold alloc_header.
  destruct (i_ids _ _ I) as (n & Eh & Li & Lf).
  destruct (a_free_head s) as [i|] eqn:Fh.
  - destruct (i_free _ _ I i Fh) as (Ni & Pi). red_s. cbv zeta. simpl wp.
    destruct (h_next (a_hdrs s i)) as [m|] eqn:Nx; [left; simpl; discriminate|].
    right. constructor; unfold add_haz; red_s; auto.
    + neqs. unfold with_end, with_start. cbn [h_start h_end h_prev h_next]. rewrite Nx, Pi. reflexivity.
    + intros j D. now neqs.
    + discriminate.
    + repeat split; auto.
    + lia.
    + exists n. split; [auto|]. split; [apply Lf; reflexivity|]. split; [auto|discriminate].
    + apply I.
  - destruct (a_dbg s && negb (align_offset (a_fe s) hdr_align =? 0)) eqn:D.
    { exfalso. apply andb_true_iff in D. destruct D as (D1 & D2).
      pose proof (i_dbg _ _ I D1) as M. apply negb_true_iff, N.eqb_neq in D2.
      apply D2. apply align_offset_zero; [reflexivity|exact M]. }
    unfold wsub, hdr_size. destruct (N.leb_spec 24 (a_fe s)) as [L|L].
    2:{ replace (a_fe s <=? usz - (24 - a_fe s)) with true.
        - rewrite orb_true_r. reflexivity.
        - symmetry. apply N.leb_le. unfold usz. lia. }
    cbv zeta.
    destruct (N.ltb_spec (a_fe s - 24) (a_fs s)) as [L3|L3]; [reflexivity|].
    destruct (N.leb_spec (a_fe s) (a_fe s - 24)) as [L4|L4]; [reflexivity|]. cbn [orb].
    replace (a_hi s - (a_fe s - 24)) with ((n + 1) * 24) by lia. rewrite N.div_mul by lia.
    destruct ((n + 1 =? 0) || negb (n + 1 <? 65536)); [reflexivity|]. simpl wp.
    unfold add_haz. red_s.
    destruct (N.ltb_spec (a_fe s - 24) e) as [L5|L5]; [left; discriminate|].
    right. constructor; red_s; auto.
    + intros J. apply Li in J. lia.
    + now neqs.
    + intros j J. now neqs.
    + congruence.
    + repeat split; auto.
    + lia.
    + exists (n + 1). split; [lia|]. split; [lia|]. split; [intros j J; apply Li in J; lia|congruence].
    + intros Db. apply (i_dbg _ _ I) in Db. clear -Db L.
      apply N.mod_divide in Db; [|lia]. destruct Db as (k & E). rewrite E.
      replace (k * 8 - 24) with ((k - 3) * 8) by lia. apply N.mod_mul. lia.
Qed.

Lemma NoDup_snoc : forall (l : list N) i, NoDup l -> ~ In i l -> NoDup (l ++ [i]).
Proof.
  induction l as [|j t IH]; intros i D NI; simpl.
  - constructor; auto.
  - inversion D as [|x xs NJ D']. subst. simpl in NI. constructor.
    + rewrite in_app_iff. simpl. intuition congruence.
    + apply IH; tauto.
Qed.

(** Pushing the region of a new header at the back, and making the free space
    start after it. *)
Lemma push_back_inv : forall s s' l i e, inv s l -> a_fs s <= e -> got s s' l i e ->
  inv (set_fs (push_back s' i) e) (l ++ [i]).
Proof.
  intros s s' l i e I Le G.
  destruct (g_ids _ _ _ _ _ G) as (n & Eh & Ln & Li & Lf). destruct (g_env _ _ _ _ _ G) as (El & Ehi & Ed).
  pose proof (g_hdr _ _ _ _ _ G) as Gh. pose proof (g_same _ _ _ _ _ G) as Gs.
  pose proof (g_new _ _ _ _ _ G) as Gn.
  assert (Hs : exists g', a_hdrs (push_back s' i) = g' /\ seg g' None (l ++ [i]) None
     /\ (forall j, h_start (g' j) = h_start (a_hdrs s' j) /\ h_end (g' j) = h_end (a_hdrs s' j))
     /\ (forall j, j <> i -> h_prev (g' j) = h_prev (a_hdrs s' j))).
  { eexists. split; [reflexivity|]. unfold push_back. rewrite (g_tail _ _ _ _ _ G), (i_tail _ _ I).
    destruct (snoc_cases l) as [->|(t & k & ->)].
    - simpl. red_s. rewrite Gh. repeat split.
    - rewrite last_or_app. simpl last_or. cbv iota beta.
      assert (Dk : i <> k) by (intros ->; apply Gn; rewrite in_app_iff; simpl; auto).
      red_s. neqs. split; [|split].
      + rewrite <- app_assoc. simpl.
        pose proof (i_seg _ _ I) as S0. apply seg_app in S0. destruct S0 as (S1 & S2 & S3 & _). simpl hd_or in *.
        pose proof (NoDup_remove_2 _ _ _ (i_nodup _ _ I)) as Nk. rewrite app_nil_r in Nk.
        apply seg_app. simpl. neqs. red_s. rewrite Gh. rewrite (Gs k) by congruence. red_s.
        repeat split; auto.
        apply (seg_ext (a_hdrs s)); [|exact S1]. intros j J.
        assert (j <> k) by (intros ->; auto).
        assert (j <> i) by (intros ->; apply Gn; rewrite in_app_iff; auto). neqs. rewrite Gs by auto. auto.
      + intros j. destruct (N.eqb_spec j k) as [->|]; [split; reflexivity|].
        destruct (N.eqb_spec j i) as [->|]; split; reflexivity.
      + intros j D. destruct (N.eqb_spec j k) as [->|]; neqs; reflexivity. }
  destruct Hs as (g' & Eg & Sg & Sm & Sp).
  assert (Pf : a_tail (push_back s' i) = Some i /\ a_free_head (push_back s' i) = a_free_head s'
    /\ a_occ (push_back s' i) = a_occ s /\ a_lo (push_back s' i) = a_lo s /\ a_hi (push_back s' i) = a_hi s
    /\ a_fe (push_back s' i) = a_fe s' /\ a_dbg (push_back s' i) = a_dbg s).
  { unfold push_back. rewrite <- (g_occ _ _ _ _ _ G), <- El, <- Ehi, <- Ed.
    destruct (a_tail s'); red_s; repeat split; auto. }
  destruct Pf as (P1 & P2 & P3 & P4 & P5 & P6 & P7).
  constructor; red_s; rewrite ?Eg, ?P1, ?P2, ?P3, ?P4, ?P5, ?P6, ?P7; try apply I; auto.
  - apply NoDup_snoc; auto. apply I.
  - rewrite last_or_app. reflexivity.
  - apply tile_app. exists (a_fs s). split.
    + apply (tile_ext (a_hdrs s)); [|apply I]. intros j J. destruct (Sm j) as (-> & ->).
      rewrite Gs; auto. intros ->. auto.
    + simpl. destruct (Sm i) as (-> & ->). rewrite Gh. simpl. auto.
  - intros f Hf. destruct (g_head _ _ _ _ _ G f Hf) as (Hf' & D). destruct (i_free _ _ I f Hf') as (A & B).
    rewrite in_app_iff. simpl. rewrite Sp, Gs by auto. split; [intuition congruence|auto].
  - intros o Ho. destruct (i_occ _ _ I o Ho) as (t & ->). simpl. eauto.
  - apply (g_fe _ _ _ _ _ G).
  - exists n. split; [auto|]. split; [|auto].
    intros j J. rewrite in_app_iff in J. simpl in J. destruct J as [J|[<-|[]]]; auto.
  - apply (g_dbg _ _ _ _ _ G).
Qed.

Lemma push_back_frame : forall s' i,
  a_haz (push_back s' i) = a_haz s' /\ a_mem (push_back s' i) = a_mem s'
  /\ a_occ (push_back s' i) = a_occ s' /\ same_env s' (push_back s' i)
  /\ a_fe (push_back s' i) = a_fe s'
  /\ a_fs (push_back s' i) = a_fs s'
  /\ forall j, h_start (a_hdrs (push_back s' i) j) = h_start (a_hdrs s' j)
            /\ h_end (a_hdrs (push_back s' i) j) = h_end (a_hdrs s' j).
Proof.
  intros s' i. unfold push_back. destruct (a_tail s') as [t|]; red_s; repeat split; auto.
  - destruct (N.eqb_spec j t) as [->|]; [|destruct (N.eqb_spec j i) as [->|]]; red_s; auto;
      destruct (N.eqb_spec t i) as [->|]; auto.
  - destruct (N.eqb_spec j t) as [->|]; [|destruct (N.eqb_spec j i) as [->|]]; red_s; auto;
      destruct (N.eqb_spec t i) as [->|]; auto.
Qed.

Lemma inv_fe : forall s l, inv s l -> a_fe s < 2 ^ 63.
Proof. intros s l I. destruct (i_ids _ _ I) as (n & E & _). pose proof (i_hi _ _ I). lia. Qed.

Lemma remaining_eq : forall s l, inv s l -> remaining s = a_fe s - a_fs s.
Proof.
  intros s l I. unfold remaining, wsub. pose proof (i_fs _ _ I) as L. apply N.leb_le in L. now rewrite L.
Qed.

Lemma wadd_small : forall a b, a + b < 2 ^ 64 -> wadd a b = a + b.
Proof. intros a b L. unfold wadd, usz. apply N.mod_small. exact L. Qed.

Lemma last_end : forall s l i, inv s (l ++ [i]) -> h_end (a_hdrs s i) = a_fs s.
Proof. intros s l i I. destruct (inv_split _ _ _ _ I) as (_ & _ & _ & _ & T & _). exact T. Qed.

(** ** Aligning the free space *)

Record aligned_to (s s' : ast) (l l' : list N) : Prop := mkaligned {
  al_inv : inv s' l';
  al_list : l <> [] -> l' = l;
  al_haz : a_haz s' = a_haz s;
  al_mem : a_mem s' = a_mem s;
  al_occ : a_occ s' = a_occ s;
  al_env : same_env s s';
  al_fe : a_fe s' <= a_fe s;
  al_fs : a_fs s <= a_fs s';
  al_keeps : keeps s s' l l' None;
  al_incl : forall r, In r l' -> In r l \/ l = [];
  al_hdrs : forall j, In j l -> last_or l None <> Some j -> a_hdrs s' j = a_hdrs s j;
  al_links : forall j, In j l -> h_start (a_hdrs s' j) = h_start (a_hdrs s j)
              /\ h_prev (a_hdrs s' j) = h_prev (a_hdrs s j) /\ h_next (a_hdrs s' j) = h_next (a_hdrs s j)
              /\ h_end (a_hdrs s j) <= h_end (a_hdrs s' j) }.

Lemma aligned_refl : forall s l, inv s l -> aligned_to s s l l.
Proof. intros s l I. constructor; auto; try lia; try apply same_env_refl; try apply keeps_refl. intros; repeat split; lia. Qed.

Lemma align_spec : forall s l al, inv s l -> 0 < al ->
  wp (align s al) (fun x =>
    let (ok, s') := x in
    a_haz s' <> [] \/
    exists l', aligned_to s s' l l' /\ (ok = true -> a_fs s' mod al = 0)).
Proof.
  intros s l al I P. unfold align. cbv zeta.
  destruct (N.eqb_spec (align_offset (a_fs s) al) 0) as [E|E].
  { simpl. right. exists l. split; [apply aligned_refl; auto|]. intros _. now apply align_offset_zero. }
  rewrite (remaining_eq _ _ I).
  destruct (N.ltb_spec (a_fe s - a_fs s) (align_offset (a_fs s) al)) as [L|L].
  { simpl. right. exists l. split; [apply aligned_refl; auto|]. discriminate. }
  pose proof (inv_fe _ _ I) as Lfe. pose proof (i_fs _ _ I) as Lfs.
  pose proof (align_offset_spec (a_fs s) al P) as Ms.
  set (off := align_offset (a_fs s) al) in *.
  rewrite wadd_small by (clear -L Lfe Lfs; lia).
  rewrite (i_tail _ _ I).
  destruct (snoc_cases l) as [->|(t & k & ->)].
  - (* no region: a placeholder *)
    simpl last_or. cbv iota.
    apply wp_bind with (1 := alloc_header_spec s [] (a_fs s + off) I ltac:(lia) ltac:(lia)).
    intros (r, s') H. destruct r as [i|].
    2:{ subst s'. simpl. right. exists []. split; [apply aligned_refl; auto|]. discriminate. }
    simpl. pose proof (push_back_frame s' i) as (F1 & F2 & F3 & F4 & F5 & F6 & F7).
    destruct H as [H|G]; [left; red_s; congruence|].
    right. exists [i]. split.
    2:{ intros _. red_s. exact Ms. }
    constructor; red_s.
    + apply (push_back_inv s s' [] i (a_fs s + off)); auto. lia.
    + congruence.
    + rewrite F1. apply G.
    + rewrite F2. apply G.
    + rewrite F3. apply G.
    + destruct (same_env_trans _ _ _ (g_env _ _ _ _ _ G) F4) as (A & B & C). repeat split; auto.
    + rewrite F5. apply G.
    + lia.
    + intros x [].
    + auto.
    + intros j [].
    + intros j [].
  - rewrite last_or_app. simpl last_or. cbv iota. simpl wp. right. exists (t ++ [k]). split.
    2:{ intros _. red_s. exact Ms. }
    pose proof (NoDup_remove_2 _ _ _ (i_nodup _ _ I)) as Nk. rewrite app_nil_r in Nk.
    pose proof (last_end _ _ _ I) as Le.
    assert (Hd : forall j, j <> k -> (if j =? k then with_end (a_hdrs s k) (a_fs s + off) else a_hdrs s j) = a_hdrs s j)
      by (intros j D; now neqs).
    constructor; red_s; auto; try lia.
    + destruct I as [I1 I2 I3 I4 I5 I6 I7 I8 I9 I10 I11]. constructor; red_s; auto; try lia.
      * apply (seg_ext (a_hdrs s)); auto. intros j J. destruct (N.eqb_spec j k) as [->|]; split; reflexivity.
      * apply tile_app in I4. destruct I4 as (m & T1 & T2 & T3 & _). apply tile_app. exists m. split.
        -- apply (tile_ext (a_hdrs s)); auto. intros j J. rewrite Hd by (intros ->; auto). auto.
        -- simpl. neqs. red_s. repeat split; auto. lia.
      * intros f Hf. destruct (I5 f Hf) as (A & B). split; auto.
        destruct (N.eqb_spec f k) as [->|]; auto.
    + repeat split.
    + intros x J _ O. red_s. repeat split; auto; destruct (N.eqb_spec x k) as [->|]; auto; red_s; lia.
    + intros j J Dl. rewrite last_or_app in Dl. simpl in Dl. apply Hd. congruence.
    + intros j J. destruct (N.eqb_spec j k) as [->|]; red_s; repeat split; auto; lia.
Qed.

Lemma aligned_keeps_mem : forall s s' l l', aligned_to s s' l l' -> forall a, a_mem s' a = a_mem s a.
Proof. intros s s' l l' A a. now rewrite (al_mem _ _ _ _ A). Qed.

(** ** Reserving *)

Lemma reserve_spec : forall s l n al, inv s l -> 0 < al -> n < 2 ^ 63 ->
  wp (reserve s n al) (fun x =>
    let (r, s') := x in
    a_haz s' <> [] \/
    exists l', aligned_to s s' l l' /\
      (forall f, r = Some f -> f = a_fs s' + n /\ f <= a_fe s' /\ a_fs s' mod al = 0)).
Proof.
  intros s l n al I P Ln. unfold reserve.
  apply wp_bind with (1 := align_spec s l al I P).
  intros (ok, s') H. cbv beta.
  destruct H as [H|(l' & A & M)].
  { destruct ok; simpl; [destruct (_ || _)|]; simpl; auto. }
  destruct ok; cbn [negb].
  2:{ simpl. right. exists l'. split; [auto|]. discriminate. }
  pose proof (inv_fe _ _ (al_inv _ _ _ _ A)) as Lfe. pose proof (i_fs _ _ (al_inv _ _ _ _ A)) as Lfs.
  assert (E : wadd (a_fs s') n = a_fs s' + n).
  { apply wadd_small. clear -Ln Lfe Lfs.
    replace (2 ^ 64) with (2 ^ 63 + 2 ^ 63) by reflexivity. lia. }
  rewrite E.
  destruct (N.ltb_spec (a_fe s') (a_fs s' + n)) as [L|L].
  { simpl. right. exists l'. split; [auto|]. discriminate. }
  destruct (N.ltb_spec (a_fs s' + n) (a_fs s')) as [L1|L1]; [lia|]. simpl.
  right. exists l'. split; [auto|]. intros f Hf. injection Hf as <-. auto.
Qed.

(** ** Allocating *)

(** What a call that hands out region [i], in place of [x], promises. *)
Record granted (s s' : ast) (l l' : list N) (i : N) (x : option N) : Prop := mkgranted {
  gr_inv : inv s' l';
  gr_in : In i l';
  gr_new : Some i = x \/ ~ In i l \/ a_occ s = Some i;
  gr_occ : a_occ s' <> Some i;
  gr_keeps : keeps s s' l l' x;
  gr_haz : a_haz s' = a_haz s;
  gr_env : same_env s s' }.

(** What a call that fails promises. *)
Record refused (s s' : ast) (l l' : list N) : Prop := mkrefused {
  re_inv : inv s' l';
  re_keeps : keeps s s' l l' None;
  re_haz : a_haz s' = a_haz s;
  re_env : same_env s s' }.

Lemma aligned_refused : forall s s' l l', aligned_to s s' l l' -> refused s s' l l'.
Proof. intros s s' l l' A. constructor; apply A. Qed.

Lemma alloc_fresh_spec : forall s l n al, inv s l -> 0 < al -> n < 2 ^ 63 ->
  wp (alloc_fresh s n al) (fun x =>
    let (r, s') := x in
    a_haz s' <> [] \/
    exists l', match r with
    | None => refused s s' l l'
    | Some i => granted s s' l l' i None /\ ~ In i l /\ a_mem s' = a_mem s
                /\ h_start (a_hdrs s' i) mod al = 0 /\ n <= capacity (a_hdrs s' i)
    end).
Proof.
  intros s l n al I P Ln. unfold alloc_fresh.
  apply wp_bind with (1 := align_spec s l al I P).
  intros (ok, s1) H. cbv beta.
  destruct H as [H|(l1 & A & M)].
  { destruct ok; cbn [negb]; [|simpl; auto].
    destruct (remaining s1 <? n); [simpl; auto|].
    unfold alloc_header. destruct (a_free_head s1) as [i|].
    - cbn [obind]. cbv zeta. destruct (_ && _); simpl; unfold push_back, add_haz; red_s;
        [destruct (h_next _)|destruct (a_tail s1); [|left]; red_s; try left; destruct (h_next _)]; simpl; auto; discriminate.
    - destruct (a_dbg s1 && _); [simpl; auto|]. cbv zeta. destruct (_ || _); [simpl; auto|].
      destruct (_ || _); [simpl; auto|]. cbn [obind]. cbv zeta.
      destruct (_ && _); simpl; unfold push_back, add_haz; red_s;
        [destruct (_ <? _)|destruct (a_tail s1); left; red_s; destruct (_ <? _)]; simpl; auto; discriminate. }
  destruct ok; cbn [negb].
  2:{ simpl. right. exists l1. now apply aligned_refused. }
  rewrite (remaining_eq _ _ (al_inv _ _ _ _ A)).
  destruct (N.ltb_spec (a_fe s1 - a_fs s1) n) as [L|L].
  { simpl. right. exists l1. now apply aligned_refused. }
  pose proof (inv_fe _ _ (al_inv _ _ _ _ A)) as Lfe. pose proof (i_fs _ _ (al_inv _ _ _ _ A)) as Lfs.
  rewrite wadd_small by (clear -Lfe Lfs L; lia).
  apply wp_bind with (1 := alloc_header_spec s1 l1 (a_fs s1 + n) (al_inv _ _ _ _ A) ltac:(lia) ltac:(lia)).
  intros (r, s2) H. destruct r as [i|].
  2:{ subst s2. simpl. right. exists l1. now apply aligned_refused. }
  pose proof (push_back_frame (set_fs s2 (a_fs s1 + n)) i) as (F1 & F2 & F3 & F4 & F5 & F6 & F7). red_s.
  destruct H as [H|G].
  { destruct (_ && _); simpl; [auto|]. left. congruence. }
  replace (a_fs s1 + n <=? a_fe s2) with true.
  2:{ symmetry. apply N.leb_le. apply (g_fe _ _ _ _ _ G). }
  cbn [negb]. rewrite andb_false_r. simpl wp. right. exists (l1 ++ [i]).
  assert (Ec : push_back (set_fs s2 (a_fs s1 + n)) i = set_fs (push_back s2 i) (a_fs s1 + n)).
  { unfold push_back. red_s. destruct (a_tail s2); reflexivity. }
  assert (I2 : inv (push_back (set_fs s2 (a_fs s1 + n)) i) (l1 ++ [i])).
  { rewrite Ec. apply push_back_inv with (s := s1); auto; [apply A|lia]. }
  assert (Hh : h_start (a_hdrs (push_back (set_fs s2 (a_fs s1 + n)) i) i) = a_fs s1
            /\ h_end (a_hdrs (push_back (set_fs s2 (a_fs s1 + n)) i) i) = a_fs s1 + n).
  { destruct (F7 i) as (-> & ->). rewrite (g_hdr _ _ _ _ _ G). auto. }
  assert (Il : In i (l1 ++ [i])) by (rewrite in_app_iff; simpl; auto).
  assert (Nl : ~ In i l).
  { intros J. apply (g_new _ _ _ _ _ G). destruct l as [|q t]; [destruct J|].
    rewrite (al_list _ _ _ _ A) by discriminate. exact J. }
  split; [|split; [|split; [|split]]]; auto.
  - constructor; auto.
    + rewrite F3, (g_occ _ _ _ _ _ G), (al_occ _ _ _ _ A). intros O.
      destruct (i_occ _ _ I _ O) as (t & ->). apply Nl. left. reflexivity.
    + apply keeps_trans with (s2 := s1) (l2 := l1); [apply A|].
      intros x J _ O. rewrite in_app_iff. rewrite F3, (g_occ _ _ _ _ _ G), F2, (g_mem _ _ _ _ _ G).
      destruct (F7 x) as (-> & ->). rewrite (g_same _ _ _ _ _ G) by (intros ->; now apply (g_new _ _ _ _ _ G)).
      repeat split; auto. lia.
    + rewrite F1, (g_haz _ _ _ _ _ G). apply A.
    + apply same_env_trans with (s2 := s1); [apply A|].
      destruct F4 as (B1 & B2 & B3). destruct (g_env _ _ _ _ _ G) as (C1 & C2 & C3). red_s. repeat split; congruence.
  - rewrite F2, (g_mem _ _ _ _ _ G). apply A.
  - destruct Hh as (-> & _). auto.
  - rewrite (inv_cap _ _ _ I2 Il). destruct Hh as (-> & ->). lia.
Qed.

Lemma alloc_spec : forall s l n al, inv s l -> 0 < al -> n < 2 ^ 63 ->
  wp (alloc s n al) (fun x =>
    let (r, s') := x in
    a_haz s' <> [] \/
    exists l', match r with
    | None => refused s s' l l'
    | Some i => granted s s' l l' i None /\ a_mem s' = a_mem s
                /\ h_start (a_hdrs s' i) mod al = 0 /\ n <= capacity (a_hdrs s' i)
    end).
Proof.
  intros s l n al I P Ln. unfold alloc.
  assert (K : wp (alloc_fresh s n al) (fun x =>
    let (r, s') := x in
    a_haz s' <> [] \/
    exists l', match r with
    | None => refused s s' l l'
    | Some i => granted s s' l l' i None /\ a_mem s' = a_mem s
                /\ h_start (a_hdrs s' i) mod al = 0 /\ n <= capacity (a_hdrs s' i)
    end)).
  { apply wp_mono with (1 := alloc_fresh_spec s l n al I P Ln). intros (r, s') [H|(l' & H)]; auto.
    right. exists l'. destruct r; tauto. }
  destruct (a_occ s) as [o|] eqn:Oc; auto.
  destruct ((n <=? capacity (a_hdrs s o)) && is_aligned (a_hdrs s o) al) eqn:C; auto.
  apply andb_true_iff in C. destruct C as (C1 & C2). apply N.leb_le in C1. unfold is_aligned in C2. apply N.eqb_eq in C2.
  rewrite align_offset_zero in C2 by auto. clear K.
  simpl. right. exists l. destruct (i_occ _ _ I _ Oc) as (t & El). split; [|auto].
  constructor; red_s; auto.
  - destruct I. constructor; red_s; auto. discriminate.
  - subst l. left. reflexivity.
  - discriminate.
  - intros x J _ O. red_s. repeat split; auto; try lia. discriminate.
  - repeat split.
Qed.
