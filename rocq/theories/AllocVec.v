(** Vectors over the allocator behave like lists as long as no dangerous event
    happens. *)
From Coq Require Import List NArith Bool Lia.
From Verif Require Import Base BaseFacts Alloc AllocSpec AllocFacts AllocGrow.
Import ListNotations.
Open Scope N_scope.

(** ** Memory *)

Lemma lenN_peek : forall m a n, lenN (peek m a n) = n.
Proof. intros. unfold peek, lenN. rewrite map_length, seq_length. lia. Qed.

Lemma peek_ext : forall m m' a a' n, (forall k, k < n -> m' (a' + k) = m (a + k)) -> peek m' a' n = peek m a n.
Proof.
  intros m m' a a' n H. unfold peek. apply map_ext_in. intros k J. apply in_seq in J. apply H. lia.
Qed.

Lemma peek_app : forall m a n1 n2, peek m a (n1 + n2) = peek m a n1 ++ peek m (a + n1) n2.
Proof.
  intros m a n1 n2. unfold peek. rewrite N2Nat.inj_add, seq_app, map_app. f_equal. simpl.
  generalize (N.to_nat n2) as n. intros n.
  rewrite <- (map_map N.of_nat (fun i => m (a + i))), <- (map_map N.of_nat (fun i => m (a + n1 + i))).
  replace (N.to_nat n1) with (N.to_nat n1 + 0)%nat by lia.
  generalize 0%nat as b. induction n as [|n IH]; intros b; simpl; auto.
  f_equal; [f_equal; lia|]. rewrite <- IH. do 2 f_equal. f_equal. lia.
Qed.

Lemma peek_zero : forall m a, peek m a 0 = [].
Proof. reflexivity. Qed.

Lemma poke_out : forall m a bs x, x < a \/ a + lenN bs <= x -> poke m a bs x = m x.
Proof.
  intros m a bs x H. unfold poke. destruct (N.leb_spec a x); destruct (N.ltb_spec x (a + lenN bs)); simpl; auto. lia.
Qed.

Lemma peek_poke : forall m a bs, peek (poke m a bs) a (lenN bs) = bs.
Proof.
  intros m a bs. unfold peek, lenN at 1. rewrite Nat2N.id.
  apply nth_ext with (d := 0) (d' := 0); rewrite map_length, seq_length; auto.
  intros n L. rewrite (nth_indep _ 0 (poke m a bs (a + N.of_nat 0))) by (rewrite map_length, seq_length; auto).
  rewrite map_nth with (f := fun i => poke m a bs (a + N.of_nat i)). rewrite seq_nth by auto. simpl.
  unfold poke. replace (a <=? a + N.of_nat n) with true by (symmetry; apply N.leb_le; lia).
  replace (a + N.of_nat n <? a + lenN bs) with true by (symmetry; apply N.ltb_lt; unfold lenN; lia).
  simpl. replace (N.to_nat (a + N.of_nat n - a)) with n by lia. reflexivity.
Qed.

(** ** Elements *)

Definition sized (sz : N) (xs : list bytes) : Prop := Forall (fun x => lenN x = sz) xs.

Lemma lenN_concat : forall sz xs, sized sz xs -> lenN (concat xs) = lenN xs * sz.
Proof.
  intros sz xs H. induction H as [|x t E H IH]; [reflexivity|].
  simpl concat. rewrite lenN_app, IH, E. unfold lenN. cbn [length]. rewrite Nat2N.inj_succ, N.mul_succ_l. lia.
Qed.

Lemma firstn_exact : forall (x y : list N), firstn (length x) (x ++ y) = x.
Proof. intros x y. rewrite firstn_app, Nat.sub_diag, firstn_all, firstn_O, app_nil_r. reflexivity. Qed.

Lemma skipn_exact : forall (x y : list N), skipn (length x) (x ++ y) = y.
Proof. intros x y. rewrite skipn_app, Nat.sub_diag, skipn_all, skipn_O. reflexivity. Qed.

Lemma chunks_concat : forall sz xs, sized sz xs -> chunks (N.to_nat (lenN xs)) sz (concat xs) = xs.
Proof.
  intros sz xs H. unfold lenN. rewrite Nat2N.id. induction H as [|x t E H IH]; [reflexivity|].
  cbn [length chunks concat]. assert (L : N.to_nat sz = length x) by (unfold lenN in E; lia).
  rewrite L, firstn_exact, skipn_exact, IH. reflexivity.
Qed.

Lemma sized_app : forall sz xs ys, sized sz xs -> sized sz ys -> sized sz (xs ++ ys).
Proof. intros. apply Forall_app. auto. Qed.

(** ** One vector *)

Record vok (s : ast) (rl : list N) (q : seqn) (v : vec) : Prop := mkvok {
  vk_sz : v_sz v = q_sz q;
  vk_al : v_al v = q_al q;
  vk_lay : layout_ok (q_sz q) (q_al q);
  vk_len : v_len v = lenN (q_items q);
  vk_items : sized (q_sz q) (q_items q);
  vk_zst : q_sz q = 0 -> v_region v = None /\ v_cap v = usz - 1;
  vk_none : q_sz q <> 0 -> v_region v = None -> v_cap v = 0 /\ q_items q = [];
  vk_some : forall i, v_region v = Some i ->
      In i rl /\ a_occ s <> Some i /\ h_start (a_hdrs s i) mod q_al q = 0
      /\ h_start (a_hdrs s i) + lenN (q_items q) * q_sz q <= h_end (a_hdrs s i)
      /\ h_start (a_hdrs s i) + v_cap v * q_sz q <= h_end (a_hdrs s i)
      /\ peek (a_mem s) (h_start (a_hdrs s i)) (lenN (q_items q) * q_sz q) = concat (q_items q) }.

Lemma layout_pos : forall sz al, layout_ok sz al -> 0 < al.
Proof. intros sz al ((k & ->) & _ & _). apply N.neq_0_lt_0, N.pow_nonzero. discriminate. Qed.

Lemma layout_small : forall sz al, layout_ok sz al -> sz < 2 ^ 63.
Proof. intros sz al (_ & _ & L). exact L. Qed.

(** As [keeps], with a set of regions. *)
Definition keepsP (s s' : ast) (l l' : list N) (X : N -> Prop) : Prop :=
  forall r, In r l -> ~ X r -> a_occ s <> Some r ->
    In r l' /\ a_occ s' <> Some r
    /\ h_start (a_hdrs s' r) = h_start (a_hdrs s r)
    /\ h_end (a_hdrs s r) <= h_end (a_hdrs s' r)
    /\ (forall a, h_start (a_hdrs s r) <= a < h_end (a_hdrs s r) -> a_mem s' a = a_mem s a).

(** A region that no live vector of [s] outside [X] can have. *)
Definition fresh (s : ast) (l : list N) (X : N -> Prop) (i : N) : Prop :=
  In i l -> a_occ s <> Some i -> ~ X i -> False.

Definition of (x : option N) : N -> Prop := fun r => x = Some r.

Lemma keeps_P : forall s s' l l' x, keeps s s' l l' x -> keepsP s s' l l' (of x).
Proof. intros s s' l l' x K r J D O. apply (K r J); [|exact O]. intros E. apply D. unfold of. congruence. Qed.

Lemma keepsP_mono : forall s s' l l' (X Y : N -> Prop), (forall r, X r -> Y r) -> keepsP s s' l l' X -> keepsP s s' l l' Y.
Proof. intros s s' l l' X Y H K r J D O. apply (K r J); auto. Qed.

Lemma keepsP_refl : forall s l X, keepsP s s l l X.
Proof. intros s l X r J D O. repeat split; auto; lia. Qed.

Lemma granted_fresh : forall s s' l l' i x, granted s s' l l' i x -> fresh s l (of x) i.
Proof. intros s s' l l' i x G J O D. unfold of in D. destruct (gr_new _ _ _ _ _ _ G) as [E|[E|E]]; [auto|tauto|congruence]. Qed.

(** Doing two things one after the other, the second to what the first gave. *)
Lemma keepsP_trans : forall s1 s2 s3 l1 l2 l3 X Y,
  keepsP s1 s2 l1 l2 X -> keepsP s2 s3 l2 l3 Y ->
  (forall r, Y r -> fresh s1 l1 X r) -> keepsP s1 s3 l1 l3 X.
Proof.
  intros s1 s2 s3 l1 l2 l3 X Y K1 K2 F r J D O.
  destruct (K1 r J D O) as (A1 & A2 & A3 & A4 & A5).
  assert (Ny : ~ Y r) by (intros H; exact (F r H J O D)).
  destruct (K2 r A1 Ny A2) as (B1 & B2 & B3 & B4 & B5).
  split; [auto|]. split; [auto|]. split; [congruence|]. split; [lia|].
  intros a La. rewrite B5 by lia. apply A5. lia.
Qed.

Lemma fresh_trans : forall s1 s2 l1 l2 X Y i,
  keepsP s1 s2 l1 l2 X -> fresh s2 l2 Y i -> (forall r, Y r -> fresh s1 l1 X r) -> fresh s1 l1 X i.
Proof.
  intros s1 s2 l1 l2 X Y i K Fi F J O D.
  destruct (K i J D O) as (A1 & A2 & _). apply (Fi A1 A2). intros y. exact (F i y J O D).
Qed.

Lemma fresh_self : forall s l (X : N -> Prop) i, X i -> fresh s l X i.
Proof. intros s l X i H J O D. auto. Qed.

(** A vector keeps its contents when others change. *)
Lemma vok_keeps : forall s s' rl rl' X q v, vok s rl q v -> keepsP s s' rl rl' X ->
  (forall i, v_region v = Some i -> ~ X i) -> vok s' rl' q v.
Proof.
  intros s s' rl rl' X q v [] K D. constructor; auto.
  intros i Hi. destruct (vk_some0 i Hi) as (A1 & A2 & A3 & A4 & A5 & A6).
  destruct (K i A1 (D i Hi) A2) as (B1 & B2 & B3 & B4 & B5).
  rewrite B3. repeat split; auto; try lia.
  rewrite <- A6. apply peek_ext. intros k L. apply B5. lia.
Qed.

(** Writing into the region the call gave out. *)
Lemma keepsP_write : forall s s1 rl rl1 X j m,
  keepsP s s1 rl rl1 X -> inv s1 rl1 -> In j rl1 -> fresh s rl X j ->
  (forall a, a < h_start (a_hdrs s1 j) \/ h_end (a_hdrs s1 j) <= a -> m a = a_mem s1 a) ->
  keepsP s (set_mem s1 m) rl rl1 X.
Proof.
  intros s s1 rl rl1 X j m K I J F M r Jr D O.
  destruct (K r Jr D O) as (A1 & A2 & A3 & A4 & A5). red_s. repeat split; auto.
  intros a La. rewrite M; [apply A5; lia|].
  assert (r <> j) by (intros ->; exact (F Jr O D)).
  destruct (tile_disjoint _ _ _ _ r j (i_tile _ _ I) A1 J H); lia.
Qed.

(** ** Resizing *)

Definition room (s : ast) (v : vec) : N :=
  match v_region v with
  | Some i => h_end (a_hdrs s i) - h_start (a_hdrs s i)
  | None => 0
  end.

Record changed (s s' : ast) (rl rl' : list N) (X : N -> Prop) (q' : seqn) (v' : vec) : Prop := mkchanged {
  ch_inv : inv s' rl';
  ch_haz : a_haz s' = a_haz s;
  ch_env : same_env s s';
  ch_vok : vok s' rl' q' v';
  ch_keeps : keepsP s s' rl rl' X;
  ch_fresh : forall j, v_region v' = Some j -> fresh s rl X j }.

Lemma changed_refl : forall s rl q v, inv s rl -> vok s rl q v -> changed s s rl rl (of (v_region v)) q v.
Proof.
  intros s rl q v I V. constructor; auto.
  - apply same_env_refl.
  - apply keepsP_refl.
  - intros j Hj. apply fresh_self. exact Hj.
Qed.

Lemma refused_changed : forall s s' rl rl' q v, refused s s' rl rl' -> vok s rl q v ->
  changed s s' rl rl' (of (v_region v)) q v.
Proof.
  intros s s' rl rl' q v R V. pose proof (keeps_P _ _ _ _ _ (re_keeps _ _ _ _ R)) as K.
  constructor; try apply R.
  - apply (vok_keeps s s' rl rl' (of None)); auto. intros i _. unfold of. discriminate.
  - apply (keepsP_mono _ _ _ _ (of None)); auto. unfold of. discriminate.
  - intros j Hj. apply fresh_self. exact Hj.
Qed.

Lemma resize_spec : forall s rl q v n,
  inv s rl -> vok s rl q v -> v_len v + n < usz ->
  wp (resize s v (v_len v) n) (fun x =>
    let '(ok, v', s') := x in
    a_haz s' <> [] \/
    exists rl', changed s s' rl rl' (of (v_region v)) q v'
      /\ (ok = true -> q_sz q <> 0 -> (lenN (q_items q) + n) * q_sz q <= room s' v')).
Proof.
  intros s rl q v n I V Lu. unfold resize, uplus.
  pose proof Lu as Lu'. apply N.ltb_lt in Lu'. rewrite Lu'. cbn [obind].
  pose proof V as [V1 V2 V3 V4 V5 V6 V7 V8].
  assert (Rm : forall i, v_region v = Some i -> room s v = h_end (a_hdrs s i) - h_start (a_hdrs s i)).
  { intros i Hi. unfold room. now rewrite Hi. }
  destruct (N.leb_spec (v_len v + n) (v_cap v)) as [L|L].
  { cbn [wp]. right. exists rl. split; [apply changed_refl; auto|]. intros _ Z.
    rewrite <- V4. destruct (v_region v) as [i|] eqn:Ri.
    - rewrite (Rm i eq_refl). destruct (V8 i eq_refl) as (_ & _ & _ & _ & C & _).
      assert ((v_len v + n) * q_sz q <= v_cap v * q_sz q) by (apply N.mul_le_mono_r; auto). lia.
    - destruct (V7 Z eq_refl) as (C & _). assert (E : v_len v + n = 0) by lia. rewrite E. unfold room. rewrite Ri. lia. }
  rewrite V1. destruct (N.eqb_spec (q_sz q) 0) as [Z|Z].
  { cbn [wp]. right. exists rl. split; [apply changed_refl; auto|]. tauto. }
  destruct (v_region v) as [i|] eqn:Ri.
  2:{ cbn [wp]. right. exists rl. rewrite <- Ri. split; [apply changed_refl; auto|]. discriminate. }
  assert (Cr : changed s s rl rl (of (Some i)) q v) by (rewrite <- Ri; apply changed_refl; auto).
  cbv zeta.
  destruct (_ || _ || _). { cbn [wp]. right. exists rl. split; [auto|discriminate]. }
  destruct (N.ltb_spec max_bytes (v_len v * q_sz q + n * q_sz q)) as [Lm|Lm].
  { cbn [wp]. right. exists rl. split; [auto|discriminate]. }
  destruct (V8 i eq_refl) as (A1 & A2 & A3 & A4 & A5 & A6).
  pose proof (layout_pos _ _ V3) as Pal.
  assert (Cap : capacity (a_hdrs s i) = h_end (a_hdrs s i) - h_start (a_hdrs s i)) by (eapply inv_cap; eauto).
  assert (Dv : forall a, a / q_sz q * q_sz q <= a) by (intros a; rewrite N.mul_comm; apply N.mul_div_le; auto).
  destruct (inv_in _ _ _ I A1) as (_ & Lse & _).
  destruct (N.leb_spec (v_len v * q_sz q + n * q_sz q) (capacity (a_hdrs s i))) as [Lc|Lc].
  { cbn [wp]. right. exists rl. split.
    - constructor; auto.
      + apply same_env_refl.
      + unfold with_region. constructor; cbn [v_sz v_al v_len v_region v_cap]; auto.
        * intros Z'. congruence.
        * discriminate.
        * intros j Hj. injection Hj as <-. repeat split; auto.
          specialize (Dv (capacity (a_hdrs s i))). lia.
      + apply keepsP_refl.
      + cbn. intros j Hj. apply fresh_self. exact Hj.
    - intros _ _. unfold room, with_region. cbn [v_region]. rewrite <- V4. lia. }
  apply wp_bind with (P := fun x => a_haz (snd x) <> [] \/
    exists l', match fst x with
    | None => refused s (snd x) rl l'
    | Some j => granted s (snd x) rl l' j (Some i)
                /\ h_start (a_hdrs (snd x) j) mod q_al q = 0 /\ v_len v * q_sz q + n * q_sz q <= capacity (a_hdrs (snd x) j)
                /\ (forall k, k < v_len v * q_sz q -> a_mem (snd x) (h_start (a_hdrs (snd x) j) + k) = a_mem s (h_start (a_hdrs s i) + k))
    end).
  assert (Lm63 : v_len v * q_sz q + n * q_sz q < 2 ^ 63) by (apply N.le_lt_trans with (1 := Lm); reflexivity).
  { rewrite V2. apply wp_mono with (1 := realloc_spec s rl i (v_len v * q_sz q) (v_len v * q_sz q + n * q_sz q) (q_al q) I A1 A2 Pal A3 ltac:(lia) Lc Lm63).
    intros (r, s1). auto. }
  intros (r, s1) H. cbn [fst snd] in H.
  destruct H as [H|(l' & H)]. { destruct r; simpl; auto. }
  destruct r as [j|].
  2:{ cbn [wp]. right. exists l'. split; [|discriminate]. rewrite <- Ri. apply refused_changed; auto. }
  destruct H as (G & Ma & Cp & Mm).
  pose proof (gr_inv _ _ _ _ _ _ G) as I1. pose proof (gr_in _ _ _ _ _ _ G) as J1.
  pose proof (inv_cap _ _ _ I1 J1) as Cap1. destruct (inv_in _ _ _ I1 J1) as (_ & Lse1 & _).
  cbn [wp]. right. exists l'. split.
  - constructor; try apply G.
    + unfold with_region. constructor; cbn [v_sz v_al v_len v_region v_cap]; auto.
      * congruence.
      * discriminate.
      * intros j' Hj. injection Hj as <-. rewrite <- V4.
        split; [auto|]. split; [apply G|]. split; [auto|]. split; [lia|]. split.
        { specialize (Dv (capacity (a_hdrs s1 j))). lia. }
        { rewrite <- A6, <- V4. apply peek_ext. exact Mm. }
    + apply keeps_P. apply G.
    + cbn. intros j' Hj. injection Hj as <-. exact (granted_fresh _ _ _ _ _ _ G).
  - intros _ _. unfold room, with_region. cbn [v_region]. rewrite <- V4. lia.
Qed.

(** ** Writing *)

Lemma mul_mod_al : forall n sz al, 0 < al -> sz mod al = 0 -> (n * sz) mod al = 0.
Proof.
  intros n sz al P H. rewrite N.mul_mod, H, N.mul_0_r by lia. apply N.mod_0_l. lia.
Qed.

Lemma sum_mod_al : forall a b al, 0 < al -> a mod al = 0 -> b mod al = 0 -> (a + b) mod al = 0.
Proof. intros a b al P H1 H2. rewrite N.add_mod, H1, H2 by lia. simpl. apply N.mod_0_l. lia. Qed.

Lemma extend_slice_spec : forall s rl q v items,
  inv s rl -> vok s rl q v -> sized (q_sz q) items -> lenN (q_items q) + lenN items < usz ->
  wp (vec_extend_from_slice s v (lenN items) (concat items)) (fun x =>
    let '(ok, v', s') := x in
    a_haz s' <> [] \/
    exists rl', changed s s' rl rl' (of (v_region v))
                  (if ok then with_items q (q_items q ++ items) else q) v').
Proof.
  intros s rl q v items I V Sz Lu. unfold vec_extend_from_slice.
  pose proof V as [V1 V2 V3 V4 V5 V6 V7 V8]. rewrite V1.
  pose proof (layout_pos _ _ V3) as Pal.
  destruct (N.eqb_spec (q_sz q) 0) as [Z|Z].
  { unfold uplus. rewrite V4. pose proof Lu as Lu'. apply N.ltb_lt in Lu'. rewrite Lu'. cbn [obind wp].
    right. exists rl. destruct (V6 Z) as (Rn & Cn). constructor; auto.
    - apply same_env_refl.
    - unfold with_len, with_items. constructor; cbn [v_sz v_al v_len v_region v_cap q_sz q_al q_items]; auto.
      + rewrite lenN_app. reflexivity.
      + apply sized_app; auto.
      + tauto.
      + rewrite Rn. discriminate.
    - apply keepsP_refl.
    - unfold with_len. cbn. rewrite Rn. discriminate. }
  apply wp_bind with (P := fun x => a_haz (snd x) <> [] \/
    exists rl', changed s (snd x) rl rl' (of (v_region v)) q (snd (fst x))
      /\ (fst (fst x) = true -> q_sz q <> 0 -> (lenN (q_items q) + lenN items) * q_sz q <= room (snd x) (snd (fst x)))).
  { apply wp_mono with (1 := resize_spec s rl q v (lenN items) I V ltac:(rewrite V4; exact Lu)).
    intros ((ok, v'), s'). auto. }
  intros ((ok, v'), s1) H. cbn [fst snd] in H.
  destruct H as [H|(rl' & C & R)].
  { destruct ok; cbn [negb]; [|left; exact H].
    apply wp_bind with (1 := write_dirty s1 _ _ _ H). intros s2 H2.
    apply wp_bind with (1 := uplus_dirty s2 _ _ H2). intros l _. left. exact H2. }
  destruct ok; cbn [negb].
  2:{ cbn [wp]. right. exists rl'. exact C. }
  specialize (R eq_refl Z).
  pose proof (ch_vok _ _ _ _ _ _ _ C) as V'. pose proof V' as [W1 W2 W3 W4 W5 W6 W7 W8].
  pose proof (ch_inv _ _ _ _ _ _ _ C) as I1.
  rewrite W1, W2, W4.
  pose proof (lenN_concat _ _ Sz) as Lc.
  assert (Up : forall s2, a_dbg s2 = a_dbg s1 -> uplus s2 (lenN (q_items q)) (lenN items) = Done (lenN (q_items q) + lenN items)).
  { intros s2 _. unfold uplus. pose proof Lu as Lu'. apply N.ltb_lt in Lu'. now rewrite Lu'. }
  destruct (v_region v') as [j|] eqn:Rj.
  - destruct (W8 j eq_refl) as (A1 & A2 & A3 & A4 & A5 & A6).
    unfold room in R. rewrite Rj in R.
    assert (Ap : as_ptr s1 v' = h_start (a_hdrs s1 j)).
    { unfold as_ptr. rewrite W1, Rj. apply N.eqb_neq in Z. now rewrite Z. }
    rewrite Ap. unfold write_elems, write_data. rewrite Lc.
    rewrite N.mul_add_distr_r in R.
    destruct (inv_in _ _ _ I1 A1) as (_ & Lse & _).
    replace ((lenN items * q_sz q =? 0) || ((h_start (a_hdrs s1 j) + lenN (q_items q) * q_sz q) mod q_al q =? 0)) with true.
    2:{ symmetry. apply orb_true_iff. right. apply N.eqb_eq. destruct W3 as (_ & Md & _).
        apply sum_mod_al; auto. apply mul_mod_al; auto. }
    rewrite (in_data_region s1 rl' j) by (auto; lia).
    cbn [obind]. rewrite Up by reflexivity. cbn [obind wp]. right. exists rl'.
    constructor.
    + apply inv_set_mem. exact I1.
    + red_s. apply C.
    + apply C.
    + unfold with_len, with_items. constructor; cbn [v_sz v_al v_len v_region v_cap q_sz q_al q_items]; auto.
      * rewrite lenN_app. reflexivity.
      * apply sized_app; auto.
      * tauto.
      * rewrite Rj. discriminate.
      * rewrite Rj. intros i Hi. injection Hi as <-. red_s.
        rewrite lenN_app, concat_app, N.mul_add_distr_r. repeat split; auto; try lia.
        rewrite peek_app. f_equal.
        -- rewrite <- A6. apply peek_ext. intros k Lk. apply poke_out. lia.
        -- rewrite <- Lc. apply peek_poke.
    + apply (keepsP_write s s1 rl rl' _ j); auto; try apply C.
      * exact Rj.
      * intros a La. apply poke_out. lia.
    + unfold with_len. cbn [v_region]. apply C.
  - destruct (W7 Z eq_refl) as (C0 & Q0). unfold room in R. rewrite Rj in R.
    assert (E0 : lenN items = 0).
    { destruct (N.eq_dec (lenN items) 0) as [E|E]; auto. exfalso.
      assert (1 * 1 <= (lenN (q_items q) + lenN items) * q_sz q) by (apply N.mul_le_mono; lia). lia. }
    unfold write_elems, write_data, in_data. rewrite Lc, E0, N.mul_0_l. cbn [N.eqb orb obind].
    assert (Ei : items = []) by (destruct items; [auto|unfold lenN in E0; simpl in E0; lia]).
    rewrite E0 in Up. rewrite Up by reflexivity. cbn [obind wp]. right. exists rl'.
    subst items. constructor.
    + apply inv_set_mem. exact I1.
    + red_s. apply C.
    + apply C.
    + unfold with_len, with_items. constructor; cbn [v_sz v_al v_len v_region v_cap q_sz q_al q_items]; auto.
      * rewrite app_nil_r. lia.
      * rewrite app_nil_r. auto.
      * tauto.
      * rewrite app_nil_r. intros _ _. auto.
      * rewrite Rj. discriminate.
    + intros r J D O. destruct (ch_keeps _ _ _ _ _ _ _ C r J D O) as (B1 & B2 & B3 & B4 & B5). red_s.
      repeat split; auto. intros a La. rewrite poke_out; auto. unfold lenN. simpl. lia.
    + unfold with_len. cbn [v_region]. apply C.
Qed.

(** ** Making and dropping *)

Definition nobody : N -> Prop := of None.

Lemma new_spec : forall s rl sz al, inv s rl -> layout_ok sz al ->
  wp (vec_new s sz al) (fun x =>
    a_haz (snd x) <> [] \/ exists rl', changed s (snd x) rl rl' nobody (mkq sz al []) (fst x)).
Proof.
  intros s rl sz al I Ly. unfold vec_new. pose proof (layout_pos _ _ Ly) as P.
  destruct (N.eqb_spec sz 0) as [Z|Z].
  - cbn [wp fst snd]. right. exists rl. constructor; auto.
    + apply same_env_refl.
    + constructor; cbn; auto; try tauto; try discriminate. constructor.
    + apply keepsP_refl.
    + cbn. discriminate.
  - apply wp_bind with (1 := alloc_spec s rl 0 al I P ltac:(reflexivity)).
    intros (r, s1) H. cbn [wp fst snd]. destruct H as [H|(l' & H)]; [auto|]. right. exists l'.
    destruct r as [i|].
    + destruct H as (G & Em & Ma & _). constructor; try apply G.
      * constructor; cbn [v_sz v_al v_len v_region v_cap q_sz q_al q_items]; auto; try tauto; try discriminate.
        -- constructor.
        -- intros j Hj. injection Hj as <-. destruct (inv_in _ _ _ (gr_inv _ _ _ _ _ _ G) (gr_in _ _ _ _ _ _ G)) as (_ & L & _).
           repeat split; auto; try apply G; simpl; try lia.
      * apply keeps_P. apply G.
      * cbn. intros j Hj. injection Hj as <-. exact (granted_fresh _ _ _ _ _ _ G).
    + constructor; try apply H.
      * constructor; cbn [v_sz v_al v_len v_region v_cap q_sz q_al q_items]; auto; try tauto; try discriminate. constructor.
      * apply keeps_P. apply H.
      * cbn. discriminate.
Qed.

Lemma drop_spec : forall s rl q v, inv s rl -> vok s rl q v ->
  exists s' rl', drop_vec s v = Done s' /\ inv s' rl' /\ a_haz s' = a_haz s /\ same_env s s'
    /\ a_mem s' = a_mem s /\ keepsP s s' rl rl' (of (v_region v)).
Proof.
  intros s rl q v I V. unfold drop_vec.
  assert (K : forall x, exists s' rl', Done s = Done s' /\ inv s' rl' /\ a_haz s' = a_haz s /\ same_env s s'
    /\ a_mem s' = a_mem s /\ keepsP s s' rl rl' x).
  { intros x. exists s, rl. split; [auto|]. split; [exact I|]. split; [auto|]. split; [apply same_env_refl|]. split; [auto|]. apply keepsP_refl. }
  destruct (v_sz v =? 0); [apply K|]. destruct (v_region v) as [i|] eqn:Ri; [|apply K].
  destruct (vk_some _ _ _ _ V i Ri) as (A1 & A2 & _).
  destruct (free_spec s rl i I A1 A2) as (s' & l' & F & I' & Kp & Hz & Hm & He & _).
  exists s', l'. split; [auto|]. split; [auto|]. split; [auto|]. split; [auto|]. split; [auto|]. now apply keeps_P.
Qed.

Lemma with_capacity_spec : forall s rl sz al n, inv s rl -> layout_ok sz al -> n < usz ->
  wp (vec_with_capacity s sz al n) (fun x =>
    a_haz (snd x) <> [] \/
    exists rl', match fst x with
    | Some v => changed s (snd x) rl rl' nobody (mkq sz al []) v
    | None => inv (snd x) rl' /\ a_haz (snd x) = a_haz s /\ same_env s (snd x) /\ keepsP s (snd x) rl rl' nobody
    end).
Proof.
  intros s rl sz al n I Ly Ln. unfold vec_with_capacity.
  apply wp_bind with (1 := new_spec s rl sz al I Ly).
  intros (v, s1) H. cbn [fst snd] in H.
  assert (D : a_haz s1 <> [] ->
    wp (let! (ok, v, s) := resize s1 v 0 n in if ok : bool then Done (Some v, s) else let! s := drop_vec s v in Done (None, s))
     (fun x : option vec * ast => a_haz (snd x) <> [])).
  { intros Hd. apply wp_bind with (1 := resize_dirty s1 v 0 n Hd). intros ((ok, v'), s2) H2. cbn [snd] in H2.
    destruct ok; [exact H2|]. apply wp_bind with (1 := drop_dirty s2 v' H2). intros s3 H3. exact H3. }
  destruct H as [H|(rl1 & C)]. { apply wp_mono with (1 := D H). auto. }
  clear D. pose proof (ch_vok _ _ _ _ _ _ _ C) as V. pose proof (vk_len _ _ _ _ V) as L0. cbn in L0.
  pose proof (resize_spec s1 rl1 _ v n (ch_inv _ _ _ _ _ _ _ C) V ltac:(rewrite L0; exact Ln)) as R.
  rewrite L0 in R.
  apply wp_bind with (1 := R).
  assert (Fr : forall r, of (v_region v) r -> fresh s rl nobody r).
  { intros r Hr. apply C. exact Hr. }
  intros ((ok, v'), s2) [H|(rl2 & C2 & _)].
  { destruct ok; [left; exact H|]. apply wp_bind with (1 := drop_dirty s2 v' H). intros s3 H3. left. exact H3. }
  destruct ok.
  - cbn [wp fst snd]. right. exists rl2. constructor; try apply C2.
    + rewrite (ch_haz _ _ _ _ _ _ _ C2). apply C.
    + apply same_env_trans with (s2 := s1); [apply C|apply C2].
    + apply keepsP_trans with (1 := ch_keeps _ _ _ _ _ _ _ C) (2 := ch_keeps _ _ _ _ _ _ _ C2). exact Fr.
    + intros j Hj. apply fresh_trans with (1 := ch_keeps _ _ _ _ _ _ _ C) (Y := of (v_region v)); auto. apply C2. exact Hj.
  - destruct (drop_spec s2 rl2 _ v' (ch_inv _ _ _ _ _ _ _ C2) (ch_vok _ _ _ _ _ _ _ C2)) as (s3 & rl3 & Dr & I3 & Hz & He & _ & Kp).
    rewrite Dr. cbn [obind wp fst snd]. right. exists rl3. split; [auto|].
    split; [rewrite Hz, (ch_haz _ _ _ _ _ _ _ C2); apply C|].
    split; [apply same_env_trans with (s2 := s1); [apply C|apply same_env_trans with (s2 := s2); [apply C2|auto]]|].
    apply keepsP_trans with (s2 := s1) (l2 := rl1) (Y := of (v_region v)); [apply C| |exact Fr].
    apply keepsP_trans with (1 := ch_keeps _ _ _ _ _ _ _ C2) (2 := Kp). intros r Hr. apply C2. exact Hr.
Qed.

Lemma box_spec : forall s rl sz al value, inv s rl -> layout_ok sz al -> lenN value = sz ->
  wp (box_new s sz al value) (fun x =>
    a_haz (snd x) <> [] \/
    exists rl', match fst x with
    | Some v => changed s (snd x) rl rl' nobody (mkq sz al [value]) v
    | None => inv (snd x) rl' /\ a_haz (snd x) = a_haz s /\ same_env s (snd x) /\ keepsP s (snd x) rl rl' nobody
    end).
Proof.
  intros s rl sz al value I Ly Lv. unfold box_new. pose proof (layout_small _ _ Ly) as Lm. pose proof (layout_pos _ _ Ly) as P.
  destruct (N.eqb_spec sz 0) as [Z|Z].
  - cbn [wp fst snd]. right. exists rl. constructor; auto.
    + apply same_env_refl.
    + constructor; cbn [v_sz v_al v_len v_region v_cap q_sz q_al q_items]; auto; try tauto; try discriminate.
      repeat constructor. exact Lv.
    + apply keepsP_refl.
    + cbn. discriminate.
  - apply wp_bind with (1 := alloc_spec s rl sz al I P Lm).
    intros (r, s1) H. destruct r as [i|].
    2:{ cbn [wp fst snd]. destruct H as [H|(l' & H)]; [auto|]. right. exists l'. split; [apply H|]. split; [apply H|].
        split; [apply H|]. apply keeps_P. apply H. }
    destruct H as [H|(l' & G & Em & Ma & Ca)].
    { apply wp_bind with (1 := write_dirty s1 _ _ _ H). intros s2 H2. left. exact H2. }
    pose proof (gr_inv _ _ _ _ _ _ G) as I1. pose proof (gr_in _ _ _ _ _ _ G) as J1.
    rewrite (inv_cap _ _ _ I1 J1) in Ca. destruct (inv_in _ _ _ I1 J1) as (_ & L & _).
    unfold write_elems, write_data. rewrite Ma. cbn [N.eqb]. rewrite orb_true_r.
    rewrite (in_data_region s1 l' i) by (auto; lia). cbn [obind wp fst snd]. right. exists l'.
    constructor.
    + apply inv_set_mem. exact I1.
    + red_s. apply G.
    + apply G.
    + constructor; cbn [v_sz v_al v_len v_region v_cap q_sz q_al q_items]; auto; try tauto; try discriminate.
      * repeat constructor. exact Lv.
      * intros j Hj. injection Hj as <-. red_s. change (lenN [value]) with 1. rewrite N.mul_1_l.
        repeat split; auto; try apply G; try lia.
        cbn [concat]. rewrite app_nil_r, <- Lv. apply peek_poke.
    + apply (keepsP_write s s1 rl l' _ i); auto.
      * apply keeps_P. apply G.
      * exact (granted_fresh _ _ _ _ _ _ G).
      * intros a La. apply poke_out. lia.
    + cbn. intros j Hj. injection Hj as <-. exact (granted_fresh _ _ _ _ _ _ G).
Qed.
