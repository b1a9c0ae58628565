(** Facts about readers and writers. *)
From Verif Require Import Base BaseFacts Options Int IntFacts IO IOSpec.
From Coq Require Import ZifyBool ZifyNat ZifyN.
Local Open Scope N_scope.

(** ** Lists *)

Lemma skipn_add {A} a b (l : list A) : skipn a (skipn b l) = skipn (b + a) l.
Proof.
  revert l; induction b as [|b IH]; intros l; [reflexivity|].
  destruct l; cbn; [now rewrite skipn_nil|apply IH].
Qed.

Lemma lenN_skipn {A} (l : list A) n : lenN (skipn (N.to_nat n) l) = lenN l - n.
Proof. unfold lenN. rewrite skipn_length. lia. Qed.

Lemma lenN_firstn {A} (l : list A) n : n <= lenN l -> lenN (firstn (N.to_nat n) l) = n.
Proof. unfold lenN. rewrite firstn_length. lia. Qed.

Lemma sub_len inp c n : c + n <= lenN inp -> lenN (sub inp c n) = n.
Proof. intros H. unfold sub. apply lenN_firstn. rewrite lenN_skipn. lia. Qed.

Lemma load_len mem s n : lenN (load mem s n) = n.
Proof. unfold load, lenN. rewrite map_length, seq_length. lia. Qed.

Lemma load_app mem s a b :
  load mem s (a + b) = load mem s a ++ load mem (s + a) b.
Proof.
  unfold load. replace (N.to_nat (a + b)) with (N.to_nat a + N.to_nat b)%nat by lia.
  rewrite seq_app, map_app. f_equal.
  assert (G : forall m k j, map (fun i => mem (s + N.of_nat i)) (seq (k + j) m) =
              map (fun i => mem (s + N.of_nat k + N.of_nat i)) (seq j m)).
  { induction m as [|m IH]; intros k j; [reflexivity|]. cbn [seq map].
    f_equal; [f_equal; lia|]. rewrite <- (IH k (S j)). do 2 f_equal. lia. }
  specialize (G (N.to_nat b) (N.to_nat a) 0%nat). rewrite Nat.add_0_r, N2Nat.id in G. exact G.
Qed.

Lemma app_len_inj {A} (a b c d : list A) :
  a ++ b = c ++ d -> length a = length c -> a = c /\ b = d.
Proof.
  revert c; induction a as [|x a IH]; intros [|y c] H L; cbn in *; try discriminate; auto.
  injection H as -> H. destruct (IH c H) as [-> ->]; [lia|auto].
Qed.

(** ** Readers *)

(** [r] has [inp] from position [c] on in front of it. *)
Fixpoint at_ (p : plat) (mem : N -> N) (inp : bytes) (c : N) (r : reader) : Prop :=
  match r with
  | RSlice s => c <= lenN inp /\ s = skipn (N.to_nat c) inp
  | RPtr start end_ =>
      c <= lenN inp /\ end_ = start + (lenN inp - c) /\ end_ < 2 ^ usize_bits p /\
      load mem start (lenN inp - c) = skipn (N.to_nat c) inp
  | RLimit _ r' => at_ p mem inp c r'
  end.

Lemma reads_at p mem r inp : reads p mem r inp -> at_ p mem inp 0 r.
Proof.
  destruct r as [s|s e|]; cbn; [|intros (->&H1&H2)|easy].
  - intros ->. split; [lia|reflexivity].
  - rewrite N.sub_0_r. repeat split; auto; lia.
Qed.

Lemma at_le p mem inp c r : at_ p mem inp c r -> c <= lenN inp.
Proof. induction r; cbn; intuition. Qed.

Lemma slice_split inp c n :
  c + n <= lenN inp ->
  take_opt n (skipn (N.to_nat c) inp) = Some (sub inp c n, skipn (N.to_nat (c + n)) inp).
Proof.
  intros H. rewrite take_opt_spec, lenN_skipn.
  destruct (N.leb_spec n (lenN inp - c)); [|lia].
  unfold sub. rewrite skipn_add. do 3 f_equal. lia.
Qed.

Definition clean (m : meth) : bool := match m with MReadByte | MReadArray => false | _ => true end.

Lemma slice_case inp c n m s :
  c <= lenN inp -> s = skipn (N.to_nat c) inp -> (m = MReadByte -> n = 1) ->
  (match m with
   | MReadByte => match s with [] => (None, RSlice s, 0) | b :: t => (Some [b], RSlice t, 1) end
   | _ => match take_opt n s with None => (None, RSlice s, 0) | Some (h, t) => (Some h, RSlice t, n) end
   end) =
  if c + n <=? lenN inp
  then (Some (sub inp c n), RSlice (skipn (N.to_nat (c + n)) inp), n)
  else (None, RSlice s, 0).
Proof.
  intros Hc -> Hm.
  assert (E : match m with
   | MReadByte => match skipn (N.to_nat c) inp with [] => (None, RSlice (skipn (N.to_nat c) inp), 0)
                  | b :: t => (Some [b], RSlice t, 1) end
   | _ => match take_opt n (skipn (N.to_nat c) inp) with
          | None => (None, RSlice (skipn (N.to_nat c) inp), 0)
          | Some (h, t) => (Some h, RSlice t, n) end
   end = match take_opt n (skipn (N.to_nat c) inp) with
         | None => (None, RSlice (skipn (N.to_nat c) inp), 0)
         | Some (h, t) => (Some h, RSlice t, n) end).
  { destruct m; try reflexivity. rewrite (Hm eq_refl).
    destruct (skipn (N.to_nat c) inp) as [|b t]; [reflexivity|]. cbn. destruct t; reflexivity. }
  rewrite E. destruct (N.leb_spec (c + n) (lenN inp)) as [H|H].
  - now rewrite slice_split.
  - destruct (take_opt n (skipn (N.to_nat c) inp)) as [[h t]|] eqn:T; [|reflexivity].
    apply take_opt_some in T as [T1 T2]. apply (f_equal lenN) in T1.
    rewrite lenN_skipn, lenN_app in T1. lia.
Qed.

Lemma bounds_ok p start end_ n :
  start <= end_ -> end_ < 2 ^ usize_bits p -> n < 2 ^ usize_bits p ->
  bounds_check_add p start end_ n = if start + n <=? end_ then Some (start + n) else None.
Proof.
  intros H1 H2 H3. unfold bounds_check_add. set (M := 2 ^ usize_bits p) in *.
  destruct (N.leb_spec (start + n) end_) as [H|H].
  - rewrite N.mod_small by lia.
    destruct (N.ltb_spec end_ (start + n)); [lia|].
    destruct (N.ltb_spec (start + n) start); [lia|]. reflexivity.
  - destruct (N.lt_ge_cases (start + n) M).
    + rewrite N.mod_small by lia. destruct (N.ltb_spec end_ (start + n)); [reflexivity|lia].
    + replace ((start + n) mod M) with (start + n - M).
      * destruct (N.ltb_spec (start + n - M) start); [now rewrite orb_true_r|lia].
      * symmetry. replace (start + n) with (start + n - M + 1 * M) at 1 by lia.
        rewrite N.mod_add by lia. apply N.mod_small. lia.
Qed.

(** The amount by which the context is advanced by a successful call. *)
Fixpoint adv (m : meth) (n : N) (r : reader) : N :=
  match r with
  | RSlice _ => n
  | RPtr _ _ => match m with MReadByte | MReadArray => n + n | _ => n end
  | RLimit _ r' => adv m n r'
  end.

Lemma Forall2_le_refl l : Forall2 N.le l l.
Proof. induction l; constructor; auto; lia. Qed.

Lemma rtake_spec p mem inp m n r c :
  at_ p mem inp c r -> n < 2 ^ usize_bits p -> (m = MReadByte -> n = 1) ->
  (permitted inp c (limits r) n /\
   exists r', rtake p mem m n r = (Some (sub inp c n), r', adv m n r) /\
              at_ p mem inp (c + n) r' /\ limits r' = map (fun l => l - n) (limits r) /\
              forall m' n', adv m' n' r' = adv m' n' r) \/
  (~ permitted inp c (limits r) n /\
   exists r', rtake p mem m n r = (None, r', 0) /\
              at_ p mem inp c r' /\ Forall2 N.le (limits r') (limits r) /\
              forall m' n', adv m' n' r' = adv m' n' r).
Proof.
  intros Hat Hn Hm. induction r as [s|s e|rem r IH]; cbn [at_ rtake limits adv] in *.
  - destruct Hat as [Hc Hs]. rewrite (slice_case inp c n m s Hc Hs Hm).
    destruct (N.leb_spec (c + n) (lenN inp)) as [H|H].
    + left. split; [split; [lia|constructor]|]. eexists; repeat split; lia.
    + right. split; [intros [A _]; lia|]. eexists; repeat split; auto. constructor.
  - destruct Hat as (Hc&He&HW&HL).
    rewrite bounds_ok by lia.
    destruct (N.leb_spec (s + n) e) as [H|H].
    + left. split; [split; [lia|constructor]|].
      replace (lenN inp - c) with (n + (lenN inp - (c + n))) in HL by lia.
      rewrite load_app in HL.
      assert (E : skipn (N.to_nat c) inp = sub inp c n ++ skipn (N.to_nat (c + n)) inp).
      { unfold sub. rewrite <- (firstn_skipn (N.to_nat n) (skipn (N.to_nat c) inp)) at 1.
        rewrite skipn_add. do 2 f_equal. lia. }
      rewrite E in HL. apply app_len_inj in HL as [HL1 HL2].
      * rewrite HL1. eexists. split; [reflexivity|]. repeat split; auto; lia.
      * pose proof (load_len mem s n) as A. pose proof (sub_len inp c n) as B.
        unfold lenN in *. lia.
    + right. split; [intros [A _]; lia|]. eexists; repeat split; auto. constructor.
  - destruct (N.ltb_spec rem n) as [H|H].
    + right. split; [intros [_ A]; inversion A; subst; lia|].
      eexists; repeat split; auto. apply (Forall2_le_refl (rem :: limits r)).
    + destruct (IH Hat) as [[Hp (r'&E&A&L&V)]|[Hp (r'&E&A&L&V)]]; rewrite E; clear IH.
      * left. split; [destruct Hp; split; auto|]. eexists. repeat split; auto.
        cbn. now rewrite L.
      * right. split; [intros [X Y]; inversion Y; subst; apply Hp; split; auto|].
        eexists. repeat split; auto. cbn. constructor; [lia|auto].
Qed.

Lemma permitted_1 inp c ls :
  c <= lenN inp -> ~ permitted inp c ls 1 <-> (c = lenN inp \/ In 0 ls).
Proof.
  intros Hc. unfold permitted. split.
  - intros H. destruct (N.eq_dec c (lenN inp)) as [|E]; [auto|]. right.
    destruct (in_dec N.eq_dec 0 ls) as [|NI]; [auto|]. exfalso. apply H. split; [lia|].
    apply Forall_forall. intros x Hx. destruct (N.eq_dec x 0); [subst; tauto|lia].
  - intros [->|I] [A B]; [lia|]. rewrite Forall_forall in B. apply B in I. lia.
Qed.

Lemma sub_1 inp c : c < lenN inp -> exists b, sub inp c 1 = [b].
Proof.
  intros H. pose proof (sub_len inp c 1 ltac:(lia)) as L. unfold lenN in L.
  destruct (sub inp c 1) as [|b [|]]; cbn in L; try lia. eauto.
Qed.

Lemma rpeek_spec p mem inp c r :
  at_ p mem inp c r ->
  forall b, rpeek mem r = Some b <-> permitted inp c (limits r) 1 /\ sub inp c 1 = [b].
Proof.
  intros Hat b. pose proof (at_le _ _ _ _ _ Hat) as Hc.
  induction r as [s|s e|rem r IH]; cbn [at_ rpeek limits] in *.
  - destruct Hat as [_ ->]. unfold permitted, sub.
    pose proof (lenN_skipn inp c) as L.
    destruct (skipn (N.to_nat c) inp) as [|x t]; unfold lenN in *; cbn in *.
    + split; [discriminate|intros [_ ?]; discriminate].
    + split; [intros [= ->]; repeat split; auto; lia|intros [_ [= ->]]; reflexivity].
  - destruct Hat as (_&He&HW&HL). unfold permitted.
    destruct (N.eqb_spec s e) as [E|E].
    + split; [discriminate|]. intros [[A _] _]. lia.
    + replace (lenN inp - c) with (1 + (lenN inp - (c + 1))) in HL by lia.
      rewrite load_app in HL. unfold sub. rewrite <- HL.
      change (load mem s 1) with [mem (s + 0)]. rewrite N.add_0_r.
      change (firstn (N.to_nat 1) ([mem s] ++ load mem (s + 1) (lenN inp - (c + 1)))) with [mem s].
      split; [intros [= ->]; repeat split; auto; lia|intros [_ [= ->]]; reflexivity].
  - destruct (N.ltb_spec 0 rem) as [H|H].
    + rewrite (IH Hat). unfold permitted. split; intros [[A B] C]; repeat split; auto.
      * constructor; [lia|auto].
      * now inversion B.
    + split; [discriminate|]. intros [[A B] C]. inversion B; subst. lia.
Qed.

Lemma reof_spec p mem inp c r :
  at_ p mem inp c r -> reof r = true <-> ~ permitted inp c (limits r) 1.
Proof.
  intros Hat. pose proof (at_le _ _ _ _ _ Hat) as Hc. rewrite permitted_1 by auto.
  induction r as [s|s e|rem r IH]; cbn [at_ reof limits] in *.
  - destruct Hat as [_ ->]. pose proof (lenN_skipn inp c) as L.
    destruct (skipn (N.to_nat c) inp); unfold lenN in *; cbn in *; split; auto; try lia;
      intros; try discriminate; intuition lia.
  - destruct Hat as (_&He&HW&HL). destruct (N.eqb_spec s e); split; auto; try lia;
      intros; try discriminate; cbn in *; intuition lia.
  - rewrite orb_true_iff, (IH Hat), N.eqb_eq. cbn. intuition.
Qed.

Lemma at_drop p mem inp c r :
  at_ p mem inp c r -> at_ p mem inp c (match r with RLimit _ r' => r' | _ => r end).
Proof. destruct r; auto. Qed.

Lemma limits_drop r : limits (match r with RLimit _ r' => r' | _ => r end) = tl (limits r).
Proof. destruct r; reflexivity. Qed.

Lemma pow_gt1 p : 1 < 2 ^ usize_bits p.
Proof. unfold usize_bits, ptr_bits. destruct (ptr p); reflexivity. Qed.

Lemma amount_ok p m n : n < 2 ^ usize_bits p -> amount m n < 2 ^ usize_bits p.
Proof. pose proof (pow_gt1 p). destruct m; cbn; auto. Qed.

Lemma rrun_right p mem inp us : forall r pos c h st,
  Forall (op_ok p) us -> at_ p mem inp c r -> rrun p mem us (r, pos) = (h, st) ->
  right inp c (limits r) h /\ consumed h + c <= lenN inp /\
  at_ p mem inp (c + consumed h) (fst st).
Proof.
  induction us as [|u us IH]; intros r pos c h st Hok Hat E; cbn [rrun] in E.
  - injection E as <- <-. cbn. rewrite N.add_0_r. repeat split; auto; [constructor|].
    apply at_le in Hat. lia.
  - inversion Hok as [|? ? Hu Hus]; subst.
    destruct (rstep p mem u (r, pos)) as [e st1] eqn:S1.
    destruct (rrun p mem us st1) as [h' st2] eqn:S2.
    injection E as <- <-. destruct u as [m n| | |n|]; cbn [rstep] in S1; cbn in Hu.
    + destruct (rtake_spec p mem inp m (amount m n) r c Hat) as
        [[Hp (r'&T&A&L&V)]|[Hp (r'&T&A&L&V)]];
        [now apply amount_ok|intros ->; reflexivity| |];
        rewrite T in S1; injection S1 as <- <-.
      * destruct (IH _ _ _ _ _ Hus A S2) as (R&C&F). rewrite L in R.
        assert (X : consumed ((UTake m n, match m with MSkip => EDone
                    | _ => EBytes (sub inp c (amount m n)) end) :: h') = amount m n + consumed h')
          by (destruct m; reflexivity).
        rewrite X. repeat split; [|lia|now rewrite N.add_assoc].
        destruct m; try (apply right_take; [discriminate|assumption|assumption]).
        now apply right_skip.
      * destruct (IH _ _ _ _ _ Hus A S2) as (R&C&F). cbn. repeat split; auto.
        eapply right_fail; eauto.
    + injection S1 as <- <-. destruct (IH _ _ _ _ _ Hus Hat S2) as (R&C&F). cbn.
      repeat split; auto. apply right_peek; auto. eapply rpeek_spec; eauto.
    + injection S1 as <- <-. destruct (IH _ _ _ _ _ Hus Hat S2) as (R&C&F). cbn.
      repeat split; auto. apply right_eof; auto. eapply reof_spec; eauto.
    + injection S1 as <- <-.
      destruct (IH (RLimit n r) pos c h' st2 Hus Hat S2) as (R&C&F). cbn.
      repeat split; auto. now apply right_limit.
    + injection S1 as <- <-.
      destruct (IH _ pos c h' st2 Hus (at_drop _ _ _ _ _ Hat) S2) as (R&C&F). cbn.
      repeat split; auto. apply right_drop. now rewrite limits_drop in R.
Qed.

(** ** Consequences of being right *)

Lemma right_delivered inp c ls h :
  right inp c ls h -> c <= lenN inp ->
  c + consumed h <= lenN inp /\ matches (delivered h) (sub inp c (consumed h)).
Proof.
  assert (Z : forall c, sub inp c 0 = []) by reflexivity.
  assert (AP : forall c a b, sub inp c (a + b) = sub inp c a ++ sub inp (c + a) b).
  { intros k a b. unfold sub. replace (N.to_nat (a + b)) with (N.to_nat a + N.to_nat b)%nat by lia.
    replace (N.to_nat (k + a)) with (N.to_nat k + N.to_nat a)%nat by lia.
    rewrite <- (skipn_add (N.to_nat a)).
    generalize (skipn (N.to_nat k) inp) as l. generalize (N.to_nat a) as x.
    induction x as [|x IHx]; intros [|y l]; cbn; auto; [now rewrite !firstn_nil|].
    f_equal. apply IHx. }
  unfold matches.
  induction 1; intros Hc; cbn [consumed delivered].
  - rewrite N.add_0_r, Z. split; [auto|constructor].
  - destruct H as [H _]. destruct IHright as [A B]; [auto|]. split; [cbn; lia|].
    cbn [amount]. rewrite AP. apply Forall2_app; [|exact B].
    pose proof (sub_len inp c n H) as L. unfold lenN in L.
    assert (L' : length (sub inp c n) = N.to_nat n) by lia. clear L. revert L'.
    generalize (N.to_nat n). induction (sub inp c n); intros [|k] L; cbn in L; try discriminate;
      constructor; auto.
  - destruct H0 as [H0 _]. destruct IHright as [A B]; [auto|]. split; [lia|].
    rewrite AP. apply Forall2_app; [|exact B].
    induction (sub inp c (amount m n)); constructor; auto.
  - destruct IHright as [A B]; auto.
  - destruct IHright as [A B]; auto.
  - destruct IHright as [A B]; auto.
  - destruct IHright as [A B]; auto.
  - destruct IHright as [A B]; auto.
Qed.

Lemma Forall2_len {A B} (R : A -> B -> Prop) l l' : Forall2 R l l' -> length l = length l'.
Proof. induction 1; cbn; auto. Qed.

(** A limit in scope bounds what is consumed. *)
Lemma right_limit_bound inp c ls h :
  right inp c ls h -> forall pre n post, ls = pre ++ n :: post ->
  inside (length pre) (map fst h) = true -> consumed h <= n.
Proof.
  induction 1; intros pre k post E I; subst; cbn [map fst inside consumed amount] in *.
  - lia.
  - destruct H as [_ H]. apply Forall_app in H as [H1 H2]. inversion H2; subst.
    rewrite map_app in IHright. cbn [map] in IHright.
    specialize (IHright _ _ _ eq_refl). rewrite map_length in IHright. specialize (IHright I). lia.
  - destruct H0 as [_ H0]. apply Forall_app in H0 as [H1' H2]. inversion H2; subst.
    rewrite map_app in IHright. cbn [map] in IHright.
    specialize (IHright _ _ _ eq_refl). rewrite map_length in IHright. specialize (IHright I). lia.
  - apply Forall2_app_inv_r in H0 as (l1&l2&A&B&->). inversion B; subst.
    apply Forall2_len in A. specialize (IHright l1 x l eq_refl).
    rewrite A in IHright. specialize (IHright I). lia.
  - eauto.
  - eauto.
  - exact (IHright (n :: pre) k post eq_refl I).
  - destruct pre as [|x pre]; cbn in I; [discriminate|]. exact (IHright pre k post eq_refl I).
Qed.

(** ** The position *)

(** Calls that advance the context by what they consume on every reader. *)
Definition counted (u : rop) : bool := match u with UTake m _ => clean m | _ => true end.

Fixpoint is_slice (r : reader) : bool :=
  match r with RSlice _ => true | RPtr _ _ => false | RLimit _ r' => is_slice r' end.

Lemma adv_eq m n r : is_slice r || clean m = true -> adv m n r = n.
Proof. induction r; cbn; auto; destruct m; cbn; congruence. Qed.

Lemma is_slice_adv r r' : (forall m n, adv m n r' = adv m n r) -> is_slice r = true -> is_slice r' = true.
Proof.
  intros H S. assert (A : adv MReadByte 1 r' = 1) by (rewrite H; apply adv_eq; now rewrite S).
  clear H S. revert A. induction r'; cbn; auto. lia.
Qed.

Lemma rrun_pos p mem inp us : forall r pos c h st,
  Forall (op_ok p) us -> at_ p mem inp c r -> rrun p mem us (r, pos) = (h, st) ->
  is_slice r = true \/ forallb counted us = true -> pos < 2 ^ usize_bits p ->
  snd st = (pos + consumed h) mod 2 ^ usize_bits p.
Proof.
  assert (NZ : 2 ^ usize_bits p <> 0) by (pose proof (pow_gt1 p); lia).
  induction us as [|u us IH]; intros r pos c h st Hok Hat E Hs Hp; cbn [rrun] in E.
  - injection E as <- <-. cbn. now rewrite N.add_0_r, N.mod_small.
  - inversion Hok as [|? ? Hu Hus]; subst.
    destruct (rstep p mem u (r, pos)) as [e st1] eqn:S1.
    destruct (rrun p mem us st1) as [h' st2] eqn:S2.
    injection E as <- <-. cbn [forallb] in Hs. rewrite andb_true_iff in Hs.
    destruct u as [m n| | |n|]; cbn [rstep] in S1; cbn in Hu.
    + destruct (rtake_spec p mem inp m (amount m n) r c Hat) as
        [[Hq (r'&T&A&L&V)]|[Hq (r'&T&A&L&V)]];
        [now apply amount_ok|intros ->; reflexivity| |];
        rewrite T in S1; injection S1 as <- <-.
      * rewrite (adv_eq m (amount m n) r) in S2
          by (cbn in Hs; destruct Hs as [Hs|[Hs _]]; rewrite Hs; auto using orb_true_r).
        assert (Hs' : is_slice r' = true \/ forallb counted us = true).
        { destruct Hs as [Hs|[_ Hs]]; [left; eapply is_slice_adv; eauto|right; auto]. }
        rewrite (IH _ _ _ _ _ Hus A S2 Hs') by (apply N.mod_lt; auto).
        assert (X : consumed ((UTake m n, match m with MSkip => EDone
                    | _ => EBytes (sub inp c (amount m n)) end) :: h') = amount m n + consumed h')
          by (destruct m; reflexivity).
        rewrite X, N.add_mod_idemp_l, N.add_assoc by auto. reflexivity.
      * assert (Hs' : is_slice r' = true \/ forallb counted us = true).
        { destruct Hs as [Hs|[_ Hs]]; [left; eapply is_slice_adv; eauto|right; auto]. }
        rewrite N.add_0_r, N.mod_small in S2 by auto. cbn. eapply IH; eauto.
    + injection S1 as <- <-. cbn. eapply IH; eauto. tauto.
    + injection S1 as <- <-. cbn. eapply IH; eauto. tauto.
    + injection S1 as <- <-. cbn. eapply (IH (RLimit n r)); eauto. cbn. tauto.
    + injection S1 as <- <-. cbn.
      refine (IH _ pos c h' st2 Hus (at_drop _ _ _ _ _ Hat) S2 _ Hp).
      destruct Hs as [Hs|[_ Hs]]; [left; destruct r; auto|right; auto].
Qed.

(** ** Writers *)

(** The state of a writer of capacity [cap] (none for vectors) into which [bs] was
    written; [rest] is what else is in its memory. *)
Definition holds (p : plat) (orig : bytes) (bs : bytes) (w : writer) : Prop :=
  match w with
  | WVec v => v = bs
  | WSlice mem base start end_ =>
      end_ = base + lenN orig /\ end_ < 2 ^ usize_bits p /\ start = base + lenN bs /\
      lenN bs <= lenN orig /\ mem = bs ++ skipn (length bs) orig
  | WFixed data init =>
      lenN orig < 2 ^ usize_bits p /\ init = lenN bs /\ lenN bs <= lenN orig /\
      data = bs ++ skipn (length bs) orig
  end.

Lemma store_spec orig bs new :
  lenN bs + lenN new <= lenN orig ->
  store (bs ++ skipn (length bs) orig) (lenN bs) new =
  Some ((bs ++ new) ++ skipn (length (bs ++ new)) orig).
Proof.
  intros H. unfold store. rewrite take_opt_app.
  replace (skipn (length bs) orig) with
    (firstn (length new) (skipn (length bs) orig) ++ skipn (length new) (skipn (length bs) orig))
    by apply firstn_skipn.
  replace (lenN new) with (lenN (firstn (length new) (skipn (length bs) orig))).
  - rewrite take_opt_app, skipn_add, app_length. now rewrite <- app_assoc.
  - unfold lenN in *. rewrite firstn_length, skipn_length. lia.
Qed.

Definition fixed (w : writer) : bool := match w with WVec _ => false | _ => true end.

Lemma wstep_spec p orig bs w u :
  holds p orig bs w -> fixed w = true -> lenN (wdata u) < 2 ^ usize_bits p ->
  (lenN bs + lenN (wdata u) <= lenN orig /\
   exists w', wstep p w u = WOk w' /\ holds p orig (bs ++ wdata u) w' /\ fixed w' = true) \/
  (lenN orig < lenN bs + lenN (wdata u) /\ wstep p w u = WErr).
Proof.
  intros H F L.
  assert (WB : forall new, lenN new < 2 ^ usize_bits p ->
    (lenN bs + lenN new <= lenN orig /\
     exists w', wbytes p w new = WOk w' /\ holds p orig (bs ++ new) w' /\ fixed w' = true) \/
    (lenN orig < lenN bs + lenN new /\ wbytes p w new = WErr)).
  { intros new Ln. destruct w as [v|mem base start end_|data init]; [discriminate| |]; cbn in H.
    - destruct H as (->&HW&->&Hl&->). cbn [wbytes].
      pose proof (bounds_ok p (base + lenN bs) (base + lenN orig) (lenN new)) as B.
      unfold bounds_check_add in B. set (e := (base + lenN bs + lenN new) mod 2 ^ usize_bits p) in *.
      specialize (B ltac:(lia) HW Ln).
      destruct (N.leb_spec (base + lenN bs + lenN new) (base + lenN orig)) as [Q|Q].
      + left. split; [lia|].
        destruct ((base + lenN orig <? e) || (e <? base + lenN bs)); [discriminate|].
        injection B as ->. replace (base + lenN bs - base) with (lenN bs) by lia.
        rewrite store_spec by lia. eexists; split; [reflexivity|]. cbn.
        rewrite lenN_app. repeat split; auto; lia.
      + right. split; [lia|].
        destruct ((base + lenN orig <? e) || (e <? base + lenN bs)); [reflexivity|discriminate].
    - destruct H as (HW&->&Hl&->). cbn [wbytes].
      assert (LL : lenN (bs ++ skipn (length bs) orig) = lenN orig).
      { rewrite lenN_app. replace (length bs) with (N.to_nat (lenN bs)) by (unfold lenN; lia).
        rewrite lenN_skipn. lia. }
      rewrite LL. destruct (N.ltb_spec (lenN orig - lenN bs) (lenN new)) as [Q|Q].
      + right. split; [lia|reflexivity].
      + left. split; [lia|]. rewrite store_spec by lia. rewrite N.mod_small by lia.
        eexists; split; [reflexivity|]. cbn. rewrite lenN_app. repeat split; auto; lia. }
  destruct u as [new|b|new]; cbn [wstep wdata] in *; try (apply WB; auto).
  destruct w as [v|mem base start end_|data init]; [discriminate| |].
  - cbn in H. destruct H as (->&HW&->&Hl&->). cbn [wbyte].
    destruct (N.eqb_spec (base + lenN bs) (base + lenN orig)) as [Q|Q].
    + right. split; [|reflexivity]. change (lenN [b]) with 1. lia.
    + left. change (lenN [b]) with 1 in *. split; [lia|].
      replace (base + lenN bs - base) with (lenN bs) by lia.
      rewrite store_spec by (change (lenN [b]) with 1; lia).
      eexists; split; [reflexivity|]. cbn. rewrite lenN_app. change (lenN [b]) with 1.
      repeat split; auto; lia.
  - apply WB. auto.
Qed.

Lemma wrun_fixed p orig us : forall bs w,
  holds p orig bs w -> fixed w = true ->
  Forall (fun u => lenN (wdata u) < 2 ^ usize_bits p) us ->
  exists h w', wrun p us w = Some (h, w') /\ map fst h = us /\
    fits_all (lenN orig) (lenN bs) h /\ holds p orig (bs ++ written h) w' /\ fixed w' = true.
Proof.
  induction us as [|u us IH]; intros bs w H F L.
  - exists [], w. cbn. rewrite app_nil_r. auto.
  - inversion L; subst. cbn [wrun].
    destruct (wstep_spec p orig bs w u H F H2) as [[Q (w1&E&H'&F')]|[Q E]]; rewrite E.
    + destruct (IH _ _ H' F' H3) as (h&w2&E2&M&G&K&F2). rewrite E2.
      exists ((u, true) :: h), w2. cbn. rewrite lenN_app in G. rewrite app_assoc.
      repeat split; auto. now rewrite M.
    + destruct (IH _ _ H F H3) as (h&w2&E2&M&G&K&F2). rewrite E2.
      exists ((u, false) :: h), w2. cbn. repeat split; auto; [now rewrite M|discriminate|lia].
Qed.

Lemma wrun_vec p us : forall v,
  wrun p us (WVec v) = Some (map (fun u => (u, true)) us, WVec (v ++ concat (map wdata us))).
Proof.
  induction us as [|u us IH]; intros v; cbn.
  - now rewrite app_nil_r.
  - destruct u; cbn; rewrite IH, <- app_assoc; reflexivity.
Qed.
