(** Facts about the hasher: it is SipHash whatever way its input is split. *)
From Coq Require Import Lia.
From Verif Require Import Base BaseFacts Options Int IntFacts IOFacts Zc Sip SipSpec.
Local Open Scope N_scope.

Definition tup (s : sst) : N * N * N * N := (v0 s, v1 s, v2 s, v3 s).

Lemma compress_round s : tup (compress s) = sipround (tup s).
Proof. destruct s. reflexivity. Qed.

Lemma process_word s m : tup (process s m) = absorb_word (tup s) m.
Proof.
  unfold process, absorb_word, c_rounds. cbn [tup].
  pose proof (compress_round {| v0 := v0 s; v1 := v1 s; v2 := v2 s; v3 := N.lxor (v3 s) m |}) as C.
  destruct (compress _) as [a b c d]. unfold tup in C |- *. cbn [v0 v1 v2 v3] in *.
  rewrite <- C. reflexivity.
Qed.

(** ** Little-endian words *)

Lemma of_le_app a b : of_le (a ++ b) = of_le a + 256 ^ lenN a * of_le b.
Proof.
  induction a as [|x a IH]; cbn [app of_le].
  - change (lenN (@nil N)) with 0. rewrite N.pow_0_r. lia.
  - rewrite lenN_cons, IH. rewrite N.pow_add_r, N.pow_1_r. lia.
Qed.

Lemma pow256 k : 256 ^ k = 2 ^ (8 * k).
Proof. rewrite N.pow_mul_r. reflexivity. Qed.

Lemma lor_shift a b k : a < 2 ^ k -> N.lor a (N.shiftl b k) = a + 2 ^ k * b.
Proof.
  intros H. rewrite N.shiftl_mul_pow2.
  assert (L : N.land a (b * 2 ^ k) = 0).
  { apply N.bits_inj. intros i. rewrite N.land_spec, N.bits_0.
    destruct (N.lt_ge_cases i k) as [Q|Q].
    - rewrite N.mul_pow2_bits_low by auto. apply andb_false_r.
    - replace (N.testbit a i) with false; auto.
      symmetry. rewrite <- (N.mod_small a (2 ^ k)) by auto. apply N.mod_pow2_bits_high. lia. }
  rewrite <- N.lxor_lor by auto. rewrite <- N.add_nocarry_lxor by auto. lia.
Qed.

Lemma lor_shl64 a b k : a < 2 ^ k -> a + 2 ^ k * b < 2 ^ 64 -> N.lor a (shl64 b k) = a + 2 ^ k * b.
Proof.
  intros A B. unfold shl64. rewrite N.mod_small.
  - now apply lor_shift.
  - rewrite N.shiftl_mul_pow2. lia.
Qed.

Lemma of_le_lt64 bs : bytes_ok bs = true -> lenN bs <= 8 -> of_le bs < 2 ^ 64.
Proof.
  intros B L. apply of_le_lt in B. eapply N.lt_le_trans; [exact B|].
  rewrite pow256. apply N.pow_le_mono_r; lia.
Qed.

(** ** Sub-slices *)

Definition sub (l : bytes) (i : N) (k : nat) : bytes := firstn k (skipn (N.to_nat i) l).
Arguments sub l i k : simpl never.

Lemma sub_len l i k : i + N.of_nat k <= lenN l -> lenN (sub l i k) = N.of_nat k.
Proof. unfold sub, lenN. intros H. rewrite firstn_length, skipn_length. lia. Qed.

Lemma sub_ok l i k : bytes_ok l = true -> bytes_ok (sub l i k) = true.
Proof.
  intros H. unfold sub.
  assert (S : forall n m, bytes_ok m = true -> bytes_ok (skipn n m) = true).
  { induction n; intros [|b m] B; cbn; auto. apply IHn. rewrite bytes_ok_cons in B. now apply andb_prop in B. }
  assert (F : forall n m, bytes_ok m = true -> bytes_ok (firstn n m) = true).
  { induction n; intros [|b m] B; cbn [firstn]; auto. rewrite bytes_ok_cons in B. apply andb_prop in B as [B1 B2].
    rewrite bytes_ok_cons, B1. cbn. auto. }
  auto.
Qed.

Lemma sub_add l i j k : sub l i (j + k) = sub l i j ++ sub l (i + N.of_nat j) k.
Proof.
  unfold sub. replace (N.to_nat (i + N.of_nat j)) with (j + N.to_nat i)%nat by lia.
  rewrite <- (firstn_skipn j (firstn (j + k) (skipn (N.to_nat i) l))) at 1. f_equal.
  - rewrite firstn_firstn. f_equal. lia.
  - rewrite skipn_firstn_comm. replace (j + k - j)%nat with k by lia. f_equal.
    rewrite skipn_add. f_equal. lia.
Qed.

Lemma sub_full l i : sub l i (length l - N.to_nat i) = skipn (N.to_nat i) l.
Proof. unfold sub. apply firstn_all2. rewrite skipn_length. lia. Qed.

Lemma load_le_ok buf i k : i + N.of_nat k <= lenN buf -> load_le buf i k = ZOk (of_le (sub buf i k)).
Proof. unfold load_le, sub. intros H. apply N.leb_le in H. now rewrite H. Qed.

Lemma u8to64_spec buf start (len : nat) : bytes_ok buf = true -> (len < 8)%nat -> start + N.of_nat len <= lenN buf ->
  u8to64_le buf start (N.of_nat len) = ZOk (of_le (sub buf start len)).
Proof.
  intros B L H. unfold u8to64_le. destruct (N.leb_spec 8 (N.of_nat len)); [lia|].
  rewrite !N.add_0_r, !N.add_0_l.
  assert (S : forall i k, bytes_ok (sub buf i k) = true) by (intros; now apply sub_ok).
  assert (G : forall (a b : bytes) k, bytes_ok a = true -> bytes_ok b = true -> lenN a = k -> k + lenN b <= 8 ->
    N.lor (of_le a) (shl64 (of_le b) (k * 8)) = of_le (a ++ b)).
  { intros a b k A1 B1 K1 K2. rewrite lor_shl64.
    - rewrite of_le_app, K1, pow256. f_equal. f_equal. f_equal. lia.
    - apply of_le_lt in A1. rewrite K1, pow256 in A1. now rewrite N.mul_comm.
    - replace (2 ^ (k * 8)) with (256 ^ lenN a) by (rewrite K1, pow256; f_equal; lia).
      rewrite <- of_le_app. apply of_le_lt64; [rewrite bytes_ok_app, A1, B1; auto|rewrite lenN_app; lia]. }
  assert (C : (len = 0 \/ len = 1 \/ len = 2 \/ len = 3 \/ len = 4 \/ len = 5 \/ len = 6 \/ len = 7)%nat) by lia.
  assert (LL : forall i k, i + N.of_nat k <= lenN buf -> lenN (sub buf i k) = N.of_nat k) by (intros; now apply sub_len).
  assert (G0 : forall b k, N.lor 0 (shl64 (of_le (sub buf b k)) (0 * 8)) = of_le (sub buf b k)
    \/ ~ (k <= 8)%nat \/ ~ b + N.of_nat k <= lenN buf).
  { intros b k. destruct (Nat.le_gt_cases k 8); [|right; left; lia].
    destruct (N.le_gt_cases (b + N.of_nat k) (lenN buf)); [left|right; right; lia].
    apply (G [] (sub buf b k) 0); auto. rewrite LL by auto. lia. }
  decompose [or] C; subst len; cbn [N.of_nat Pos.of_succ_nat Pos.succ N.ltb N.compare Pos.compare Pos.compare_cont zbind N.add Pos.add] in *.
  - reflexivity.
  - change (0 <? 1) with true. cbv iota. rewrite load_le_ok by (cbn; lia). cbn [zbind]. rewrite N.add_0_r.
    destruct (G0 start 1%nat) as [E|[E|E]]; [|lia|cbn in E; lia]. rewrite E. reflexivity.
  - cbn. rewrite load_le_ok by (cbn; lia). cbn [zbind]. rewrite N.add_0_r.
    destruct (G0 start 2%nat) as [E|[E|E]]; [|lia|cbn in E; lia]. cbn in E |- *. rewrite E. reflexivity.
  - cbn. rewrite load_le_ok by (cbn; lia). cbn [zbind]. rewrite N.add_0_r.
    destruct (G0 start 2%nat) as [E|[E|E]]; [|lia|cbn in E; lia]. cbn in E |- *. rewrite E.
    rewrite load_le_ok by (cbn; lia). cbn [zbind].
    rewrite (G _ _ 2); auto; [|rewrite LL; cbn; lia|rewrite LL; cbn; lia].
    change (sub buf start 3) with (sub buf start (2 + 1)). rewrite sub_add. reflexivity.
  - cbn. rewrite load_le_ok by (cbn; lia). cbn [zbind]. reflexivity.
  - cbn. rewrite load_le_ok by (cbn; lia). cbn. rewrite load_le_ok by (cbn; lia). cbn [zbind].
    rewrite (G _ _ 4); auto; [|rewrite LL; cbn; lia|rewrite LL; cbn; lia].
    change (sub buf start 5) with (sub buf start (4 + 1)). rewrite sub_add. reflexivity.
  - cbn. rewrite load_le_ok by (cbn; lia). cbn. rewrite load_le_ok by (cbn; lia). cbn [zbind].
    rewrite (G _ _ 4); auto; [|rewrite LL; cbn; lia|rewrite LL; cbn; lia].
    change (sub buf start 6) with (sub buf start (4 + 2)). rewrite sub_add. reflexivity.
  - cbn. rewrite load_le_ok by (cbn; lia). cbn. rewrite load_le_ok by (cbn; lia). cbn [zbind].
    rewrite (G _ _ 4); auto; [|rewrite LL; cbn; lia|rewrite LL; cbn; lia]. cbn.
    rewrite load_le_ok by (cbn; lia). cbn [zbind].
    rewrite (G _ _ 6); auto; [|rewrite bytes_ok_app, !S; reflexivity|rewrite lenN_app, !LL; cbn; lia|rewrite LL; cbn; lia].
    change (sub buf start 7) with (sub buf start (4 + (2 + 1))). rewrite !sub_add, app_assoc.
    replace (start + N.of_nat 4 + N.of_nat 2) with (start + 6) by (cbn; lia). reflexivity.
Qed.

(** ** The state *)

(** [h] has been fed the message [m]. *)
Definition fed (k0 k1 : N) (m : bytes) (h : hasher) : Prop :=
  bytes_ok m = true /\ hlen h = lenN m /\
  exists rest, absorb (tup (hst (h_new k0 k1))) m = (tup (hst h), rest) /\
    bytes_ok rest = true /\ lenN rest < 8 /\ htail h = of_le rest /\ hntail h = lenN rest.

Lemma absorb_word8 s c m : lenN c = 8 -> absorb s (c ++ m) = absorb (absorb_word s (of_le c)) m.
Proof.
  intros L. unfold lenN in L.
  destruct c as [|x0 [|x1 [|x2 [|x3 [|x4 [|x5 [|x6 [|x7 [|x8 c]]]]]]]]]; cbn [length] in L; try lia. reflexivity.
Qed.

Lemma absorb_short s m : lenN m < 8 -> absorb s m = (s, m).
Proof.
  intros L. unfold lenN in L.
  destruct m as [|a [|b [|c [|d [|e [|f [|g [|h m]]]]]]]]; cbn [length] in L; try lia; reflexivity.
Qed.

Lemma absorb_app_aux : forall n s m, (length m <= n)%nat -> forall s' rest, absorb s m = (s', rest) ->
  lenN rest < 8 /\ (bytes_ok m = true -> bytes_ok rest = true) /\ forall x, absorb s (m ++ x) = absorb s' (rest ++ x).
Proof.
  induction n as [|n IH]; intros s m L s' rest H.
  - destruct m; [|cbn in L; lia]. cbn in H. inversion H; subst. split; [reflexivity|]. auto.
  - destruct (N.lt_ge_cases (lenN m) 8) as [Q|Q].
    + rewrite absorb_short in H by auto. inversion H; subst. auto.
    + rewrite <- (firstn_skipn 8 m) in H |- *.
      assert (L8 : lenN (firstn 8 m) = 8) by (unfold lenN in *; rewrite firstn_length; lia).
      rewrite absorb_word8 in H by auto.
      destruct (IH (absorb_word s (of_le (firstn 8 m))) (skipn 8 m)) with (s' := s') (rest := rest) as (A & B & C); auto.
      { rewrite skipn_length. unfold lenN in Q. lia. }
      split; auto. split.
      * intros O. apply B. rewrite bytes_ok_app in O. now apply andb_prop in O.
      * intros x. rewrite <- app_assoc, absorb_word8 by auto. apply C.
Qed.

Lemma absorb_app s m s' rest x : absorb s m = (s', rest) -> absorb s (m ++ x) = absorb s' (rest ++ x).
Proof. intros H. now apply (absorb_app_aux (length m) s m (Nat.le_refl _) s' rest H). Qed.

Lemma land7 n : N.land n 7 = n mod 8.
Proof. change 7 with (N.ones 3). now rewrite N.land_ones. Qed.

Lemma write_loop_spec fuel : forall msg s i k, bytes_ok msg = true ->
  i + 8 * N.of_nat k <= lenN msg -> (k <= fuel)%nat ->
  forall lo, lo < 8 -> i = lo + (i - lo) -> forall stop, (forall j, i + 8 * j < stop <-> j < N.of_nat k) ->
  exists s', write_loop fuel msg s i stop = ZOk (s', i + 8 * N.of_nat k) /\
    forall x, absorb (tup s) (sub msg i (8 * k) ++ x) = absorb (tup s') x.
Proof.
  induction fuel as [|fuel IH]; intros msg s i k B L F lo LO LI stop ST.
  - assert (k = 0)%nat by lia. subst k. cbn [write_loop].
    destruct (N.ltb_spec i stop) as [Q|Q]; [specialize (ST 0); cbn in ST; rewrite N.add_0_r in ST; apply ST in Q; lia|].
    exists s. split; [f_equal; f_equal; cbn; lia|]. intros x. unfold sub. reflexivity.
  - cbn [write_loop]. destruct k as [|k].
    + destruct (N.ltb_spec i stop) as [Q|Q]; [specialize (ST 0); cbn in ST; rewrite N.add_0_r in ST; apply ST in Q; lia|].
      exists s. split; [f_equal; f_equal; cbn; lia|]. intros x. unfold sub. reflexivity.
    + destruct (N.ltb_spec i stop) as [Q|Q].
      2: { exfalso. specialize (ST 0). rewrite N.mul_0_r, N.add_0_r in ST. assert (i < stop) by (apply ST; lia). lia. }
      rewrite load_le_ok by lia. cbn [zbind].
      destruct (IH msg (process s (of_le (sub msg i 8))) (i + 8) k B) with (lo := lo) (stop := stop) as (s' & W & A); try lia.
      { intros j. specialize (ST (j + 1)). replace (i + 8 + 8 * j) with (i + 8 * (j + 1)) by lia. rewrite ST. lia. }
      exists s'. split; [rewrite W; f_equal; f_equal; lia|].
      intros x. replace (8 * S k)%nat with (8 + 8 * k)%nat by lia. rewrite sub_add, <- app_assoc.
      rewrite absorb_word8 by (rewrite sub_len; cbn; lia). rewrite <- process_word. apply A.
Qed.

Lemma write_rest_spec len0 s msg needed : bytes_ok msg = true -> needed < 8 -> needed <= lenN msg ->
  exists s' rest, write_rest len0 s msg needed =
      ZOk {| hlen := len0; hst := s'; htail := of_le rest; hntail := lenN rest |} /\
    absorb (tup s) (skipn (N.to_nat needed) msg) = (tup s', rest) /\ bytes_ok rest = true /\ lenN rest < 8.
Proof.
  intros B ND NL. unfold write_rest. set (len := lenN msg - needed) in *. rewrite land7.
  pose proof (N.div_mod len 8 ltac:(discriminate)) as DM.
  pose proof (N.mod_lt len 8 ltac:(discriminate)) as ML.
  set (k := N.to_nat (len / 8)).
  destruct (write_loop_spec (length msg) msg s needed k B) with (lo := needed) (stop := len - len mod 8) as (s' & W & A); try lia.
  { unfold lenN in *. lia. }
  rewrite W. cbn [zbind].
  set (r := N.to_nat (len mod 8)).
  replace (len mod 8) with (N.of_nat r) by lia.
  rewrite u8to64_spec; auto; [|lia|lia]. cbn [zbind].
  set (rest := sub msg (needed + 8 * N.of_nat k) r).
  assert (LR : lenN rest = N.of_nat r) by (apply sub_len; lia).
  exists s', rest. rewrite LR. split; [reflexivity|]. split; [|split; [now apply sub_ok|lia]].
  rewrite <- sub_full. replace (length msg - N.to_nat needed)%nat with (8 * k + r)%nat by (unfold lenN in *; lia).
  rewrite sub_add. replace (needed + N.of_nat (8 * k)) with (needed + 8 * N.of_nat k) by lia.
  fold rest. rewrite A. apply absorb_short. lia.
Qed.

Lemma fill_tail rest x : bytes_ok rest = true -> bytes_ok x = true -> lenN rest + lenN x <= 8 -> lenN rest < 8 ->
  N.lor (of_le rest) (shl64 (of_le x) (8 * lenN rest)) = of_le (rest ++ x).
Proof.
  intros R X L LR. rewrite lor_shl64.
  - now rewrite of_le_app, pow256.
  - apply of_le_lt in R. now rewrite pow256 in R.
  - rewrite <- pow256, <- of_le_app. apply of_le_lt64; [now rewrite bytes_ok_app, R, X|rewrite lenN_app; lia].
Qed.

Lemma write_fed k0 k1 m h msg : fed k0 k1 m h -> bytes_ok msg = true ->
  exists h', h_write h msg = ZOk h' /\ fed k0 k1 (m ++ msg) h'.
Proof.
  intros (BM & HL & rest & A & BR & LR & HT & HN) B. unfold h_write. rewrite HN, HT, HL.
  assert (BB : bytes_ok (m ++ msg) = true) by now rewrite bytes_ok_app, BM, B.
  destruct (N.eqb_spec (lenN rest) 0) as [Z|Z].
  - assert (rest = []) by (destruct rest; auto; rewrite lenN_cons in Z; lia). subst rest.
    destruct (write_rest_spec (lenN m + lenN msg) (hst h) msg 0 B) as (s' & r' & W & A' & B' & L'); try lia.
    rewrite W. eexists. split; [reflexivity|]. split; auto. cbn [hlen hst htail hntail]. split; [now rewrite lenN_app|].
    exists r'. split; auto. rewrite (absorb_app _ _ _ _ msg A). exact A'.
  - set (needed := 8 - lenN rest). assert (ND : needed <= 7) by lia.
    set (n := N.to_nat (N.min (lenN msg) needed)).
    replace (N.min (lenN msg) needed) with (N.of_nat n) by lia.
    rewrite u8to64_spec; auto; [|lia|lia]. cbn [zbind].
    assert (LS : lenN (sub msg 0 n) = N.of_nat n) by (apply sub_len; lia).
    rewrite fill_tail; auto; [|now apply sub_ok|lia].
    destruct (N.ltb_spec (lenN msg) needed) as [Q|Q].
    + assert (SM : sub msg 0 n = msg) by (unfold sub; cbn [N.to_nat skipn]; apply firstn_all2; unfold lenN in *; lia).
      rewrite SM. eexists. split; [reflexivity|]. split; auto. cbn [hlen hst htail hntail]. split; [now rewrite lenN_app|].
      exists (rest ++ msg). split.
      * rewrite (absorb_app _ _ _ _ msg A). apply absorb_short. rewrite lenN_app. lia.
      * split; [now rewrite bytes_ok_app, BR, B|]. rewrite lenN_app. split; [lia|]. auto.
    + destruct (write_rest_spec (lenN m + lenN msg) (process (hst h) (of_le (rest ++ sub msg 0 n))) msg needed B)
        as (s' & r' & W & A' & B' & L'); try lia.
      rewrite W. eexists. split; [reflexivity|]. split; auto. cbn [hlen hst htail hntail]. split; [now rewrite lenN_app|].
      exists r'. split; auto. rewrite (absorb_app _ _ _ _ msg A).
      rewrite process_word in A'. rewrite <- A'.
      rewrite <- absorb_word8 by (rewrite lenN_app, LS; lia). rewrite <- app_assoc. do 2 f_equal.
      assert (n = N.to_nat needed) as -> by lia. unfold sub. cbn [N.to_nat skipn]. now rewrite firstn_skipn.
Qed.

Lemma short_fed k0 k1 m h x : fed k0 k1 m h -> bytes_ok x = true -> (length x <= 8)%nat ->
  exists h', short_write h (lenN x) (of_le x) = ZOk h' /\ fed k0 k1 (m ++ x) h'.
Proof.
  intros (BM & HL & rest & A & BR & LR & HT & HN) B LX. unfold short_write. rewrite HN, HT, HL.
  assert (BB : bytes_ok (m ++ x) = true) by now rewrite bytes_ok_app, BM, B.
  assert (S0 : N.shiftr (of_le x) (8 * lenN x) = 0).
  { rewrite N.shiftr_div_pow2, <- pow256. apply N.div_small. now apply of_le_lt. }
  rewrite S0. rewrite N.eqb_refl, andb_false_r.
  set (needed := 8 - lenN rest).
  destruct (N.ltb_spec (lenN x) needed) as [Q|Q].
  - rewrite fill_tail by (auto; lia). eexists. split; [reflexivity|]. split; auto. cbn [hlen hst htail hntail].
    split; [now rewrite lenN_app|]. exists (rest ++ x). split.
    + rewrite (absorb_app _ _ _ _ x A). apply absorb_short. rewrite lenN_app. lia.
    + split; [now rewrite bytes_ok_app, BR, B|]. rewrite lenN_app. split; [lia|]. auto.
  - set (n := N.to_nat needed). set (a := firstn n x). set (b := skipn n x).
    assert (X : x = a ++ b) by (symmetry; apply firstn_skipn).
    assert (LA : lenN a = needed) by (unfold a, lenN in *; rewrite firstn_length; lia).
    assert (BAB : bytes_ok a = true /\ bytes_ok b = true).
    { rewrite X, bytes_ok_app in B. now apply andb_prop in B. }
    destruct BAB as [Ba Bb].
    assert (E : of_le x = of_le a + 2 ^ (8 * needed) * of_le b) by (rewrite X, of_le_app, LA, pow256; reflexivity).
    assert (LL : lenN x = needed + lenN b) by (rewrite X, lenN_app, LA; reflexivity).
    assert (T : N.lor (of_le rest) (shl64 (of_le x) (8 * lenN rest)) = of_le (rest ++ a)).
    { rewrite <- fill_tail by (auto; lia). f_equal. unfold shl64. rewrite !N.shiftl_mul_pow2, E.
      rewrite N.mul_add_distr_r. replace (2 ^ (8 * needed) * of_le b * 2 ^ (8 * lenN rest)) with (of_le b * 2 ^ 64).
      - now rewrite N.mod_add by discriminate.
      - replace 64 with (8 * needed + 8 * lenN rest) by lia. rewrite N.pow_add_r. lia. }
    rewrite T. eexists. split; [reflexivity|]. split; auto. cbn [hlen hst htail hntail].
    split; [now rewrite lenN_app|]. exists b.
    assert (LX' : lenN x <= 8) by (unfold lenN; lia).
    assert (LB : lenN b < 8) by lia.
    split; [|split; [auto|split; [auto|split; [|lia]]]].
    + rewrite (absorb_app _ _ _ _ x A), X, app_assoc.
      rewrite absorb_word8 by (rewrite lenN_app; lia). rewrite process_word. now apply absorb_short.
    + destruct (N.ltb_spec needed 8) as [N8|N8].
      * rewrite N.shiftr_div_pow2, E, N.add_comm, N.mul_comm, N.div_add_l by (apply N.pow_nonzero; discriminate).
        rewrite N.div_small; [lia|]. apply of_le_lt in Ba. now rewrite LA, pow256 in Ba.
      * assert (b = []) as -> by (destruct b; auto; rewrite lenN_cons in LL; lia). reflexivity.
Qed.

Lemma new_fed k0 k1 : fed k0 k1 [] (h_new k0 k1).
Proof. split; auto. split; auto. exists []. repeat split. Qed.

Lemma finish_fed k0 k1 m h : fed k0 k1 m h -> h_finish h = siphash13_128 k0 k1 m.
Proof.
  intros (BM & HL & rest & A & BR & LR & HT & HN). unfold h_finish, siphash13_128.
  replace (N.lxor (N.lxor k1 0x646f72616e646f6d) 0xee) with (N.lxor k1 0x646f72616e646f83)
    by (rewrite N.lxor_assoc; reflexivity).
  unfold tup in A at 1. cbn [hst h_new v0 v1 v2 v3] in A. rewrite A, HL, HT.
  replace (N.lor (shl64 (N.land (lenN m) 255) 56) (of_le rest)) with (of_le rest + 2 ^ 56 * (lenN m mod 256)).
  2: { rewrite N.lor_comm. symmetry.
       replace (N.land (lenN m) 255) with (lenN m mod 256) by (change 255 with (N.ones 8); now rewrite N.land_ones).
       pose proof (N.mod_lt (lenN m) 256 ltac:(discriminate)) as ML.
       assert (LT : of_le rest < 2 ^ 56).
       { apply of_le_lt in BR. eapply N.lt_le_trans; [exact BR|]. rewrite pow256. apply N.pow_le_mono_r; lia. }
       apply lor_shl64; auto. change (2 ^ 64) with (2 ^ 56 * 256). nia. }
  set (w := of_le rest + 2 ^ 56 * (lenN m mod 256)). rewrite <- process_word.
  destruct (process (hst h) w) as [a b c d]. unfold tup at 1. cbn [v0 v1 v2 v3].
  unfold d_rounds.
  assert (R3 : forall s, tup (compress (compress (compress s))) = sipround (sipround (sipround (tup s)))).
  { intros s. now rewrite !compress_round. }
  change (a, b, N.lxor c 238, d) with (tup {| v0 := a; v1 := b; v2 := N.lxor c 238; v3 := d |}).
  rewrite <- R3. set (s := compress _). clearbody s.
  destruct s as [a' b' c' d']. unfold tup at 1 2. cbn [v0 v1 v2 v3]. unfold out at 1.
  change (a', N.lxor b' 221, c', d') with (tup {| v0 := a'; v1 := N.lxor b' 221; v2 := c'; v3 := d' |}).
  rewrite <- R3. set (s := compress _). clearbody s. destruct s. reflexivity.
Qed.
