(** Lemmas about perfect-hash maps. *)
From Coq Require Import Permutation.
From Verif Require Import Base Options Int Zc ZcBuf Sip Swiss SwissGroup SwissFacts Phf BaseFacts.
Local Open Scope N_scope.

(** * Lists *)
Lemma nthN_lt {A} (l : list A) i x : nthN l i = Some x -> i < lenN l.
Proof. unfold nthN, lenN. intros E. assert (nth_error l (N.to_nat i) <> None) as X by congruence. apply nth_error_Some in X. lia. Qed.
Lemma nthN_In {A} (l : list A) i x : nthN l i = Some x -> In x l.
Proof. apply nth_error_In. Qed.
Lemma In_nthN {A} (l : list A) x : In x l -> exists i, nthN l i = Some x.
Proof. intros I. apply In_nth_error in I as [i E]. exists (N.of_nat i). unfold nthN. rewrite Nat2N.id. auto. Qed.

Lemma upd_split {A} (l : list A) i x y : nthN l i = Some y -> exists l1 l2, l = l1 ++ y :: l2 /\ upd l i x = l1 ++ x :: l2.
Proof.
  unfold nthN, upd. intros E. apply nth_error_split in E as (l1 & l2 & -> & L). exists l1, l2. split; auto.
  rewrite <- L. f_equal.
  - rewrite firstn_app, Nat.sub_diag, firstn_all. cbn. apply app_nil_r.
  - f_equal. replace (S (length l1)) with (length (l1 ++ [y])) by (rewrite app_length; cbn; lia).
    replace (l1 ++ y :: l2) with ((l1 ++ [y]) ++ l2) by (rewrite <- app_assoc; auto).
    rewrite skipn_app, Nat.sub_diag, skipn_all. auto.
Qed.
Lemma upd_perm {A} (l : list A) i x y : nthN l i = Some y -> Permutation (y :: upd l i x) (x :: l).
Proof.
  intros E. destruct (upd_split l i x y E) as (l1 & l2 & -> & ->).
  rewrite <- !Permutation_middle. apply perm_swap.
Qed.

Lemma swap_len {A} (l l' : list A) i j : swapN l i j = Some l' -> lenN l' = lenN l.
Proof.
  unfold swapN. destruct (nthN l i) eqn:E; [|discriminate]. destruct (nthN l j) eqn:E'; [|discriminate]. intros [= <-].
  rewrite !upd_len; auto; try apply nthN_lt in E; try apply nthN_lt in E'; auto. rewrite upd_len; auto.
Qed.
Lemma swap_nth {A} (l : list A) i j x y : nthN l i = Some x -> nthN l j = Some y ->
  exists l', swapN l i j = Some l' /\
  forall q, nthN l' q = if q =? j then Some x else if q =? i then Some y else nthN l q.
Proof.
  intros Ei Ej. unfold swapN. rewrite Ei, Ej. eexists. split; [reflexivity|]. intros q.
  pose proof (nthN_lt _ _ _ Ei). pose proof (nthN_lt _ _ _ Ej).
  rewrite nth_upd by (rewrite upd_len; auto). rewrite nth_upd by auto. auto.
Qed.
Lemma swap_perm {A} (l l' : list A) i j : swapN l i j = Some l' -> Permutation l' l.
Proof.
  unfold swapN. destruct (nthN l i) as [x|] eqn:Ei; [|discriminate]. destruct (nthN l j) as [y|] eqn:Ej; [|discriminate]. intros [= <-].
  pose proof (nthN_lt _ _ _ Ei).
  assert (nthN (upd l i y) j = Some y) as E2 by (rewrite nth_upd by auto; destruct (j =? i); auto).
  pose proof (upd_perm _ j x y E2) as P2. pose proof (upd_perm _ i y x Ei) as P1.
  apply (Permutation_cons_inv (a := y)). rewrite P2. exact P1.
Qed.

(** * Settling *)
Definition in_range (n : N) (mp : list N) : Prop := lenN mp = n /\ NoDup mp /\ forall x, In x mp -> x < n.

Lemma range_In n x : In x (range n) <-> x < n.
Proof.
  unfold range. rewrite in_map_iff. split.
  - intros (y & <- & I). apply in_seq in I. lia.
  - intros L. exists (N.to_nat x). split; [lia|]. apply in_seq. lia.
Qed.
Lemma range_NoDup n : NoDup (range n).
Proof. unfold range. apply NoDup_map_inj; [apply seq_NoDup|]. intros; lia. Qed.
Lemma range_len n : lenN (range n) = n.
Proof. unfold range, lenN. rewrite map_length, seq_length. lia. Qed.

Lemma filter_length_le {A} (f : A -> bool) l : (length (filter f l) <= length l)%nat.
Proof. induction l as [|a l IH]; cbn; auto. destruct (f a); cbn; lia. Qed.

Definition fixedp (mp : list N) (i : N) : bool := match nthN mp i with Some x => x =? i | None => false end.
Definition nfixed (n : N) (mp : list N) : nat := length (filter (fixedp mp) (range n)).
Lemma nfixed_le n mp : (nfixed n mp <= N.to_nat n)%nat.
Proof. unfold nfixed. pose proof (range_len n) as R. unfold lenN in R. pose proof (filter_length_le (fixedp mp) (range n)). lia. Qed.

Lemma filter_lt {A} (f g : A -> bool) l x : (forall y, f y = true -> g y = true) -> In x l -> f x = false -> g x = true ->
  (length (filter f l) < length (filter g l))%nat.
Proof.
  intros Sub I Fx Gx. induction l as [|a l IH]; [destruct I|].
  assert ((length (filter f l) <= length (filter g l))%nat) as Le.
  { clear -Sub. induction l as [|a l IH]; cbn; auto. destruct (f a) eqn:Fa; [rewrite (Sub a Fa); cbn; lia|]. destruct (g a); cbn; lia. }
  cbn. destruct I as [->|I].
  - rewrite Fx, Gx. cbn. lia.
  - specialize (IH I). destruct (f a) eqn:Fa; [rewrite (Sub a Fa); cbn; lia|]. destruct (g a); cbn; lia.
Qed.

Lemma nodup_nthN (l : list N) i j x : NoDup l -> nthN l i = Some x -> nthN l j = Some x -> i = j.
Proof.
  intros D Ei Ej. unfold nthN in *. apply N2Nat.inj. eapply (proj1 (NoDup_nth_error l)); eauto.
  - apply nth_error_Some. congruence.
  - congruence.
Qed.

Lemma settle_ok {A} n : forall fuel from (es : list A) mp, lenN es = n -> in_range n mp -> from < n ->
  (N.to_nat n - nfixed n mp < fuel)%nat ->
  exists es' mp', settle fuel from es mp = Some (ZOk (es', mp')) /\ Permutation es' es /\ in_range n mp' /\
    fixedp mp' from = true /\ (forall q, fixedp mp q = true -> fixedp mp' q = true).
Proof.
  induction fuel as [|fuel IH]; intros from es mp Le (Lm & D & Rg) Lf Fu; [lia|]. cbn [settle].
  destruct (nthN_some mp from ltac:(lia)) as [to Et]. rewrite Et.
  destruct (from =? to) eqn:E.
  { apply N.eqb_eq in E. subst to. exists es, mp. repeat split; auto. unfold fixedp. rewrite Et. apply N.eqb_refl. }
  apply N.eqb_neq in E. assert (Lt : to < n) by (apply Rg; eapply nthN_In; eauto).
  destruct (nthN_some es from ltac:(lia)) as [e1 E1]. destruct (nthN_some es to ltac:(lia)) as [e2 E2].
  destruct (nthN_some mp to ltac:(lia)) as [tt Ett].
  destruct (swap_nth es from to _ _ E1 E2) as (es1 & S1 & N1). destruct (swap_nth mp from to _ _ Et Ett) as (mp1 & S2 & N2).
  rewrite S1, S2.
  assert (R1 : in_range n mp1).
  { split; [rewrite (swap_len _ _ _ _ S2); auto|]. pose proof (swap_perm _ _ _ _ S2) as P. split.
    - eapply Permutation_NoDup; [symmetry; eauto|auto].
    - intros x I. apply Rg. eapply Permutation_in; eauto. }
  assert (Mono : forall q, fixedp mp q = true -> fixedp mp1 q = true).
  { intros q. unfold fixedp. rewrite N2. destruct (N.eqb_spec q to) as [->|NE]; [intros _; apply N.eqb_refl|].
    destruct (N.eqb_spec q from) as [->|NE']; auto. rewrite Et. intros X. apply N.eqb_eq in X. congruence. }
  assert (Grow : (nfixed n mp < nfixed n mp1)%nat).
  { apply filter_lt with (x := to); auto.
    - apply range_In; auto.
    - unfold fixedp. rewrite Ett. apply N.eqb_neq. intros ->. apply E. eapply nodup_nthN; eauto.
    - unfold fixedp. rewrite N2, N.eqb_refl. apply N.eqb_refl. }
  pose proof (nfixed_le n mp1) as Le1.
  destruct (IH from es1 mp1) as (es' & mp' & R & P & R' & Fx & M'); auto.
  { rewrite (swap_len _ _ _ _ S1); auto. }
  { lia. }
  exists es', mp'. split; auto. split; [|auto].
  rewrite P. eapply swap_perm; eauto.
Qed.

Lemma settle_all_ok {A} n fuel froms : forall (es : list A) mp, lenN es = n -> in_range n mp -> (forall f, In f froms -> f < n) ->
  (N.to_nat n < fuel)%nat ->
  exists es' mp', settle_all fuel froms es mp = Some (ZOk (es', mp')) /\ Permutation es' es /\ in_range n mp' /\
    (forall f, In f froms -> fixedp mp' f = true) /\ (forall q, fixedp mp q = true -> fixedp mp' q = true).
Proof.
  induction froms as [|f froms IH]; intros es mp Le R Fr Fu; cbn [settle_all].
  { exists es, mp. split; auto. }
  destruct (settle_ok n fuel f es mp) as (es1 & mp1 & -> & P1 & R1 & Fx & M1); auto; [apply Fr; cbn; auto|lia|].
  destruct (IH es1 mp1) as (es2 & mp2 & -> & P2 & R2 & F2 & M2); auto.
  { unfold lenN in *. rewrite (Permutation_length P1). auto. }
  { intros g I. apply Fr. cbn; auto. }
  exists es2, mp2. split; auto. split; [rewrite P2; auto|]. split; auto. split; auto.
  intros g [->|I]; auto.
Qed.

(** * Generating *)
Section gen.
Context (ub : N) (hs : list hashes) (n : N).
Local Notation umax := (2 ^ ub - 1).
Local Notation vac mp i := (nthN mp i = Some umax).

Lemma try_bucket_spec d mp : forall bucket added r, try_bucket ub hs n mp d bucket added = Some r ->
  NoDup (map fst added) -> (forall i k, In (i, k) added -> vac mp i) ->
  exists new, r = added ++ new /\ map snd new = bucket /\ NoDup (map fst r) /\
    (forall i k, In (i, k) r -> vac mp i) /\
    (forall i k, In (i, k) new -> exists h, nthN hs k = Some h /\ i = slot ub h d n).
Proof.
  induction bucket as [|key bucket IH]; intros added r; cbn [try_bucket].
  { intros [= <-] D V. exists []. rewrite app_nil_r. repeat split; auto. intros i k []. }
  destruct (nthN hs key) as [h|] eqn:Eh; [|discriminate]. cbv zeta.
  destruct (nthN mp (slot ub h d n)) as [m|] eqn:Em; [|discriminate].
  destruct (negb (m =? umax) || existsb _ added) eqn:G; [discriminate|]. intros E D V.
  apply orb_false_iff in G as [G1 G2]. apply negb_false_iff, N.eqb_eq in G1.
  assert (NI : ~ In (slot ub h d n) (map fst added)).
  { intros I. apply in_map_iff in I as ([i k] & Ei & I). assert (existsb (fun ik => fst ik =? slot ub h d n) added = true) as X.
    { apply existsb_exists. exists (i, k). split; auto. apply N.eqb_eq. auto. }
    congruence. }
  edestruct IH as (new & -> & Sn & D' & V' & S'); [exact E|..].
  { rewrite map_app. cbn. rewrite <- (rev_involutive (map fst added ++ [_])). apply NoDup_rev.
    rewrite rev_app_distr. cbn. constructor; [rewrite <- in_rev; auto|]. apply NoDup_rev; auto. }
  { intros i k I. apply in_app_iff in I as [I|[I|[]]]; [eauto|]. inversion I; subst. auto. }
  exists ((slot ub h d n, key) :: new). rewrite <- app_assoc in *. cbn [app] in *. repeat split; auto.
  - cbn. f_equal; auto.
  - intros i k [I|I]; [inversion I; subst; eauto|eauto].
Qed.

Lemma first_some_In {A B} (f : A -> option B) : forall l y, first_some f l = Some y -> exists x, In x l /\ f x = Some y.
Proof.
  induction l as [|a l IH]; cbn; [discriminate|]. intros y. destruct (f a) eqn:E.
  - intros [= <-]. eauto.
  - intros H. destruct (IH y H) as (x & I & X). eauto.
Qed.

Lemma find_disp_spec mp bucket d added : find_disp ub hs n mp bucket = Some (d, added) ->
  map snd added = bucket /\ NoDup (map fst added) /\ (forall i k, In (i, k) added -> vac mp i) /\
  (forall i k, In (i, k) added -> exists h, nthN hs k = Some h /\ i = slot ub h d n).
Proof.
  unfold find_disp. cbv zeta. intros E. apply first_some_In in E as (d1 & _ & E). apply first_some_In in E as (d2 & _ & E).
  destruct (try_bucket _ _ _ _ _ _ _) as [a|] eqn:T; [|discriminate]. inversion E; subst.
  destruct (try_bucket_spec _ _ _ _ _ T) as (new & -> & Sn & D & V & S'); [constructor|intros i k []|].
  repeat split; auto.
Qed.

Definition ne (x : N) : bool := negb (x =? umax).
Lemma add_all_spec : forall added mp, NoDup (map fst added) -> (forall i k, In (i, k) added -> vac mp i) ->
  (forall k, In k (map snd added) -> k < umax) ->
  lenN (add_all mp added) = lenN mp /\
  Permutation (filter ne (add_all mp added)) (map snd added ++ filter ne mp) /\
  (forall i k, In (i, k) added -> nthN (add_all mp added) i = Some k) /\
  (forall i k, nthN mp i = Some k -> k <> umax -> nthN (add_all mp added) i = Some k).
Proof.
  induction added as [|[i k] added IH]; intros mp D V K; cbn [add_all fold_left map].
  { repeat split; auto. intros i k []. }
  cbn [map fst snd] in *. inversion D; subst. pose proof (V i k ltac:(left; auto)) as Vi.
  pose proof (nthN_lt _ _ _ Vi) as Li. fold (add_all (upd mp i k) added).
  destruct (IH (upd mp i k)) as (L & P & A & B); auto.
  { intros j q I. rewrite nth_upd by auto. destruct (N.eqb_spec j i) as [->|NE]; [|eapply V; right; eauto].
    exfalso. apply H1. apply in_map_iff. exists (i, q). auto. }
  { intros q I. apply K. right; auto. }
  assert (kn : ne k = true). { unfold ne. apply negb_true_iff, N.eqb_neq. pose proof (K k ltac:(left; auto)). lia. }
  repeat split.
  - rewrite L. apply upd_len; auto.
  - rewrite P. destruct (upd_split mp i k _ Vi) as (l1 & l2 & E1 & E2). rewrite E2, E1. rewrite !filter_app. cbn [filter].
    rewrite kn. assert (Eu : ne umax = false) by (unfold ne; rewrite N.eqb_refl; auto). rewrite Eu.
    cbn [app]. rewrite <- !Permutation_middle. auto.
  - intros j q [I|I]; [|auto]. inversion I; subst. apply B; [rewrite nth_upd, N.eqb_refl; auto|].
    pose proof (K q ltac:(left; auto)). lia.
  - intros j q E Q. apply B; auto. rewrite nth_upd by auto. destruct (N.eqb_spec j i) as [->|NE]; auto. congruence.
Qed.

Lemma place_spec : forall bs mp ds mp', place ub hs n mp bs = Some (ds, mp') ->
  (forall b k, In b bs -> In k b -> k < umax) ->
  lenN mp' = lenN mp /\ Permutation (filter ne mp') (concat bs ++ filter ne mp) /\
  (forall i k, nthN mp i = Some k -> k <> umax -> nthN mp' i = Some k) /\
  Forall2 (fun b d => forall k, In k b -> exists h, nthN hs k = Some h /\ nthN mp' (slot ub h d n) = Some k) bs ds.
Proof.
  induction bs as [|b bs IH]; intros mp ds mp'; cbn [place concat].
  { intros [= <- <-] _. repeat split; auto. }
  destruct (find_disp ub hs n mp b) as [[d added]|] eqn:F; [|discriminate].
  destruct (place ub hs n (add_all mp added) bs) as [[ds1 mp1]|] eqn:P; [|discriminate]. intros [= <- <-] K.
  destruct (find_disp_spec _ _ _ _ F) as (Sn & D & V & S').
  destruct (add_all_spec added mp D V) as (L & Pm & A & B). { rewrite Sn. intros k I. eapply K; [left; reflexivity|auto]. }
  destruct (IH _ _ _ P) as (L1 & P1 & B1 & F1). { intros c k I J. eapply K; [right; eauto|auto]. }
  repeat split.
  - congruence.
  - rewrite P1, Pm, Sn. rewrite !app_assoc. apply Permutation_app_tail. apply Permutation_app_comm.
  - intros i k E Q. auto.
  - constructor; auto. intros k I. rewrite <- Sn in I. apply in_map_iff in I as ([i k'] & Ek & I). cbn in Ek; subst k'.
    destruct (S' _ _ I) as (h & Eh & ->). exists h. split; auto. apply B1; auto.
    assert (k < umax); [|lia]. eapply K; [left; reflexivity|]. rewrite <- Sn. apply in_map_iff. exists (slot ub h d n, k). auto.
Qed.
End gen.

(** The sorted buckets hold every index once. *)
Lemma sort_len_perm l : Permutation (sort_len l) l.
Proof.
  induction l as [|b l IH]; cbn; auto. fold (sort_len l). transitivity (b :: sort_len l); [|constructor; auto].
  generalize (sort_len l). clear.
  induction l as [|c l IH]; cbn; auto. destruct (_ <=? _)%nat; auto. rewrite IH. apply perm_swap.
Qed.

Lemma indexed_fst {A} : forall (l : list A) i, map fst (indexed i l) = map (fun k => i + N.of_nat k) (seq 0 (length l)).
Proof.
  induction l as [|a l IH]; intros i; cbn; auto. f_equal; [lia|]. rewrite IH, <- seq_shift, map_map. apply map_ext. intros; lia.
Qed.
Lemma indexed_nth {A} : forall (l : list A) i k x, In (k, x) (indexed i l) <-> i <= k /\ nthN l (k - i) = Some x.
Proof.
  induction l as [|a l IH]; intros i k x; cbn [indexed In].
  { split; [intros []|]. intros [_ E]. unfold nthN in E. destruct (N.to_nat (k - i)); discriminate. }
  rewrite IH. unfold nthN. split.
  - intros [[= -> ->]|[L E]].
    + split; [lia|]. rewrite N.sub_diag. auto.
    + split; [lia|]. replace (N.to_nat (k - i)) with (S (N.to_nat (k - (i + 1)))) by lia. auto.
  - intros [L E]. destruct (N.eq_dec k i) as [->|NE].
    + left. rewrite N.sub_diag in E. cbn in E. inversion E; auto.
    + right. split; [lia|]. replace (N.to_nat (k - i)) with (S (N.to_nat (k - (i + 1)))) in E by lia. auto.
Qed.

Lemma bucket_In hs L b k : In k (bucket_of hs L b) <-> exists h, nthN hs k = Some h /\ hg h mod L = b.
Proof.
  unfold bucket_of. rewrite in_map_iff. split.
  - intros ([k' h] & <- & I). apply filter_In in I as [I E]. apply N.eqb_eq in E. apply indexed_nth in I as [_ I]. rewrite N.sub_0_r in I. eauto.
  - intros (h & E & B). exists (k, h). split; auto. apply filter_In. split; [apply indexed_nth; rewrite N.sub_0_r; split; auto; lia|].
    apply N.eqb_eq; auto.
Qed.
Lemma indexed_NoDup {A} (l : list A) : NoDup (map fst (indexed 0 l)).
Proof. rewrite indexed_fst. apply NoDup_map_inj; [apply seq_NoDup|]. intros; lia. Qed.
Lemma NoDup_map_filter {A B} (f : A -> B) p : forall l, NoDup (map f l) -> NoDup (map f (filter p l)).
Proof.
  induction l as [|a l IH]; cbn; auto. intros D. inversion D; subst. destruct (p a); auto. cbn. constructor; auto.
  rewrite in_map_iff in *. intros (x & E & I). apply H1. exists x. split; auto. apply filter_In in I. tauto.
Qed.
Lemma concat_NoDup {A B} (f : A -> list B) : forall l, NoDup l -> (forall a, In a l -> NoDup (f a)) ->
  (forall a b x, In a l -> In b l -> In x (f a) -> In x (f b) -> a = b) -> NoDup (concat (map f l)).
Proof.
  induction l as [|a l IH]; intros D N X; cbn; [constructor|]. inversion D; subst.
  assert (forall x, In x (f a) -> ~ In x (concat (map f l))) as Dj.
  { intros x I J. apply in_concat in J as (c & Ic & J). apply in_map_iff in Ic as (b & <- & Ib).
    assert (a = b) by (eapply X; cbn; eauto). subst b. auto. }
  assert (Nc : NoDup (concat (map f l))). { apply IH; auto; [intros; apply N; cbn; auto|]. intros; eapply X; cbn; eauto. }
  specialize (N a ltac:(cbn; auto)). clear -N Nc Dj. induction (f a) as [|y m IH]; auto. inversion N; subst. cbn. constructor.
  - rewrite in_app_iff. intros [I|I]; auto. apply (Dj y); cbn; auto.
  - apply IH; auto. intros; apply Dj; cbn; auto.
Qed.

Lemma buckets_perm hs L : 0 < L -> Permutation (concat (buckets hs L)) (range (lenN hs)).
Proof.
  intros HL. apply NoDup_Permutation.
  - unfold buckets. apply concat_NoDup; [apply range_NoDup| |].
    + intros b _. unfold bucket_of. apply NoDup_map_filter, indexed_NoDup.
    + intros a b x _ _ Ia Ib. apply bucket_In in Ia as (h & E & <-). apply bucket_In in Ib as (h' & E' & <-). congruence.
  - apply range_NoDup.
  - intros k. rewrite in_concat, range_In. split.
    + intros (b & Ib & I). apply in_map_iff in Ib as (j & <- & _). apply bucket_In in I as (h & E & _). eapply nthN_lt; eauto.
    + intros Lk. destruct (nthN_some hs k Lk) as [h E]. exists (bucket_of hs L (hg h mod L)). split.
      * apply in_map. apply range_In. apply N.mod_lt. lia.
      * apply bucket_In. eauto.
Qed.

Lemma concat_perm {A} (l l' : list (list A)) : Permutation l l' -> Permutation (concat l) (concat l').
Proof.
  induction 1; cbn; auto.
  - apply Permutation_app_head; auto.
  - rewrite !app_assoc. apply Permutation_app_tail, Permutation_app_comm.
  - etransitivity; eauto.
Qed.

Lemma dlen_pos n : 0 < n -> 0 < displacements_len n.
Proof. intros H. unfold displacements_len. apply N.div_str_pos. lia. Qed.

Lemma try_generate_spec ub hs ds mp : lenN hs < 2 ^ ub - 1 -> try_generate ub hs = Some (ds, mp) ->
  in_range (lenN hs) mp /\ lenN ds = displacements_len (lenN hs) /\
  Forall2 (fun b d => forall k, In k b -> exists h, nthN hs k = Some h /\ nthN mp (slot ub h d (lenN hs)) = Some k)
    (sort_len (buckets hs (displacements_len (lenN hs)))) ds.
Proof.
  intros Ln E. unfold try_generate in E. cbv zeta in E. set (n := lenN hs) in *. set (L := displacements_len n) in *.
  assert (Kb : forall b k, In b (sort_len (buckets hs L)) -> In k b -> k < n).
  { intros b k Ib I. eapply (Permutation_in _ (sort_len_perm _)) in Ib. apply in_map_iff in Ib as (j & <- & _).
    apply bucket_In in I as (h & X & _). eapply nthN_lt; eauto. }
  destruct (place_spec _ _ _ _ _ _ _ E) as (Lm & P & _ & F2). { intros b k Ib I. specialize (Kb b k Ib I). lia. }
  assert (Ld : lenN ds = L).
  { assert (length ds = length (buckets hs L)) as X.
    { rewrite <- (Forall2_length _ _ _ F2). apply Permutation_length, sort_len_perm. }
    unfold lenN. rewrite X. unfold buckets. rewrite map_length. pose proof (range_len L) as R. unfold lenN in R. lia. }
  split; [|split; auto]. clear F2.
  assert (Lm' : lenN mp = n). { rewrite Lm. unfold lenN. rewrite repeat_length. lia. }
  assert (R0 : filter (ne ub) (List.repeat (2 ^ ub - 1) (N.to_nat n)) = []).
  { clear. induction (N.to_nat n) as [|m IH]; cbn; auto. unfold ne at 1. rewrite N.eqb_refl. cbn. auto. }
  rewrite R0, app_nil_r in P.
  assert (Permutation (filter (ne ub) mp) (range n)) as P'.
  { rewrite P. destruct (N.eq_dec n 0) as [Z|Z].
    - assert (hs = []) as -> by (destruct hs; auto; unfold lenN in *; cbn in *; lia).
      subst n L. cbn. auto.
    - rewrite (concat_perm _ _ (sort_len_perm _)). apply buckets_perm. apply dlen_pos. lia. }
  assert (Fl : filter (ne ub) mp = mp).
  { pose proof (Permutation_length P') as X. pose proof (range_len n) as R. unfold lenN in *.
    assert (length (filter (ne ub) mp) = length mp) as Y by lia. clear -Y. induction mp as [|a m IH]; auto.
    cbn in *. destruct (ne ub a).
    - cbn in Y. f_equal. auto.
    - pose proof (filter_length_le (ne ub) m). lia. }
  rewrite Fl in P'. split; auto. split.
  - eapply Permutation_NoDup; [symmetry; eauto|]. apply range_NoDup.
  - intros x I. apply range_In. eapply Permutation_in; eauto.
Qed.

Lemma generate_spec {K} ub hf seeds : forall fuel i (ks : list K) s ds mp, generate fuel ub hf seeds i ks = Some (s, ds, mp) ->
  exists j, (i <= j < i + fuel)%nat /\ s = seeds j /\ try_generate ub (map (hf s) ks) = Some (ds, mp).
Proof.
  induction fuel as [|fuel IH]; intros i ks s ds mp; cbn [generate]; [discriminate|].
  destruct (try_generate ub _) as [[ds1 mp1]|] eqn:E.
  - intros [= <- <- <-]. exists i. repeat split; auto. lia.
  - intros H. destruct (IH _ _ _ _ _ H) as (j & Hj & -> & T). exists j. repeat split; auto; lia.
Qed.

(** * Storing *)
Lemma store_spec {K V} fuel ub hf seeds (es : list (K * V)) : lenN es < 2 ^ ub - 1 ->
  match generate fuel ub hf seeds 0 (map fst es) with
  | None => phf_store fuel ub hf seeds es = None
  | Some (s, ds, mp) => exists m, phf_store fuel ub hf seeds es = Some (ZOk m) /\ pseed m = s /\ pdisp m = ds /\ Permutation (pents m) es
  end.
Proof.
  intros L. unfold phf_store. destruct (generate _ _ _ _ _ _) as [[[s ds] mp]|] eqn:G; auto.
  destruct (generate_spec _ _ _ _ _ _ _ _ _ G) as (j & _ & -> & T).
  assert (Lh : lenN (map (hf (seeds j)) (map fst es)) = lenN es) by (unfold lenN; rewrite !map_length; auto).
  apply try_generate_spec in T as (R & _ & _); [|lia]. rewrite Lh in R.
  destruct (settle_all_ok (lenN es) (S (length es)) (range (lenN es)) es mp) as (es' & mp' & -> & P & _); auto.
  - intros f I. apply range_In; auto.
  - unfold lenN. lia.
  - cbn [zbind]. eexists. split; [reflexivity|]. auto.
Qed.

(** * Looking up *)
Lemma get_total {K V} ub hf keq (m : phf K V) k : (pents m = [] -> pdisp m = []) ->
  exists r, phf_get ub hf keq m k = ZOk r /\
  (forall v, r = Some v -> exists k', In (k', v) (pents m) /\ keq k' k = true) /\
  (forall d, nthN (pdisp m) (hg (hf (pseed m) k) mod lenN (pdisp m)) = Some d ->
    forall k' v, nthN (pents m) (slot ub (hf (pseed m) k) d (lenN (pents m))) = Some (k', v) -> keq k' k = true -> r = Some v).
Proof.
  intros H. unfold phf_get. destruct (pdisp m) as [|d0 ds] eqn:D.
  { exists None. split; auto. split; [discriminate|]. intros d E. unfold nthN in E. destruct (N.to_nat _) in E; discriminate. }
  set (h := hf (pseed m) k). set (dd := d0 :: ds) in *.
  assert (Ld : lenN dd <> 0) by (unfold dd, lenN; cbn [length]; lia).
  destruct (nthN_some dd (hg h mod lenN dd)) as [d Ed]; [apply N.mod_lt; auto|].
  unfold get_index. rewrite Ed.
  assert (Ln : lenN (pents m) =? 0 = false).
  { apply N.eqb_neq. intros Z. assert (pents m = []) as X by (destruct (pents m); auto; unfold lenN in Z; cbn [length] in Z; lia).
    specialize (H X). unfold dd in *. discriminate. }
  rewrite Ln. cbn [zbind]. destruct (nthN (pents m) _) as [[k' v]|] eqn:E.
  - destruct (keq k' k) eqn:Q; eexists; (split; [reflexivity|]); split.
    + intros w [= <-]. exists k'. split; auto. eapply nthN_In; eauto.
    + intros d' [= <-] k'' v' E' _. congruence.
    + discriminate.
    + intros d' [= <-] k'' v' E' Q'. congruence.
  - exists None. split; auto. split; [discriminate|]. intros d' [= <-] k'' v' E'. congruence.
Qed.

(** A bucket's entries under its displacement *)
Lemma generated_bucket ub hs ds mp : lenN hs < 2 ^ ub - 1 -> try_generate ub hs = Some (ds, mp) ->
  forall b, b < displacements_len (lenN hs) -> exists d, In d ds /\
  forall k h, nthN hs k = Some h -> hg h mod displacements_len (lenN hs) = b -> nthN mp (slot ub h d (lenN hs)) = Some k.
Proof.
  intros L E b Hb. destruct (try_generate_spec _ _ _ _ L E) as (_ & _ & F2).
  assert (In (bucket_of hs (displacements_len (lenN hs)) b) (sort_len (buckets hs (displacements_len (lenN hs))))) as I.
  { eapply Permutation_in; [symmetry; apply sort_len_perm|]. apply in_map. apply range_In; auto. }
  apply In_nth_error in I as [j J]. pose proof (Forall2_nth _ _ _ F2 j) as X. cbv beta in X. rewrite J in X.
  destruct (nth_error ds j) as [d|] eqn:Ed; [|destruct X]. exists d. split; [eapply nth_error_In; eauto|].
  intros k h Eh Hg. destruct (X k) as (h' & Eh' & M); [apply bucket_In; eauto|]. congruence.
Qed.

Lemma try_generate_dup ub hs i j h : lenN hs < 2 ^ ub - 1 -> nthN hs i = Some h -> nthN hs j = Some h -> i <> j -> try_generate ub hs = None.
Proof.
  intros L Ei Ej NE. destruct (try_generate ub hs) as [[ds mp]|] eqn:E; auto. exfalso. pose proof (nthN_lt _ _ _ Ei) as Li.
  assert (P := dlen_pos (lenN hs) ltac:(lia)).
  destruct (generated_bucket _ _ _ _ L E (hg h mod displacements_len (lenN hs))) as (d & _ & G); [apply N.mod_lt; lia|].
  pose proof (G i h Ei eq_refl). pose proof (G j h Ej eq_refl). congruence.
Qed.

Lemma generate_dup {K} ub hf seeds (ks : list K) i j k : lenN ks < 2 ^ ub - 1 -> nthN ks i = Some k -> nthN ks j = Some k -> i <> j ->
  forall fuel s, generate fuel ub hf seeds s ks = None.
Proof.
  intros L Ei Ej NE. induction fuel as [|fuel IH]; intros s; auto. cbn [generate].
  rewrite (try_generate_dup ub (map (hf (seeds s)) ks) i j (hf (seeds s) k)); auto.
  - unfold lenN in *. rewrite map_length. auto.
  - unfold nthN in *. apply map_nth_error; auto.
  - unfold nthN in *. apply map_nth_error; auto.
Qed.
