(** Lemmas about stored prefix tries: layout, lookups and iteration. *)
From Coq Require Import Permutation Sorted.
From Verif Require Import Base Options Int Zc ZcBuf ZcRefSpec ZcRefFacts Swiss SwissFacts Phf PhfFacts Trie TrieSpec TrieFacts BaseFacts IOFacts.
Local Open Scope N_scope.

Section stored.
Context {V : Type} (E : tenv) (bs : bytes).
Implicit Types (t : tree V) (ch : list (sref * tree V)) (l : links V).
Local Notation key c := (key_at bs (fst c)).

(** * Layout *)
Definition go_repr (repr : links V -> tree V -> Prop) (B : tbuf V) (r : sref) := fix go (i : N) ch : Prop :=
  match ch with
  | [] => True
  | c :: ch => (exists n, load_child E B r i = ZOk n /\ nstr n = fst c /\ repr (nlinks n) (snd c)) /\ go (i + 1) ch
  end.
Fixpoint repr (B : tbuf V) (l : links V) (t : tree V) : Prop :=
  match t with
  | Tree vals ch => lvals l = vals /\ snd (lch l) = lenN ch /\
      (fix go (i : N) ch : Prop :=
         match ch with
         | [] => True
         | c :: ch => (exists n, load_child E B (lch l) i = ZOk n /\ nstr n = fst c /\ repr B (nlinks n) (snd c)) /\ go (i + 1) ch
         end) 0 ch
  end.
Lemma repr_eq B l vals ch : repr B l (Tree vals ch) <-> lvals l = vals /\ snd (lch l) = lenN ch /\
  forall i c, nthN ch i = Some c -> exists n, load_child E B (lch l) i = ZOk n /\ nstr n = fst c /\ repr B (nlinks n) (snd c).
Proof.
  cbn [repr]. change ((fix go (i : N) ch : Prop :=
         match ch with
         | [] => True
         | c :: ch => (exists n, load_child E B (lch l) i = ZOk n /\ nstr n = fst c /\ repr B (nlinks n) (snd c)) /\ go (i + 1) ch
         end) 0 ch) with (go_repr (repr B) B (lch l) 0 ch).
  assert (H : forall i0, go_repr (repr B) B (lch l) i0 ch <->
    forall i c, nthN ch i = Some c -> exists n, load_child E B (lch l) (i0 + i) = ZOk n /\ nstr n = fst c /\ repr B (nlinks n) (snd c)).
  2: { rewrite (H 0). tauto. }
  induction ch as [|c ch IH]; intros i0; cbn [go_repr].
  - split; auto. intros _ i c. unfold nthN. destruct (N.to_nat i); discriminate.
  - rewrite IH. split.
    + intros [A1 A2] i c'. unfold nthN. destruct (N.to_nat i) as [|j] eqn:J; cbn [nth_error].
      * intros [= <-]. assert (i = 0) as -> by lia. rewrite N.add_0_r. auto.
      * intros Q. specialize (A2 (i - 1) c'). unfold nthN in A2. replace (N.to_nat (i - 1)) with j in A2 by lia.
        replace (i0 + i) with (i0 + 1 + (i - 1)) by lia. auto.
    + intros A. split.
      * specialize (A 0 c). rewrite N.add_0_r in A. apply A. reflexivity.
      * intros i c' Q. specialize (A (i + 1) c'). replace (i0 + (i + 1)) with (i0 + 1 + i) in A by lia. apply A.
        unfold nthN in *. replace (N.to_nat (i + 1)) with (S (N.to_nat i)) by lia. auto.
Qed.

Definition go_nodes := fix go ch (next : N) (mem : list (N * noderef V)) : zres (list (noderef V) * (N * list (N * noderef V))) :=
  match ch with
  | [] => ZOk ([], (next, mem))
  | (r, sub) :: ch =>
      if emx E <? fst r then ZErr else
      if emx E <? snd r then ZErr else
      let+ (l, (next, mem)) := into_ref E next mem sub in
      let+ (ns, (next, mem)) := go ch next mem in
      ZOk ({| nstr := r; nlinks := l |} :: ns, (next, mem))
  end.
Lemma into_ref_eq next mem vals ch : into_ref E next mem (Tree vals ch) =
  let+ (nodes, (next, mem)) := go_nodes ch next mem in
  if emx E <? next then ZPanic else
  if emx E <? lenN nodes then ZPanic else
  ZOk ({| lvals := vals; lch := (next, lenN nodes) |}, (next + ensz E * lenN nodes, mem ++ place_nodes (ensz E) next nodes)).
Proof. reflexivity. Qed.

Lemma place_In (ns : list (noderef V)) : forall o off n, In (off, n) (place_nodes (ensz E) o ns) <-> exists i, nthN ns i = Some n /\ off = o + ensz E * i.
Proof.
  induction ns as [|n0 ns IH]; intros o off n; cbn [place_nodes In].
  - split; [intros []|]. intros (i & Q & _). unfold nthN in Q. destruct (N.to_nat i); discriminate.
  - rewrite IH. split.
    + intros [[= <- <-]|(i & Q & ->)]; [exists 0; split; [reflexivity|lia]|].
      exists (i + 1). split; [|lia]. unfold nthN in *. replace (N.to_nat (i + 1)) with (S (N.to_nat i)) by lia. auto.
    + intros (i & Q & ->). unfold nthN in Q. destruct (N.to_nat i) as [|j] eqn:J; cbn in Q.
      * left. inversion Q. f_equal. lia.
      * right. exists (i - 1). split; [unfold nthN; replace (N.to_nat (i - 1)) with j by lia; auto|].
        assert (K : i = (i - 1) + 1) by lia. rewrite K at 1. rewrite N.mul_add_distr_l, N.mul_1_r. lia.
Qed.
Lemma place_NoDup : 0 < ensz E -> forall (ns : list (noderef V)) o, NoDup (map fst (place_nodes (ensz E) o ns)).
Proof.
  intros Z. induction ns as [|n ns IH]; intros o; cbn [place_nodes map fst]; constructor; auto.
  intros I. apply in_map_iff in I as ([off n'] & Q & I). apply place_In in I as (i & _ & ->). cbn [fst] in Q. lia.
Qed.
Lemma place_len (ns : list (noderef V)) : forall o, lenN (place_nodes (ensz E) o ns) = lenN ns.
Proof. induction ns as [|n ns IH]; intros o; cbn [place_nodes]; auto. rewrite !lenN_cons, IH. auto. Qed.

(** References of the tree that fit *)
Fixpoint fits_refs t : Prop :=
  match t with Tree _ ch => fold_right (fun c P => (fst (fst c) <= emx E /\ snd (fst c) <= emx E /\ fits_refs (snd c)) /\ P) True ch end.
Lemma wok_fits : lenN bs <= emx E -> forall t p, wok bs p t -> fits_refs t.
Proof.
  intros L. induction t as [vals ch IH] using tree_ind'. intros p W. apply wok_eq in W. cbn [fits_refs].
  induction ch as [|c ch IHc]; cbn [fold_right]; auto. pose proof (Forall_inv W) as [[I _] Wc]. split.
  - destruct c as [[o l] s]. cbn [fst snd] in *. unfold ref_in in I. cbn [fst snd] in I. split; [lia|]. split; [lia|]. apply (Forall_inv IH _ Wc).
  - apply IHc; [exact (Forall_inv_tail IH)|exact (Forall_inv_tail W)].
Qed.

Lemma NoDup_app' {A} (l1 l2 : list A) : NoDup l1 -> NoDup l2 -> (forall x, In x l1 -> ~ In x l2) -> NoDup (l1 ++ l2).
Proof.
  induction 1 as [|x l H N IH]; intros N2 D; auto. cbn [app]. constructor.
  - rewrite in_app_iff. intros [I|I]; auto. apply (D x); cbn; auto.
  - apply IH; auto. intros y I. apply D. cbn; auto.
Qed.

Definition spread (lo hi : N) (mem : list (N * noderef V)) : Prop := NoDup (map fst mem) /\ forall off n, In (off, n) mem -> lo <= off < hi.
Lemma spread_app a b c m1 m2 : spread a b m1 -> spread b c m2 -> a <= b -> b <= c -> spread a c (m1 ++ m2).
Proof.
  intros [N1 R1] [N2 R2] L1 L2. split.
  - rewrite map_app. apply NoDup_app'; auto. intros x I J. apply in_map_iff in I as ([o n] & <- & I). apply in_map_iff in J as ([o' n'] & Q & J).
    cbn [fst] in *. subst o'. apply R1 in I. apply R2 in J. lia.
  - intros off n I. apply in_app_iff in I as [I|I]; [apply R1 in I|apply R2 in I]; lia.
Qed.

Definition loads (B : tbuf V) (mem : list (N * noderef V)) : Prop := forall off n, In (off, n) mem -> tnode B off = ZOk n.
Lemma into_ref_ok : 0 < ensz E -> emx E < 2 ^ eub E -> forall t next mem, fits_refs t -> next + ensz E * nodes t <= emx E -> nodes t <= emx E ->
  exists l mem2, into_ref E next mem t = ZOk (l, (next + ensz E * nodes t, mem ++ mem2)) /\
    spread next (next + ensz E * nodes t) mem2 /\ forall B, loads B mem2 -> repr B l t.
Proof.
  intros Z U. induction t as [vals ch IH] using tree_ind'. intros next mem Fi Ro Ro2.
  assert (G : forall next mem, next + ensz E * nodes (Tree vals ch) <= emx E ->
    exists ns mem2 nx, go_nodes ch next mem = ZOk (ns, (nx, mem ++ mem2)) /\ lenN ns = lenN ch /\
      nx + ensz E * lenN ch = next + ensz E * nodes (Tree vals ch) /\ next <= nx /\ spread next nx mem2 /\
      forall B, loads B mem2 -> Forall2 (fun n c => nstr n = fst c /\ repr B (nlinks n) (snd c)) ns ch).
  { clear Ro next mem. induction ch as [|[r sub] ch IHc]; intros next mem Ro.
    - exists [], [], next. cbn [go_nodes]. rewrite app_nil_r. repeat split; auto; try lia.
      all: first [constructor | cbn in *; tauto].
    - rewrite nodes_cons in Ro, Ro2. cbn [snd] in Ro, Ro2. cbn [fits_refs fold_right fst snd] in Fi. destruct Fi as [(F1 & F2 & F3) Fi].
      rewrite !N.mul_add_distr_l in Ro.
      destruct (Forall_inv IH next mem F3) as (l & m1 & E1 & S1 & R1); [cbn [snd]; lia|cbn [snd]; lia|]. cbn [snd] in *.
      assert (Fi2 : fits_refs (Tree vals ch)) by exact Fi.
      destruct (IHc (Forall_inv_tail IH) Fi2 ltac:(lia) (next + ensz E * nodes sub) (mem ++ m1)) as (ns & m2 & nx & E2 & L2 & N2 & Le & S2 & R2); [lia|].
      exists ({| nstr := r; nlinks := l |} :: ns), (m1 ++ m2), nx. cbn [go_nodes].
      destruct (N.ltb_spec (emx E) (fst r)); [lia|]. destruct (N.ltb_spec (emx E) (snd r)); [lia|].
      rewrite E1. cbn [zbind]. rewrite E2. cbn [zbind]. rewrite app_assoc. split; [reflexivity|].
      rewrite !lenN_cons, L2. split; [reflexivity|]. rewrite nodes_cons. cbn [snd]. rewrite !N.mul_add_distr_l. split; [lia|]. split; [lia|]. split.
      + eapply spread_app; eauto; lia.
      + intros B Lb. constructor.
        * split; auto. apply R1. intros off n I. apply Lb. apply in_app_iff; auto.
        * apply R2. intros off n I. apply Lb. apply in_app_iff; auto. }
  destruct (G next mem Ro) as (ns & m2 & nx & E1 & Ln & Nx & Le & S1 & R1). clear G.
  rewrite into_ref_eq, E1. cbn [zbind]. rewrite Ln.
  assert (Lc : lenN ch <= nodes (Tree vals ch)).
  { clear. induction ch as [|c ch IH]; [cbn; lia|]. rewrite lenN_cons, nodes_cons. lia. }
  destruct (N.ltb_spec (emx E) nx); [lia|]. destruct (N.ltb_spec (emx E) (lenN ch)); [lia|].
  eexists _, (m2 ++ place_nodes (ensz E) nx ns). rewrite app_assoc, Nx. split; [reflexivity|]. split.
  - eapply spread_app; [exact S1| |lia|lia]. split; [apply place_NoDup; auto|].
    intros off n I. apply place_In in I as (i & Q & ->). apply nthN_lt in Q. rewrite Ln in Q. split; [lia|].
    rewrite <- Nx. assert (ensz E * i < ensz E * lenN ch) by (apply N.mul_lt_mono_pos_l; auto). lia.
  - intros B Lb. apply repr_eq. cbn [lvals lch fst snd]. split; auto. split; auto. intros i c Q.
    assert (F2 : Forall2 (fun n c => nstr n = fst c /\ repr B (nlinks n) (snd c)) ns ch).
    { apply R1. intros off n I. apply Lb. apply in_app_iff; auto. }
    pose proof (SwissGroup.Forall2_nth _ _ _ F2 (N.to_nat i)) as X. cbv beta in X. unfold nthN in Q. rewrite Q in X.
    destruct (nth_error ns (N.to_nat i)) as [n|] eqn:Qn; [|destruct X]. exists n. split; [|exact X].
    pose proof (nthN_lt ch i c Q) as Li. assert (ensz E * i < ensz E * lenN ch) as Lo by (apply N.mul_lt_mono_pos_l; auto).
    unfold load_child, child_off, umul, uadd. cbn [fst].
    destruct (N.ltb_spec (ensz E * i) (2 ^ eub E)); [|lia]. cbn [zbind].
    destruct (N.ltb_spec (nx + ensz E * i) (2 ^ eub E)); [|lia]. cbn [zbind].
    destruct (N.ltb_spec (emx E) (nx + ensz E * i)); [lia|]. cbn [zbind].
    apply Lb. apply in_app_iff. right. apply place_In. exists i. auto.
Qed.

Lemma mem_loads lo hi mem : spread lo hi mem -> loads (mem_buf bs mem) mem.
Proof.
  intros [D _] off n I. unfold mem_buf. cbn [tnode].
  assert (X : List.find (fun e => fst e =? off) mem = Some (off, n)); [|rewrite X; auto].
  clear -D I. induction mem as [|[o m] mem IH]; [destruct I|]. cbn [List.find fst map] in *. inversion D; subst. destruct I as [[= -> ->]|I].
  - rewrite N.eqb_refl. auto.
  - destruct (N.eqb_spec o off) as [->|NE]; auto. exfalso. apply H1. apply in_map_iff. exists (off, n). auto.
Qed.

(** * Lookups *)
Context (B : tbuf V) (Hs : tstr B = str_load bs).

Lemma bs_loop_ext p1 p2 : forall fuel size left right, left + size <= right \/ size = right - left ->
  (forall i, i < right -> p1 i = p2 i) -> bs_loop fuel p1 size left right = bs_loop fuel p2 size left right.
Proof.
  induction fuel as [|fuel IH]; intros size left right Sz H; auto. cbn [bs_loop]. destruct (N.ltb_spec left right) as [L|L]; auto.
  assert (M : left + size / 2 < right).
  { destruct (N.eq_dec size 0) as [->|NZ]; [change (0 / 2) with 0; lia|]. assert (size / 2 < size) by (apply N.div_lt; lia). lia. }
  rewrite (H _ M). destruct (p2 (left + size / 2)) as [[]| | |]; auto.
  apply IH; [right; lia|]. intros i Li. apply H. lia.
Qed.
Lemma search_nodes_ok l vals ch s : repr B l (Tree vals ch) -> search_nodes E B (lch l) s = search_children bs ch s.
Proof.
  intros R. apply repr_eq in R as (_ & Ln & R). unfold search_nodes, search_children, binary_search_by. rewrite Ln.
  apply bs_loop_ext; [right; lia|]. intros i L. destruct (nthN_some ch i L) as [c Q]. rewrite Q.
  destruct (R i c Q) as (n & E1 & E2 & _). rewrite E1. cbn [zbind]. rewrite Hs, E2. auto.
Qed.

Lemma wok_refs p vals ch : wok bs p (Tree vals ch) -> Forall (fun x : sref * tree V => ref_in bs (fst x)) ch.
Proof. intros W. apply wok_eq in W. eapply Forall_impl; [|exact W]. intros a [[? _] _]; auto. Qed.
Lemma wok_child p vals ch c : wok bs p (Tree vals ch) -> In c ch -> path_ok bs p (fst c) /\ wok bs (p ++ key c) (snd c).
Proof. intros W I. apply wok_eq in W. rewrite Forall_forall in W. auto. Qed.

(** The child that shares the first byte is unique. *)
Lemma same_head ch i j ci cj : StronglySorted hlt (map (fun c => key c) ch) -> nthN ch i = Some ci -> nthN ch j = Some cj ->
  hd_error (key ci) = hd_error (key cj) -> i = j.
Proof.
  intros S' Ei Ej H. destruct (N.lt_trichotomy i j) as [L|[->|L]]; auto.
  - pose proof (sorted_nth (map (fun c => key c) ch) i j _ _ S' (nthN_map _ _ _ _ Ei) (nthN_map _ _ _ _ Ej) L) as X. apply hlt_hd in X. congruence.
  - pose proof (sorted_nth (map (fun c => key c) ch) j i _ _ S' (nthN_map _ _ _ _ Ej) (nthN_map _ _ _ _ Ei) L) as X. apply hlt_hd in X. congruence.
Qed.

(** Searching for a string beginning with a child's *)
Lemma search_below ch i c q : Forall (fun x : sref * tree V => ref_in bs (fst x)) ch -> StronglySorted hlt (map (fun c => key c) ch) ->
  nthN ch i = Some c -> key c <> [] -> q <> [] -> search_children bs ch (key c ++ q) = Some (ZOk (Missing (i + 1))).
Proof.
  intros F S' Ei Kn Qn. destruct (search_strong bs ch (key c ++ q) F S') as (r & -> & Hr).
  assert (Lt' : cmp_bytes (key c) (key c ++ q) = Lt).
  { rewrite <- (app_nil_r (key c)) at 1. rewrite cmp_app. destruct q; [congruence|reflexivity]. }
  assert (Hd : hd_error (key c ++ q) = hd_error (key c)) by (destruct (key c); [congruence|reflexivity]).
  destruct r as [n|n]; cbn [answer] in Hr.
  - destruct Hr as [L C]. destruct (nthN_some ch n L) as [cn En]. rewrite En in C. apply cmp_eq in C.
    assert (n = i) by (eapply same_head; eauto; congruence). subst n. rewrite Ei in En. inversion En; subst cn. rewrite <- C in Lt'.
    rewrite cmp_refl in Lt'. discriminate.
  - destruct Hr as (Ln & Lo & Hi). pose proof (nthN_lt _ _ _ Ei) as Li.
    assert (i < n). { destruct (N.lt_ge_cases i n) as [|G]; auto. specialize (Hi i G Li). rewrite Ei in Hi. congruence. }
    destruct (N.eq_dec n (i + 1)) as [->|NE]; auto. exfalso.
    destruct (nthN_some ch (n - 1)) as [cn En]; [lia|]. specialize (Lo (n - 1) ltac:(lia)). rewrite En in Lo.
    pose proof (sorted_nth (map (fun c => key c) ch) i (n - 1) _ _ S' (nthN_map _ _ _ _ Ei) (nthN_map _ _ _ _ En) ltac:(lia)) as X.
    eapply hlt_hd_eq_l in X; [|symmetry; exact Hd]. apply hlt_cmp in X. rewrite cmp_antisym, X in Lo. discriminate.
Qed.
Lemma search_at ch i c : Forall (fun x : sref * tree V => ref_in bs (fst x)) ch -> StronglySorted hlt (map (fun c => key c) ch) ->
  nthN ch i = Some c -> search_children bs ch (key c) = Some (ZOk (Found i)).
Proof.
  intros F S' Ei. destruct (search_strong bs ch (key c) F S') as (r & -> & Hr). destruct r as [n|n]; cbn [answer] in Hr.
  - destruct Hr as [L C]. destruct (nthN_some ch n L) as [cn En]. rewrite En in C. apply cmp_eq in C.
    assert (n = i) by (eapply same_head; eauto; congruence). subst n. auto.
  - destruct Hr as (Ln & Lo & Hi). exfalso. pose proof (nthN_lt _ _ _ Ei) as Li. destruct (N.lt_ge_cases i n) as [G|G].
    + specialize (Lo i G). rewrite Ei, cmp_refl in Lo. discriminate.
    + specialize (Hi i G Li). rewrite Ei, cmp_refl in Hi. discriminate.
Qed.
(** ... and for a proper prefix of a child's *)
Lemma search_above ch i c q z : Forall (fun x : sref * tree V => ref_in bs (fst x)) ch -> StronglySorted hlt (map (fun c => key c) ch) ->
  nthN ch i = Some c -> key c = q ++ z -> q <> [] -> z <> [] -> search_children bs ch q = Some (ZOk (Missing i)).
Proof.
  intros F S' Ei K Qn Zn. destruct (search_strong bs ch q F S') as (r & -> & Hr).
  assert (Lt' : cmp_bytes (key c) q = Gt).
  { rewrite K. rewrite <- (app_nil_r q) at 2. rewrite cmp_app. destruct z; [congruence|reflexivity]. }
  assert (Hd : hd_error q = hd_error (key c)) by (rewrite K; destruct q; [congruence|reflexivity]).
  destruct r as [n|n]; cbn [answer] in Hr.
  - destruct Hr as [L C]. destruct (nthN_some ch n L) as [cn En]. rewrite En in C. apply cmp_eq in C.
    assert (n = i) by (eapply same_head; eauto; congruence). subst n. rewrite Ei in En. inversion En; subst cn. rewrite C, cmp_refl in Lt'. discriminate.
  - destruct Hr as (Ln & Lo & Hi). pose proof (nthN_lt _ _ _ Ei) as Li.
    assert (n <= i). { destruct (N.lt_ge_cases i n) as [G|]; auto. specialize (Lo i G). rewrite Ei in Lo. congruence. }
    destruct (N.eq_dec n i) as [->|NE]; auto. exfalso.
    destruct (nthN_some ch n) as [cn En]; [lia|]. specialize (Hi n ltac:(lia) ltac:(lia)). rewrite En in Hi.
    pose proof (sorted_nth (map (fun c => key c) ch) n i _ _ S' (nthN_map _ _ _ _ En) (nthN_map _ _ _ _ Ei) ltac:(lia)) as X.
    eapply hlt_hd_eq_r in X; [|symmetry; exact Hd]. apply hlt_cmp in X. rewrite X in Hi. discriminate.
Qed.

(** A child with an empty string has no further keys. *)
Lemma cok_below root c (e : bytes * V) : cok bs root c -> In e (entries bs (snd c)) -> fst e <> [] -> key c <> [].
Proof.
  intros (K & _ & _) I Ne Z. destruct (K Z) as [_ Kd]. destruct (snd c) as [vals ch]. cbn [kids] in Kd. subst ch.
  rewrite entries_eq in I. cbn [flat_map] in I. rewrite app_nil_r in I. apply in_map_iff in I as (v & <- & _). auto.
Qed.

Lemma get_complete : forall fuel root p t l k, wok bs p t -> srt bs root t -> repr B l t -> (k = [] -> root = true) ->
  values_at k (entries bs t) <> [] -> (length k < fuel)%nat ->
  get_loop fuel E B l k = Some (ZOk (Some (values_at k (entries bs t)))).
Proof.
  induction fuel as [|fuel IH]; intros root p [vals ch] l k W So R Rt Ne Fu; [lia|]. cbn [get_loop].
  rewrite (search_nodes_ok l vals ch k R). pose proof (wok_refs _ _ _ W) as Fr. pose proof (proj1 (srt_eq _ _ _ _) So) as (Hv & Sk & Ck).
  assert (V0 : values_at k (entries bs (Tree vals ch)) = values_at k (flat_map (centries bs) ch)).
  { rewrite entries_eq, values_app. destruct k as [|x k]; [rewrite Hv by auto; reflexivity|rewrite values_cons_pair; auto]. }
  rewrite V0 in *.
  assert (Ex : exists c e, In c ch /\ In e (centries bs c) /\ fst e = k).
  { unfold values_at in Ne. destruct (filter _ _) as [|e es] eqn:Q; [cbn in Ne; congruence|].
    assert (In e (filter (fun e => bytes_eqb (fst e) k) (flat_map (centries bs) ch))) as I by (rewrite Q; left; auto).
    apply filter_In in I as [I Y]. apply in_flat_map in I as (c & Ic & Ie). apply beqb_eq in Y. eauto. }
  destruct Ex as (c & e & Ic & Ie & Ke). rewrite Forall_forall in Ck. pose proof (Ck c Ic) as Okc.
  pose proof (centries_hd bs root c e Okc Ie) as Hd. rewrite Ke in Hd.
  rewrite (values_child bs root k ch c) in * by (rewrite ?Forall_forall; auto).
  apply in_map_iff in Ie as (e0 & Q & Ie). subst e. unfold pre in Ke. cbn [fst] in Ke.
  destruct (In_nthN _ _ Ic) as [i Ei]. destruct (wok_child _ _ _ _ W Ic) as [Pc Wc].
  apply repr_eq in R as (_ & Ln & R). destruct (R i c Ei) as (n & Q1 & Q2 & Q3).
  unfold centries in *. subst k. rewrite values_pre in *. destruct (fst e0) as [|y k2] eqn:Z.
  - rewrite app_nil_r in *. rewrite (search_at ch i c Fr Sk Ei), Q1. cbn [zbind]. rewrite values_own by apply Okc.
    destruct (snd c) as [vs cs]. apply repr_eq in Q3 as (-> & _). reflexivity.
  - assert (Kn : key c <> []) by (eapply cok_below; eauto; congruence).
    rewrite (search_below ch i c (y :: k2) Fr Sk Ei Kn) by discriminate.
    destruct (N.eqb_spec (i + 1) 0); [lia|]. replace (i + 1 - 1) with i by lia. rewrite Q1. cbn [zbind]. rewrite Hs, Q2, str_load_in by apply Pc.
    cbn [zbind]. rewrite common_prefix. 
    assert (L0 : lenN (key c) <> 0) by (destruct (key c); [congruence|rewrite lenN_cons; lia]).
    destruct (N.eqb_spec (lenN (key c)) 0); [lia|].
    assert (Sq : skipn (N.to_nat (lenN (key c))) (key c ++ y :: k2) = y :: k2).
    { unfold lenN. rewrite Nat2N.id, skipn_app, Nat.sub_diag, skipn_all. auto. }
    rewrite Sq. eapply (IH false); eauto.
    + apply Okc.
    + discriminate.
    + rewrite app_length in Fu. unfold lenN in L0. lia.
Qed.

(** What a lookup reports was inserted. *)
Lemma values_in c vals ch v : In c ch -> In v (tvals (snd c)) -> In v (map snd (entries bs (Tree vals ch))).
Proof.
  intros I Iv. rewrite entries_eq, map_app. apply in_app_iff. right. apply in_map_iff. exists (key c, v). split; auto.
  apply in_flat_map. exists c. split; auto. apply in_map_iff. exists ([], v). split; [unfold pre; cbn [fst snd]; rewrite app_nil_r; auto|].
  destruct (snd c) as [vs cs]. rewrite entries_eq. apply in_app_iff. left. apply in_map. auto.
Qed.
Lemma values_deep c vals ch v : In c ch -> In v (map snd (entries bs (snd c))) -> In v (map snd (entries bs (Tree vals ch))).
Proof.
  intros I Iv. rewrite entries_eq, map_app. apply in_app_iff. right. apply in_map_iff in Iv as (e & <- & Ie).
  apply in_map_iff. exists (pre (key c) e). split; auto. apply in_flat_map. exists c. split; auto. apply in_map. auto.
Qed.
Lemma get_sound : forall fuel p t l k, wok bs p t -> repr B l t -> (length k < fuel)%nat ->
  exists r, get_loop fuel E B l k = Some (ZOk r) /\ forall vs v, r = Some vs -> In v vs -> In v (map snd (entries bs t)).
Proof.
  induction fuel as [|fuel IH]; intros p [vals ch] l k W R Fu; [lia|]. cbn [get_loop].
  rewrite (search_nodes_ok l vals ch k R). pose proof (wok_refs _ _ _ W) as Fr.
  pose proof (search_weak bs ch k Fr) as Sw. apply repr_eq in R as (_ & Ln & R).
  assert (Sx : exists r, search_children bs ch k = Some (ZOk r) /\ match r with Found n => n < lenN ch | Missing n => n <= lenN ch end).
  { destruct Sw as (r & -> & Hr). exists r. split; auto. destruct r; [destruct Hr as (c0 & Hr & _); eapply nthN_lt; eauto|tauto]. }
  destruct Sx as (r & -> & Hr). destruct r as [n|n].
  - destruct (nthN_some ch n Hr) as [c Q]. destruct (R n c Q) as (nd & -> & Q2 & Q3). cbn [zbind]. eexists. split; [reflexivity|].
    intros vs v [= <-] Iv. eapply values_in; [eapply nthN_In; eauto|]. destruct (snd c) as [vs cs] eqn:Z. apply repr_eq in Q3 as (Lv & _). cbn [tvals]. congruence.
  - destruct (N.eqb_spec n 0); [eexists; split; [reflexivity|discriminate]|].
    destruct (nthN_some ch (n - 1)) as [c Q]; [lia|]. destruct (R (n - 1) c Q) as (nd & -> & Q2 & Q3). cbn [zbind].
    pose proof (nthN_In _ _ _ Q) as Ic. destruct (wok_child _ _ _ _ W Ic) as [Pc Wc]. rewrite Hs, Q2, str_load_in by apply Pc. cbn [zbind].
    destruct (N.eqb_spec (common (key c) k) 0) as [|Nz]; [eexists; split; [reflexivity|discriminate]|].
    pose proof (common_le_r (key c) k) as Lr.
    destruct (IH (p ++ key c) (snd c) (nlinks nd) (skipn (N.to_nat (common (key c) k)) k) Wc Q3) as (r & -> & Hr2).
    { rewrite skipn_length. unfold lenN in Lr. lia. }
    exists r. split; auto. intros vs v Hv Iv. eapply values_deep; eauto.
Qed.

(** * Walking *)

Lemma pre_pre x y (e : bytes * V) : pre x (pre y e) = pre (x ++ y) e.
Proof. unfold pre. cbn [fst snd]. rewrite app_assoc. auto. Qed.

Context (Hb : lenN bs < 2 ^ eub E).

Lemma prefix_ok p r : path_ok bs p r -> (let+ x := prefix_string E r (lenN p) in tstr B x) = ZOk (p ++ key_at bs r).
Proof.
  destruct r as [o n]. intros (I & L & K). unfold ref_in in I. cbn [fst snd] in *. unfold prefix_string. cbn [fst snd].
  destruct (N.ltb_spec o (lenN p)); [lia|]. destruct (N.leb_spec (2 ^ eub E) (o + n)); [lia|]. cbn [zbind]. rewrite Hs.
  replace (o + n - (o - lenN p)) with (lenN p + n) by lia. rewrite str_load_in by (unfold ref_in; cbn [fst snd]; lia).
  rewrite key_split by lia. rewrite K. replace (o - lenN p + lenN p) with o by lia. auto.
Qed.

Section walk.
Context (cap : option N) (m : N).

(** From [w] the items [out] and then those from [w'], or - with less than
    [m] room on the stack - some of them and then an error *)
Definition cut (w : wstate V * list frame) (out : list (bytes * V)) : Prop :=
  exists n, forall fuel, (n <= fuel)%nat -> walk_items fuel cap E B w = (map ZOk out ++ [ZErr], true).
Definition goes (w : wstate V * list frame) (out : list (bytes * V)) (w' : wstate V * list frame) : Prop :=
  (exists n, forall fuel, walk_items (n + fuel) cap E B w = (map ZOk out ++ fst (walk_items fuel cap E B w'), snd (walk_items fuel cap E B w'))) \/
  ((exists c, cap = Some c /\ c < m) /\ exists o1 o2, out = o1 ++ o2 /\ cut w o1).
Lemma goes_refl w : goes w [] w.
Proof. left. exists 0%nat. intros fuel. cbn [map app Nat.add]. apply surjective_pairing. Qed.
Lemma goes_trans w1 o1 w2 o2 w3 : goes w1 o1 w2 -> goes w2 o2 w3 -> goes w1 (o1 ++ o2) w3.
Proof.
  intros [[n1 H1]|(C & a & b & -> & X)] H2.
  - destruct H2 as [[n2 H2]|(C & a & b & -> & [n2 X])].
    + left. exists (n1 + n2)%nat. intros fuel. rewrite <- Nat.add_assoc, H1, H2. cbn [fst snd]. rewrite map_app, app_assoc. auto.
    + right. split; auto. exists (o1 ++ a), b. split; [rewrite app_assoc; auto|]. exists (n1 + n2)%nat. intros fuel L.
      replace fuel with (n1 + (fuel - n1))%nat by lia. rewrite H1, X by lia. cbn [fst snd]. rewrite map_app, app_assoc. auto.
  - right. split; auto. exists a, (b ++ o2). split; [rewrite app_assoc; auto|]. auto.
Qed.
Lemma goes_step w w' : walk_step cap E B w = Some (WGo, w') -> goes w [] w'.
Proof. intros H. left. exists 1%nat. intros fuel. cbn [Nat.add walk_items]. rewrite H. cbn [map app]. apply surjective_pairing. Qed.
Lemma goes_fail w w' out w2 : (exists c, cap = Some c /\ c < m) -> walk_step cap E B w = Some (WFail ZErr, w2) -> goes w out w'.
Proof.
  intros C H. right. split; auto. exists [], out. split; auto. exists 1%nat. intros [|fuel] L; [lia|]. cbn [walk_items]. rewrite H. auto.
Qed.
Lemma push_none (st : list frame) f : lenN st < m -> try_push cap st f = None -> exists c, cap = Some c /\ c < m.
Proof. unfold try_push. intros L. destruct cap as [c|]; [|discriminate]. destruct (N.eqb_spec (lenN st) c); [|discriminate]. intros _. exists c. split; auto. lia. Qed.
Lemma push_some st f st' : try_push cap st f = Some st' -> st' = f :: st.
Proof. unfold try_push. destruct cap as [n|]; [destruct (lenN st =? n)|]; congruence. Qed.

Lemma nodes_in vals ch c : In c ch -> 1 + nodes (snd c) <= nodes (Tree vals ch).
Proof.
  induction ch as [|d ch IH]; [intros []|]. rewrite nodes_cons. intros [->|I]; [lia|]. specialize (IH I). lia.
Qed.
Lemma goes_values p vs st : goes (WValues p vs, st) (map (pair p) vs) (WStack, st).
Proof.
  induction vs as [|v vs IH]; cbn [map].
  - apply goes_step. reflexivity.
  - change ((p, v) :: map (pair p) vs) with ([(p, v)] ++ map (pair p) vs). eapply goes_trans; [|exact IH].
    left. exists 1%nat. intros fuel. cbn [Nat.add walk_items walk_step]. destruct (walk_items fuel cap E B (WValues p vs, st)). reflexivity.
Qed.
Lemma goes_tree : forall t l p (st : list frame), wok bs p t -> repr B l t -> lenN st + 1 + nodes t <= m ->
  goes (WValues p (lvals l), (lch l, 0, p) :: st) (map (pre p) (entries bs t)) (WStack, st).
Proof.
  induction t as [vals ch IH] using tree_ind'. intros l p st W R Hm. rewrite entries_eq, map_app.
  apply repr_eq in R as (Lv & Ln & R). eapply goes_trans.
  { rewrite map_map. unfold pre at 1. cbn [fst snd]. rewrite app_nil_r, Lv. apply goes_values. }
  assert (G : forall k i ch2, (length ch2 = k)%nat -> (forall c, In c ch2 -> In c ch) -> (forall j c, nthN ch2 j = Some c -> nthN ch (i + j) = Some c) -> i + lenN ch2 = lenN ch ->
    goes (WStack, (lch l, i, p) :: st) (map (pre p) (flat_map (centries bs) ch2)) (WStack, st)).
  { induction k as [|k IHm]; intros i ch2 Lm Sub Nth Le.
    - destruct ch2; [|discriminate]. cbn [flat_map map]. apply goes_step. cbn [walk_step]. rewrite Ln.
      destruct (N.leb_spec (lenN ch) i); [auto|]. cbn in Le. lia.
    - destruct ch2 as [|c ch2]; [discriminate|]. cbn [flat_map]. rewrite map_app. rewrite lenN_cons in Le.
      assert (Ec : nthN ch i = Some c) by (rewrite <- (N.add_0_r i); apply Nth; reflexivity).
      destruct (R i c Ec) as (n & Q1 & Q2 & Q3). assert (Ic : In c ch) by (apply Sub; left; auto).
      destruct (wok_child _ _ _ _ W Ic) as [Pc Wc].
      pose proof (prefix_ok p (fst c) Pc) as Po. rewrite <- Q2 in Po.
      assert (St : walk_step cap E B (WStack, (lch l, i, p) :: st) =
        match try_push cap st (lch l, i + 1, p) with
        | None => Some (WFail ZErr, (WStack, (lch l, i, p) :: st))
        | Some st1 =>
            match try_push cap st1 (lch (nlinks n), 0, p ++ key c) with
            | None => Some (WFail ZErr, (WStack, (lch l, i, p) :: st))
            | Some st2 => Some (WGo, (WValues (p ++ key c) (lvals (nlinks n)), st2))
            end
        end).
      { cbn [walk_step]. rewrite Ln. destruct (N.leb_spec (lenN ch) i); [lia|]. rewrite Q1. cbn [zbind].
        destruct (prefix_string E (nstr n) (lenN p)) as [x| | |]; cbn [zbind] in *; try discriminate. rewrite Po. cbn [zbind].
        rewrite Q2. reflexivity. }
      assert (Nc : lenN st + 2 + nodes (snd c) <= m)
        by (pose proof (nodes_in vals ch c Ic) as Nc; revert Hm Nc; clear; generalize (nodes (Tree vals ch)), (nodes (snd c)), (lenN st); intros; lia).
      destruct (try_push cap st (lch l, i + 1, p)) as [st1|] eqn:P1; [|eapply goes_fail; [eapply push_none; [|eauto]; clear -Nc; lia|exact St]].
      apply push_some in P1. subst st1.
      destruct (try_push cap _ (lch (nlinks n), 0, p ++ key c)) as [st2|] eqn:P2; [|eapply goes_fail; [eapply push_none; [|eauto]; rewrite lenN_cons; clear -Nc; lia|exact St]].
      apply push_some in P2. subst st2. rewrite <- (app_nil_l (map (pre p) (centries bs c) ++ _)).
      eapply goes_trans; [apply goes_step; exact St|]. eapply goes_trans.
      + rewrite Forall_forall in IH. pose proof (IH c Ic (nlinks n) (p ++ key c) ((lch l, i + 1, p) :: st) Wc Q3 ltac:(rewrite lenN_cons; clear -Nc; lia)) as X.
        unfold centries. rewrite map_map. erewrite map_ext; [exact X|]. intros e. apply pre_pre.
      + apply IHm; auto.
        * intros c' I. apply Sub. right. auto.
        * intros j c' Q. replace (i + 1 + j) with (i + (1 + j)) by lia. apply Nth. unfold nthN in *. rewrite N2Nat.inj_add. exact Q.
        * lia. }
  apply (G (length ch) 0 ch); auto.
Qed.

Lemma goes_end w out : goes w out (WStack, []) ->
  (exists n, forall fuel, (n <= fuel)%nat -> walk_items fuel cap E B w = (map ZOk out, true)) \/
  ((exists c, cap = Some c /\ c < m) /\ exists o1 o2, out = o1 ++ o2 /\ exists n, forall fuel, (n <= fuel)%nat -> walk_items fuel cap E B w = (map ZOk o1 ++ [ZErr], true)).
Proof.
  intros [[n H]|H]; [left|right; exact H]. exists (n + 1)%nat. intros fuel L. replace fuel with (n + S (fuel - n - 1))%nat by lia.
  rewrite H. cbn [walk_items walk_step fst snd]. rewrite app_nil_r. auto.
Qed.

(** Everything *)
Lemma goes_all t l : wok bs [] t -> repr B l t -> 1 + nodes t <= m -> goes (WFind l [], []) (entries bs t) (WStack, []).
Proof.
  intros W R Hm. pose proof (goes_tree t l [] [] W R ltac:(change (@lenN frame []) with 0; lia)) as G.
  assert (St : walk_step cap E B (WFind l [], []) = match try_push cap [] (lch l, 0, []) with
    | None => Some (WFail ZErr, (WFind l [], [])) | Some st => Some (WGo, (WValues [] (lvals l), st)) end) by reflexivity.
  destruct (try_push cap [] (lch l, 0, [])) as [st|] eqn:P; [|eapply goes_fail; [eapply push_none; [|eauto]; change (@lenN frame []) with 0; lia|exact St]].
  apply push_some in P. subst st. rewrite <- (app_nil_l (entries bs t)). eapply goes_trans; [apply goes_step; exact St|].
  erewrite <- (map_id (entries bs t)), map_ext; [exact G|]. intros [k v]. reflexivity.
Qed.

(** Below a prefix *)
Lemma starts_spec q k : starts q k = true <-> exists z, k = q ++ z.
Proof.
  unfold starts. rewrite beqb_eq. split.
  - intros H. exists (skipn (length q) k). rewrite <- H at 1. rewrite firstn_skipn. auto.
  - intros [z ->]. rewrite firstn_app, Nat.sub_diag, firstn_all. cbn [firstn]. apply app_nil_r.
Qed.
Lemma filter_none {A} (f : A -> bool) (l : list A) : (forall x, In x l -> f x = false) -> filter f l = [].
Proof. induction l as [|x l IH]; intros H; auto. cbn [filter]. rewrite (H x) by (left; auto). apply IH. intros y I. apply H. right; auto. Qed.
Lemma filter_all {A} (f : A -> bool) (l : list A) : (forall x, In x l -> f x = true) -> filter f l = l.
Proof. induction l as [|x l IH]; intros H; auto. cbn [filter]. rewrite (H x) by (left; auto). f_equal. apply IH. intros y I. apply H. right; auto. Qed.
Lemma under_app q (l1 l2 : list (bytes * V)) : under q (l1 ++ l2) = under q l1 ++ under q l2.
Proof. apply filter_app. Qed.
Lemma under_pre x q (l : list (bytes * V)) : under (x ++ q) (map (pre x) l) = map (pre x) (under q l).
Proof.
  unfold under. induction l as [|e l IH]; auto. cbn [map filter]. rewrite IH.
  assert (H : starts (x ++ q) (fst (pre x e)) = starts q (fst e)).
  { unfold pre. cbn [fst]. apply eq_true_iff_eq. rewrite !starts_spec. split; intros [z Q]; exists z.
    - rewrite <- app_assoc in Q. apply app_inv_head in Q. auto.
    - rewrite Q, app_assoc. auto. }
  rewrite H. destruct (starts q (fst e)); auto.
Qed.
Lemma under_child root q : forall ch c, Forall (cok bs root) ch -> StronglySorted hlt (map (fun c => key c) ch) -> In c ch ->
  q <> [] -> hd_error q = hd_error (key c) -> under q (flat_map (centries bs) ch) = under q (centries bs c).
Proof.
  intros ch c F So I Qn H. destruct (in_split _ _ I) as (l1 & l2 & ->). rewrite TrieFacts.flat_map_app, under_app. cbn [flat_map]. rewrite under_app.
  assert (Z : forall l : list (sref * tree V), (forall c', In c' l -> cok bs root c' /\ hd_error (key c') <> hd_error (key c)) -> under q (flat_map (centries bs) l) = []).
  { intros l K. apply filter_none. intros e Ie. apply in_flat_map in Ie as (c' & Ic & Ie). destruct (K c' Ic) as [Ok Nh].
    pose proof (centries_hd bs root c' e Ok Ie) as He. destruct (starts q (fst e)) eqn:X; auto. apply starts_spec in X as [z X].
    exfalso. apply Nh. rewrite <- He, X, <- H. destruct q; [congruence|reflexivity]. }
  rewrite map_app in So. apply sorted_app in So as (_ & S2 & S3). cbn [map] in *. inversion S2 as [|? ? S4 S5]; subst.
  rewrite Forall_forall in F. rewrite (Z l1), (Z l2); [cbn [app]; apply app_nil_r| |].
  - intros c' Ic. split; [apply F; apply in_app_iff; right; right; auto|]. rewrite Forall_forall in S5. specialize (S5 (key c') (in_map _ _ _ Ic)).
    apply hlt_hd in S5. congruence.
  - intros c' Ic. split; [apply F; apply in_app_iff; left; auto|]. specialize (S3 (key c') (key c) (in_map (fun c => key c) _ _ Ic) (or_introl eq_refl)). apply hlt_hd in S3. auto.
Qed.
Lemma two_prefixes (a b x y : bytes) : a ++ x = b ++ y -> (exists z, a = b ++ z) \/ (exists z, b = a ++ z).
Proof.
  revert b. induction a as [|u a IH]; intros b H; [right; exists b; auto|].
  destruct b as [|w b]; [left; exists (u :: a); auto|]. cbn [app] in H. inversion H; subst. destruct (IH b H2) as [[z ->]|[z ->]].
  - left. exists z. auto.
  - right. exists z. auto.
Qed.

Lemma find_node_ok : forall fuel root p t l q, wok bs p t -> srt bs root t -> repr B l t -> q <> [] -> under q (entries bs t) <> [] -> (length q < fuel)%nat ->
  exists n pth c, find_node fuel E B l q (lenN p) = Some (ZOk (Some (n, lenN pth))) /\ nstr n = fst c /\ repr B (nlinks n) (snd c) /\
    path_ok bs pth (fst c) /\ wok bs (pth ++ key c) (snd c) /\ map (pre pth) (centries bs c) = map (pre p) (under q (entries bs t)) /\ nodes (snd c) <= nodes t.
Proof.
  induction fuel as [|fuel IH]; intros root p [vals ch] l q W So R Qn Ne Fu; [lia|]. cbn [find_node].
  rewrite (search_nodes_ok l vals ch q R). pose proof (wok_refs _ _ _ W) as Fr. pose proof (proj1 (srt_eq _ _ _ _) So) as (Hv & Sk & Ck).
  assert (V0 : under q (entries bs (Tree vals ch)) = under q (flat_map (centries bs) ch)).
  { rewrite entries_eq, under_app. replace (under q (map (pair []) vals)) with (@nil (bytes * V)); auto. symmetry. apply filter_none.
    intros e I. apply in_map_iff in I as (v & <- & _). cbn [fst]. destruct (starts q []) eqn:X; auto. apply starts_spec in X as [z X]. destruct q; [congruence|discriminate]. }
  rewrite V0 in *.
  assert (Ex : exists c e z, In c ch /\ In e (entries bs (snd c)) /\ key c ++ fst e = q ++ z).
  { destruct (under q _) as [|e es] eqn:Q; [congruence|].
    assert (In e (under q (flat_map (centries bs) ch))) as I by (rewrite Q; left; auto).
    apply filter_In in I as [I Y]. apply in_flat_map in I as (c & Ic & Ie). apply starts_spec in Y as [z Y].
    apply in_map_iff in Ie as (e0 & <- & Ie). unfold pre in Y. cbn [fst] in Y. exists c, e0, z. auto. }
  destruct Ex as (c & e & z & Ic & Ie & Ke). pose proof Ck as Ck0. rewrite Forall_forall in Ck0. pose proof (Ck0 c Ic) as Okc.
  assert (Hd : hd_error q = hd_error (key c)).
  { pose proof (centries_hd bs root c (pre (key c) e) Okc (in_map _ _ _ Ie)) as X. unfold pre in X. cbn [fst] in X. rewrite Ke in X.
    rewrite <- X. destruct q; [congruence|reflexivity]. }
  rewrite (under_child root q ch c) in * by auto.
  assert (Nc : nodes (snd c) <= nodes (Tree vals ch)) by (pose proof (nodes_in vals ch c Ic); lia).
  destruct (In_nthN _ _ Ic) as [i Ei]. destruct (wok_child _ _ _ _ W Ic) as [Pc Wc]. pose proof (nthN_lt _ _ _ Ei) as Li.
  apply repr_eq in R as (_ & Ln & R). destruct (R i c Ei) as (n & Q1 & Q2 & Q3).
  assert (All : forall y, key c = q ++ y -> under q (centries bs c) = centries bs c).
  { intros y Y. apply filter_all. intros x Ix. apply starts_spec. apply centries_pre in Ix as [k ->]. rewrite Y, <- app_assoc. eauto. }
  destruct (two_prefixes _ _ _ _ Ke) as [[y Y]|[y Y]].
  - destruct y as [|y0 y].
    + rewrite app_nil_r in Y. rewrite (All []) by (rewrite app_nil_r; auto). rewrite <- Y, (search_at ch i c Fr Sk Ei), Q1. cbn [zbind].
      exists n, p, c. auto 10.
    + rewrite (All _ Y). rewrite (search_above ch i c q (y0 :: y) Fr Sk Ei Y Qn) by discriminate.
      assert (Tl : match (let+ c := load_child E B (lch l) i in let+ x := tstr B (nstr c) in ZOk (c, x)) with ZOk (c', x) => c' = n /\ x = key c | _ => False end).
      { rewrite Q1. cbn [zbind]. rewrite Hs, Q2, str_load_in by apply Pc. cbn [zbind]. auto. }
      assert (Fin : common (key c) q = lenN q) by (rewrite Y; apply common_prefix').
      assert (Lq : lenN q <> 0) by (destruct q; [congruence|rewrite lenN_cons; lia]).
      exists n, p, c. split; [|auto 10]. rewrite Ln. destruct (N.ltb_spec i (lenN ch)); [|lia].
      destruct (N.eqb_spec i 0) as [->|Nz]; cbn [app].
      * destruct (let+ c := load_child E B (lch l) 0 in _) as [[c' x]| | |]; try tauto. destruct Tl as [-> ->].
        rewrite Fin. destruct (N.eqb_spec (lenN q) 0); [lia|]. rewrite N.eqb_refl. auto.
      * destruct (nthN_some ch (i - 1)) as [c1 E1]; [lia|]. destruct (R _ c1 E1) as (n1 & -> & Q5 & _). cbn [zbind].
        pose proof (nthN_In _ _ _ E1) as I1. destruct (wok_child _ _ _ _ W I1) as [Pc1 _]. rewrite Hs, Q5, str_load_in by apply Pc1. cbn [zbind].
        rewrite common_hd.
        -- change (0 =? 0) with true. cbv iota. rewrite <- Hs. destruct (let+ c := load_child E B (lch l) i in _) as [[c' x]| | |]; try tauto. destruct Tl as [-> ->].
           rewrite Fin. destruct (N.eqb_spec (lenN q) 0); [lia|]. rewrite N.eqb_refl. auto.
        -- rewrite Hd. intros X. assert (i - 1 = i) by (eapply same_head; eauto). lia.
  - destruct y as [|y0 y].
    + rewrite app_nil_r in Y. rewrite (All []) by (rewrite app_nil_r; auto). rewrite Y, (search_at ch i c Fr Sk Ei), Q1. cbn [zbind].
      exists n, p, c. auto 10.
    + assert (Kn : key c <> []).
      { eapply (cok_below root c e); eauto. rewrite Y, <- app_assoc in Ke. apply app_inv_head in Ke. rewrite Ke. discriminate. }
      rewrite Y. rewrite (search_below ch i c (y0 :: y) Fr Sk Ei Kn) by discriminate.
      destruct (N.eqb_spec (i + 1) 0); [lia|]. replace (i + 1 - 1) with i by lia. cbn [app]. rewrite Q1. cbn [zbind].
      rewrite Hs, Q2, str_load_in by apply Pc. cbn [zbind]. rewrite common_prefix.
      assert (L0 : lenN (key c) <> 0) by (destruct (key c); [congruence|rewrite lenN_cons; lia]).
      destruct (N.eqb_spec (lenN (key c)) 0); [lia|].
      destruct (N.eqb_spec (lenN (key c)) (lenN (key c ++ y0 :: y))) as [X|_]; [rewrite lenN_app, lenN_cons in X; lia|].
      assert (Sq : skipn (N.to_nat (lenN (key c))) (key c ++ y0 :: y) = y0 :: y).
      { unfold lenN. rewrite Nat2N.id, skipn_app, Nat.sub_diag, skipn_all. auto. }
      rewrite Sq, <- lenN_app. unfold centries at 1 in Ne. unfold centries at 2. rewrite Y in *. rewrite under_pre in *.
      destruct (IH false (p ++ key c) (snd c) (nlinks n) (y0 :: y) Wc (proj2 (proj2 Okc)) Q3) as (n2 & pth & c2 & F1 & F2 & F3 & F4 & F5 & F6 & F7).
      * discriminate.
      * intros X. apply Ne. rewrite X. auto.
      * rewrite app_length in Fu. unfold lenN in L0. lia.
      * exists n2, pth, c2. split; auto. split; auto. split; auto. split; auto. split; auto. split; [|lia].
        rewrite F6, map_map. apply map_ext. intros x. symmetry. apply pre_pre.
Qed.

Lemma goes_under t l q : wok bs [] t -> srt bs true t -> repr B l t -> 1 + nodes t <= m -> under q (entries bs t) <> [] ->
  goes (WFind l q, []) (under q (entries bs t)) (WStack, []).
Proof.
  intros W So R Hm Ne. destruct q as [|x q].
  { assert (X : under [] (entries bs t) = entries bs t) by (apply filter_all; intros e _; reflexivity). rewrite X. apply goes_all; auto. }
  destruct (find_node_ok (S (length (x :: q))) true [] t l (x :: q) W So R) as (n & pth & c & F1 & F2 & F3 & F4 & F5 & F6 & F7); [discriminate|auto|lia|].
  change (lenN []) with 0 in F1.
  pose proof (prefix_ok pth (fst c) F4) as Po. rewrite <- F2 in Po.
  assert (St : walk_step cap E B (WFind l (x :: q), []) = match try_push cap [] (lch (nlinks n), 0, pth ++ key c) with
    | None => Some (WFail ZErr, (WFind l (x :: q), [])) | Some st => Some (WGo, (WValues (pth ++ key c) (lvals (nlinks n)), st)) end).
  { cbn [walk_step]. rewrite F1. rewrite Po, F2. reflexivity. }
  destruct (try_push cap [] _) as [st|] eqn:P; [|eapply goes_fail; [eapply push_none; [|eauto]; change (@lenN frame []) with 0; lia|exact St]].
  apply push_some in P. subst st. rewrite <- (app_nil_l (under _ _)). eapply goes_trans; [apply goes_step; exact St|].
  pose proof (goes_tree (snd c) (nlinks n) (pth ++ key c) [] F5 F3 ltac:(change (@lenN frame []) with 0; lia)) as G.
  assert (Q : under (x :: q) (entries bs t) = map (pre (pth ++ key c)) (entries bs (snd c))); [|rewrite Q; exact G].
  erewrite <- (map_id (under _ _)), (map_ext _ (pre [])); [|intros [k v]; reflexivity].
  rewrite <- F6. unfold centries. rewrite map_map. apply map_ext. intros e. apply pre_pre.
Qed.
End walk.
End stored.

(** * Storing *)
Section build.
Context {V : Type} (E : tenv) (bs : bytes).
Lemma stored_weak (es : list (sref * V)) : Forall (fun e => ref_in bs (fst e)) es -> room E (lenN bs) (lenN es) ->
  exists t l mem, build_tree bs es = Some (ZOk t) /\ trie_store E bs es = Some (ZOk (l, mem_buf bs mem)) /\ wok bs [] t /\
    repr E (mem_buf bs mem) l t /\ Permutation (entries bs t) (keyed bs es) /\ nodes t <= 2 * lenN es.
Proof.
  intros F (R1 & R2 & R3 & R4). destruct (insert_all_weak bs es (Tree [] [])) as (t & Q & W & P & Nd); [exact I|auto|].
  change (nodes (Tree [] [])) with 0 in Nd. rewrite N.add_0_l in Nd.
  assert (Nz : ensz E * nodes t <= ensz E * (2 * lenN es)) by (apply N.mul_le_mono_l; auto).
  destruct (into_ref_ok E R1 R2 t (lenN bs) []) as (l & mem & Q2 & Sp & R).
  - eapply wok_fits; [|exact W]. lia.
  - lia.
  - lia.
  - exists t, l, mem. unfold trie_store, build_tree. rewrite Q. cbn [zbind]. rewrite Q2. cbn [zbind app]. split; auto. split; auto. split; auto.
    split; [apply R; eapply mem_loads; eauto|]. split; [rewrite P; cbn [entries flat_map map app]; rewrite app_nil_r; auto|auto].
Qed.
Lemma stored_strong (es : list (sref * V)) : Forall (fun e => ref_in bs (fst e)) es -> ascending (map fst (keyed bs es)) ->
  exists t, build_tree bs es = Some (ZOk t) /\ srt bs true t /\ forall k, values_at k (entries bs t) = values_at k (keyed bs es).
Proof.
  intros F A. destruct (insert_all_strong bs es [] (Tree [] [])) as (t & Q & So & Vs); auto.
  - exact I.
  - apply srt_eq. repeat constructor.
  - exists t. auto.
Qed.
End build.
