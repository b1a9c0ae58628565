(** Lemmas about prefix tries: strings, and building. *)
From Coq Require Import Permutation Sorted.
From Verif Require Import Base Options Int Zc ZcBuf ZcRefSpec ZcRefFacts Swiss SwissFacts Phf PhfFacts Trie TrieSpec BaseFacts IOFacts.
Local Open Scope N_scope.

(** * Strings *)
Lemma cmp_refl a : cmp_bytes a a = Eq.
Proof. induction a as [|x a IH]; cbn [cmp_bytes]; auto. rewrite N.compare_refl. auto. Qed.
Lemma cmp_eq : forall a b, cmp_bytes a b = Eq -> a = b.
Proof.
  induction a as [|x a IH]; intros [|y b]; cbn [cmp_bytes]; try discriminate; auto.
  destruct (N.compare_spec x y) as [->| |]; try discriminate. intros H. f_equal; auto.
Qed.
Lemma cmp_app : forall p a b, cmp_bytes (p ++ a) (p ++ b) = cmp_bytes a b.
Proof. induction p as [|x p IH]; intros a b; cbn [cmp_bytes app]; auto. rewrite N.compare_refl. auto. Qed.
Lemma cmp_antisym : forall a b, cmp_bytes b a = CompOpp (cmp_bytes a b).
Proof.
  induction a as [|x a IH]; intros [|y b]; cbn [cmp_bytes]; auto.
  rewrite (N.compare_antisym x y). destruct (x ?= y) eqn:E; cbn [CompOpp]; auto.
Qed.
Lemma cmp_lt_spec : forall a b, cmp_bytes a b = Lt <-> lex_lt a b.
Proof.
  unfold lex_lt. induction a as [|x a IH]; intros [|y b]; cbn [cmp_bytes].
  - split; [discriminate|]. intros [(c & x & E)|(p & x & y & a' & b' & E & _)]; destruct p || idtac; discriminate.
  - split; auto. intros _. left. exists b, y. auto.
  - split; [discriminate|]. intros [(c & z & E)|(p & u & w & a' & b' & _ & E & _)]; [discriminate|]. destruct p; discriminate.
  - destruct (N.compare_spec x y) as [->|L|L].
    + rewrite IH. split.
      * intros [(c & z & ->)|(p & u & w & a' & b' & -> & -> & L)]; [left; exists c, z; auto|right; exists (y :: p), u, w, a', b'; auto].
      * intros [(c & z & E)|(p & u & w & a' & b' & E1 & E2 & L)].
        -- left. inversion E; subst. eauto.
        -- destruct p as [|q p]; cbn in E1, E2; inversion E1; inversion E2; subst; [lia|]. right. exists p, u, w, a', b'. auto.
    + split; auto. intros _. right. exists [], x, y, a, b. auto.
    + split; [discriminate|]. intros [(c & z & E)|(p & u & w & a' & b' & E1 & E2 & L')].
      * inversion E; subst. lia.
      * destruct p as [|q p]; cbn in E1, E2; inversion E1; inversion E2; subst; lia.
Qed.
Lemma cmp_le_spec a b : cmp_bytes a b <> Gt <-> lex_le a b.
Proof.
  unfold lex_le. rewrite <- cmp_lt_spec. destruct (cmp_bytes a b) eqn:E.
  - apply cmp_eq in E. split; auto. congruence.
  - split; auto. congruence.
  - split; [congruence|]. intros [->|X]; [rewrite cmp_refl in E; discriminate|discriminate].
Qed.
Lemma cmp_trans a b c : cmp_bytes a b = Lt -> cmp_bytes b c = Lt -> cmp_bytes a c = Lt.
Proof.
  revert b c. induction a as [|x a IH]; intros [|y b] [|z c]; cbn [cmp_bytes]; try discriminate; auto.
  destruct (N.compare_spec x y) as [->|L|L]; try discriminate.
  - destruct (N.compare_spec y z) as [->|L'|L']; try discriminate; eauto.
  - intros _. destruct (N.compare_spec y z) as [->|L'|L']; try discriminate; intros _.
    + destruct (N.compare_spec x z); auto; lia.
    + destruct (N.compare_spec x z); auto; lia.
Qed.
Lemma cmp_app_le a c : cmp_bytes (a ++ c) a <> Lt.
Proof. rewrite <- (app_nil_r a) at 2. rewrite cmp_app. destruct c; cbn; discriminate. Qed.

(** Order of first bytes *)
Definition hlt (a b : bytes) : Prop :=
  match a, b with [], _ :: _ => True | x :: _, y :: _ => x < y | _, [] => False end.
Lemma hlt_cmp a b : hlt a b -> cmp_bytes a b = Lt.
Proof. destruct a as [|x a], b as [|y b]; cbn; try tauto. intros L. apply N.compare_lt_iff in L. rewrite L. auto. Qed.
Lemma hlt_trans a b c : hlt a b -> hlt b c -> hlt a c.
Proof. destruct a, b, c; cbn; try tauto; lia. Qed.
Lemma hlt_hd a b : hlt a b -> hd_error a <> hd_error b.
Proof. destruct a, b; cbn; try tauto; try congruence. intros L [= ->]. lia. Qed.
Lemma lt_hlt a b : cmp_bytes a b = Lt -> hd_error a <> hd_error b -> hlt a b.
Proof.
  destruct a as [|x a], b as [|y b]; cbn; auto; try discriminate. intros E H.
  destruct (N.compare_spec x y) as [->|L|L]; auto; [congruence|discriminate].
Qed.
Lemma hlt_irrefl a : ~ hlt a a.
Proof. destruct a; cbn; [tauto|lia]. Qed.
Lemma hlt_hd_eq_l a b a' : hd_error a = hd_error a' -> hlt a b -> hlt a' b.
Proof. destruct a, a', b; cbn; try discriminate; try tauto; intros [= ->]; auto. Qed.
Lemma hlt_hd_eq_r a b b' : hd_error b = hd_error b' -> hlt a b -> hlt a b'.
Proof. destruct a, b, b'; cbn; try discriminate; try tauto; intros [= ->]; auto. Qed.

(** Common prefixes *)
Lemma common_spec : forall a b, exists p a' b', a = p ++ a' /\ b = p ++ b' /\ lenN p = common a b /\
  (a' = [] \/ b' = [] \/ hd_error a' <> hd_error b').
Proof.
  induction a as [|x a IH]; intros b.
  { exists [], [], b. cbn. repeat split; auto. }
  destruct b as [|y b]. { exists [], (x :: a), []. cbn. repeat split; auto. }
  cbn [common]. destruct (N.eqb_spec x y) as [->|NE].
  - destruct (IH b) as (p & a' & b' & -> & -> & L & D). exists (y :: p), a', b'. rewrite lenN_cons, L. auto.
  - exists [], (x :: a), (y :: b). cbn. repeat split; auto. right; right. congruence.
Qed.
Lemma common_prefix p a : common p (p ++ a) = lenN p.
Proof. induction p as [|x p IH]; cbn [common app]; auto. rewrite N.eqb_refl, IH, lenN_cons. lia. Qed.
Lemma common_prefix' p a : common (p ++ a) p = lenN p.
Proof. induction p as [|x p IH]; cbn [common app]; [destruct a; auto|]. rewrite N.eqb_refl, IH, lenN_cons. lia. Qed.
Lemma common_hd a b : hd_error a <> hd_error b -> common a b = 0.
Proof. destruct a as [|x a], b as [|y b]; cbn; auto. intros H. destruct (N.eqb_spec x y) as [->|]; congruence. Qed.
Lemma common_0 a b : common a b = 0 -> a = [] \/ b = [] \/ hd_error a <> hd_error b.
Proof.
  destruct a as [|x a], b as [|y b]; cbn [common hd_error]; auto. destruct (N.eqb_spec x y) as [E|E]; [lia|].
  intros _. right; right. congruence.
Qed.
Lemma common_le_r a b : common a b <= lenN b.
Proof. revert b. induction a as [|x a IH]; intros [|y b]; cbn [common]; try lia. rewrite lenN_cons. destruct (x =? y); [|lia]. specialize (IH b). lia. Qed.

(** * References *)
Lemma beqb_eq a b : bytes_eqb a b = true <-> a = b.
Proof. unfold bytes_eqb. destruct (list_eq_dec _ a b); split; congruence. Qed.
Lemma beqb_refl a : bytes_eqb a a = true.
Proof. apply beqb_eq; auto. Qed.
Lemma beqb_ne a b : a <> b -> bytes_eqb a b = false.
Proof. intros H. destruct (bytes_eqb a b) eqn:E; auto. apply beqb_eq in E. congruence. Qed.

Lemma str_load_in bs s : ref_in bs s -> str_load bs s = ZOk (key_at bs s).
Proof.
  unfold ref_in, str_load, key_at, slice_at. intros H.
  destruct (N.ltb_spec (lenN bs) (fst s)); [lia|]. destruct (N.ltb_spec (lenN bs - fst s) (snd s)); [lia|]. auto.
Qed.
Lemma str_load_cases bs s : (ref_in bs s /\ str_load bs s = ZOk (key_at bs s)) \/ (~ ref_in bs s /\ str_load bs s = ZErr).
Proof.
  destruct (N.le_gt_cases (fst s + snd s) (lenN bs)) as [L|L].
  - left. split; auto. apply str_load_in; auto.
  - right. unfold ref_in, str_load. split; [lia|].
    destruct (N.ltb_spec (lenN bs) (fst s)); auto. destruct (N.ltb_spec (lenN bs - fst s) (snd s)); auto. lia.
Qed.
Lemma key_len bs s : ref_in bs s -> lenN (key_at bs s) = snd s.
Proof. unfold ref_in, key_at, lenN. intros H. rewrite firstn_length, skipn_length. lia. Qed.
(** Cutting a reference *)
Lemma key_split bs off a n : off + (a + n) <= lenN bs ->
  key_at bs (off, a + n) = key_at bs (off, a) ++ key_at bs (off + a, n).
Proof.
  unfold key_at, lenN. cbn [fst snd]. intros H.
  replace (N.to_nat (off + a)) with (N.to_nat off + N.to_nat a)%nat by lia. rewrite <- skipn_add.
  rewrite !N2Nat.inj_add. generalize (skipn (N.to_nat off) bs). intros l.
  revert l. induction (N.to_nat a) as [|m IH]; intros l; cbn [Nat.add]; [auto|].
  destruct l as [|x l]; cbn [firstn skipn app]; [destruct (N.to_nat n); auto|]. f_equal. apply IH.
Qed.

(** * Trees *)
Section trees.
Context {V : Type} (bs : bytes).
Local Notation key c := (key_at bs (fst c)).
Implicit Types (t : tree V) (ch : list (sref * tree V)).

Definition kids (t : tree V) : list (sref * tree V) := match t with Tree _ ch => ch end.
Lemma tree_ind' (P : tree V -> Prop) : (forall vals ch, Forall (fun c => P (snd c)) ch -> P (Tree vals ch)) -> forall t, P t.
Proof.
  intros H. fix IH 1. intros [vals ch]. apply H.
  induction ch as [|c ch IHc]; constructor; [apply IH|exact IHc].
Qed.

Definition pre (x : bytes) (e : bytes * V) : bytes * V := (x ++ fst e, snd e).
Fixpoint entries (t : tree V) : list (bytes * V) :=
  match t with Tree vals ch => map (pair []) vals ++ flat_map (fun c => map (pre (key c)) (entries (snd c))) ch end.
Definition centries (c : sref * tree V) : list (bytes * V) := map (pre (key c)) (entries (snd c)).
Lemma entries_eq vals ch : entries (Tree vals ch) = map (pair []) vals ++ flat_map centries ch.
Proof. reflexivity. Qed.

Fixpoint nodes (t : tree V) : N :=
  match t with Tree _ ch => fold_right (fun c n => 1 + nodes (snd c) + n) 0 ch end.

(** The string at path [p], preceded by the path *)
Definition path_ok (p : bytes) (r : sref) : Prop :=
  ref_in bs r /\ lenN p <= fst r /\ key_at bs (fst r - lenN p, lenN p) = p.
Fixpoint wok (p : bytes) (t : tree V) : Prop :=
  match t with Tree _ ch => fold_right (fun c P => (path_ok p (fst c) /\ wok (p ++ key c) (snd c)) /\ P) True ch end.
Lemma wok_eq p vals ch : wok p (Tree vals ch) <-> Forall (fun c => path_ok p (fst c) /\ wok (p ++ key c) (snd c)) ch.
Proof.
  cbn [wok]. induction ch as [|c ch IH]; cbn [fold_right].
  - split; auto.
  - rewrite IH. split; [intros [A B]; constructor; auto|]. intros F. inversion F; auto.
Qed.
Lemma nodes_app vals ch1 ch2 : nodes (Tree vals (ch1 ++ ch2)) = nodes (Tree vals ch1) + nodes (Tree vals ch2).
Proof. cbn [nodes]. induction ch1 as [|c ch IH]; cbn [app fold_right]; lia. Qed.
Lemma nodes_cons vals c ch : nodes (Tree vals (c :: ch)) = 1 + nodes (snd c) + nodes (Tree vals ch).
Proof. reflexivity. Qed.

Lemma path_cut p off a n : path_ok p (off, a + n) -> path_ok p (off, a) /\ path_ok (p ++ key_at bs (off, a)) (off + a, n) /\
  key_at bs (off, a + n) = key_at bs (off, a) ++ key_at bs (off + a, n).
Proof.
  unfold path_ok, ref_in. cbn [fst snd]. intros (I & L & K).
  assert (La : lenN (key_at bs (off, a)) = a) by (apply key_len; unfold ref_in; cbn [fst snd]; lia).
  split; [split; [lia|auto]|]. split.
  - rewrite lenN_app, La. split; [lia|]. split; [lia|].
    replace (off + a - (lenN p + a)) with (off - lenN p) by lia.
    rewrite key_split by lia. rewrite K. f_equal. f_equal. f_equal. lia.
  - apply key_split. lia.
Qed.

(** Positions in a list *)
Lemma nthN_cut {A} (l : list A) i x : nthN l i = Some x -> exists l1 l2, l = l1 ++ x :: l2 /\ lenN l1 = i /\ forall y, upd l i y = l1 ++ y :: l2.
Proof.
  intros E. unfold nthN in E. apply nth_error_split in E as (l1 & l2 & -> & L). exists l1, l2. split; auto.
  assert (Li : lenN l1 = i) by (unfold lenN; lia). split; auto. intros y.
  unfold upd. rewrite <- L. f_equal.
  - rewrite firstn_app, Nat.sub_diag, firstn_all. cbn. apply app_nil_r.
  - f_equal. replace (S (length l1)) with (length (l1 ++ [x])) by (rewrite app_length; cbn; lia).
    replace (l1 ++ x :: l2) with ((l1 ++ [x]) ++ l2) by (rewrite <- app_assoc; auto).
    rewrite skipn_app, Nat.sub_diag, skipn_all. auto.
Qed.
Lemma ins_cut {A} (l : list A) i x : i <= lenN l -> exists l1 l2, l = l1 ++ l2 /\ lenN l1 = i /\ ins l i x = l1 ++ x :: l2.
Proof.
  intros L. exists (firstn (N.to_nat i) l), (skipn (N.to_nat i) l). rewrite firstn_skipn. repeat split; auto.
  unfold lenN in *. rewrite firstn_length. lia.
Qed.

Lemma search_ok ch cur (c : N -> comparison) :
  Forall (fun x => ref_in bs (fst x)) ch ->
  let probe := fun i => match nthN ch i with Some c => let+ x := str_load bs (fst c) in ZOk (cmp_bytes x cur) | None => ZUb end in
  forall i x, nthN ch i = Some x -> probe i = ZOk (cmp_bytes (key x) cur).
Proof.
  intros F probe i x E. unfold probe. rewrite E. rewrite str_load_in; [reflexivity|].
  rewrite Forall_forall in F. apply F. eapply nthN_In; eauto.
Qed.
Lemma search_weak ch cur : Forall (fun x => ref_in bs (fst x)) ch ->
  exists r, search_children bs ch cur = Some (ZOk r) /\
  match r with Found n => exists c, nthN ch n = Some c /\ key c = cur | Missing n => n <= lenN ch end.
Proof.
  intros F. unfold search_children, binary_search_by.
  pose proof (search_ok ch cur (fun _ => Eq) F) as P. cbv zeta in P.
  destruct (bs_loop _ _ _ _ _) as [r|] eqn:B.
  2: { apply bs_loop_fuel in B; [easy|lia|lia|lia]. }
  assert (T : forall i, i < lenN ch -> exists x, nthN ch i = Some x) by (intros; apply nthN_some; auto).
  apply bs_loop_sound in B; [|lia|lia]. destruct r as [[i|i]| | |].
  - exists (Found i). split; auto. destruct B as [[_ L] Q]. destruct (T i L) as [x E]. rewrite (P i x E) in Q.
    exists x. split; auto. apply cmp_eq. congruence.
  - exists (Missing i). split; auto. lia.
  - destruct B as (i & [_ L] & Q). destruct (T i L) as [x E]. rewrite (P i x E) in Q. discriminate.
  - destruct B as (i & [_ L] & Q). destruct (T i L) as [x E]. rewrite (P i x E) in Q. discriminate.
  - destruct B as (i & [_ L] & Q). destruct (T i L) as [x E]. rewrite (P i x E) in Q. discriminate.
Qed.

(** A child, split where a string departs from it *)
Definition split_child (c : sref * tree V) (k : N) : sref * tree V :=
  if k =? snd (fst c) then c else ((fst (fst c), k), Tree [] [((fst (fst c) + k, snd (fst c) - k), snd c)]).
Lemma split_child_ok p c x y a : path_ok p (fst c) -> wok (p ++ key c) (snd c) -> key c = x ++ a ->
  y = lenN x ->
  let c' := split_child c y in
  path_ok p (fst c') /\ wok (p ++ key c') (snd c') /\ key c' = x /\ centries c' = centries c /\
  (c' = c \/ (nodes (snd c') = nodes (snd c) + 1 /\ a <> [] /\ exists r, kids (snd c') = [(r, snd c)] /\ key_at bs r = a)).
Proof.
  intros P W K ->. pose proof P as (I & _ & _). pose proof (key_len _ _ I) as L. rewrite K, lenN_app in L.
  unfold split_child. destruct (N.eqb_spec (lenN x) (snd (fst c))) as [E|E].
  - assert (a = []) as -> by (destruct a; auto; rewrite lenN_cons in L; lia). rewrite app_nil_r in K.
    cbv zeta. do 3 (split; [assumption|]). split; [reflexivity|left; reflexivity].
  - destruct c as [[off len] sub]. cbn [fst snd] in *.
    replace len with (lenN x + (len - lenN x)) in P, K by lia.
    destruct (path_cut _ _ _ _ P) as (P1 & P2 & E1).
    assert (Lx : lenN (key_at bs (off, lenN x)) = lenN x).
    { apply key_len. unfold ref_in in *. cbn [fst snd] in *. lia. }
    assert (X : key_at bs (off, lenN x) = x /\ key_at bs (off + lenN x, len - lenN x) = a).
    { pose proof K as K2. rewrite E1 in K2. apply app_len_inj in K2; auto. apply Nat2N.inj. exact Lx. }
    replace (lenN x + (len - lenN x)) with len in K by lia.
    destruct X as [X1 X2]. cbv zeta. cbn [fst snd]. split; [exact P1|]. split; [|split; [exact X1|split]].
    + rewrite wok_eq. constructor; [|constructor]. cbn [fst snd]. split; [exact P2|].
      rewrite X1, X2. rewrite K in W. rewrite <- app_assoc. exact W.
    + unfold centries. cbn [fst snd entries flat_map map app]. rewrite app_nil_r, map_map. apply map_ext. intros [k v].
      unfold pre. cbn [fst snd]. rewrite X1, X2, app_assoc, K. auto.
    + right. split; [cbn [nodes fold_right snd]; lia|].
      split; [intros ->; change (lenN []) with 0 in L; lia|]. cbn [kids]. eauto.
Qed.

Lemma path_single p s v : path_ok p s -> path_ok p (fst (s, Tree [v] [])) /\ wok (p ++ key (s, Tree [v] [])) (snd (s, Tree [v] [])).
Proof. intros H. split; auto. cbn. auto. Qed.
Lemma centries_single s (v : V) : centries (s, Tree [v] []) = [(key_at bs s, v)].
Proof. unfold centries, pre. cbn. rewrite app_nil_r. auto. Qed.

Lemma flat_map_app {A B} (f : A -> list B) l1 l2 : flat_map f (l1 ++ l2) = flat_map f l1 ++ flat_map f l2.
Proof. induction l1 as [|x l IH]; cbn; auto. rewrite IH, app_assoc. auto. Qed.

Lemma t_insert_weak v : forall fuel p t s, wok p t -> path_ok p s -> (length (key_at bs s) < fuel)%nat ->
  exists t', t_insert fuel bs t s (key_at bs s) v = Some (ZOk t') /\ wok p t' /\
    Permutation (entries t') ((key_at bs s, v) :: entries t) /\ nodes t' <= nodes t + 2 /\
    (Forall (fun c => common (key c) (key_at bs s) = 0) (kids t) -> nodes t' <= nodes t + 1).
Proof.
  induction fuel as [|fuel IH]; intros p [vals ch] s W P Fu; [lia|]. cbn [t_insert]. rewrite wok_eq in W.
  assert (Fr : Forall (fun x : sref * tree V => ref_in bs (fst x)) ch) by (eapply Forall_impl; [|exact W]; intros a [[? _] _]; auto).
  destruct (search_weak ch (key_at bs s) Fr) as (r & -> & Hr).
  destruct (path_single p s v P) as [Ps Ws].
  assert (New : forall n, n <= lenN ch -> exists t', Some (ZOk (Tree vals (ins ch n (s, Tree [v] [])))) = Some (ZOk t') /\ wok p t' /\
    Permutation (entries t') ((key_at bs s, v) :: entries (Tree vals ch)) /\ nodes t' <= nodes (Tree vals ch) + 2 /\
    (Forall (fun c => common (key c) (key_at bs s) = 0) ch -> nodes t' <= nodes (Tree vals ch) + 1)).
  { intros n Ln. eexists. split; [reflexivity|]. destruct (ins_cut ch n (s, Tree [v] []) Ln) as (l1 & l2 & -> & _ & ->). split.
    - rewrite wok_eq. apply Forall_app in W as [W1 W2]. apply Forall_app. split; auto.
    - split.
      + rewrite !entries_eq, !flat_map_app. cbn [flat_map]. rewrite centries_single. cbn [app].
        rewrite !app_assoc. rewrite <- Permutation_middle. auto.
      + rewrite !nodes_app, nodes_cons. cbn [nodes snd fold_right]. lia. }
  destruct r as [n|n].
  - destruct Hr as ([r [vs cs]] & E & K). cbn [fst] in K. rewrite E. eexists. split; [reflexivity|].
    destruct (nthN_cut _ _ _ E) as (l1 & l2 & -> & _ & ->). apply Forall_app in W as [W1 W2]. inversion W2 as [|? ? [Pc Wc] W3]; subst. split.
    + rewrite wok_eq. apply Forall_app. split; auto.
    + split.
      * rewrite !entries_eq, !flat_map_app. cbn [flat_map].
        assert (Permutation (centries (r, Tree (vs ++ [v]) cs)) ((key_at bs s, v) :: centries (r, Tree vs cs))) as Pm.
        { unfold centries. cbn [fst snd]. rewrite !entries_eq, map_app, !map_app. cbn [map app]. rewrite <- !app_assoc. cbn [app].
          rewrite <- Permutation_middle. assert (pre (key_at bs r) ([], v) = (key_at bs s, v)) as -> by (unfold pre; cbn [fst snd]; rewrite app_nil_r, K; auto). auto. }
        rewrite Pm. cbn [app]. rewrite !app_assoc. rewrite <- Permutation_middle. rewrite <- !app_assoc. auto.
      * rewrite !nodes_app, !nodes_cons. cbn [nodes snd]. lia.
  - destruct (N.eqb_spec n 0) as [->|Z]; [apply New; lia|].
    destruct (nthN_some ch (n - 1)) as [[r sub] E]; [lia|]. rewrite E.
    destruct (nthN_cut _ _ _ E) as (l1 & l2 & Ech & _ & Up). 
    assert (Wc : path_ok p r /\ wok (p ++ key_at bs r) sub).
    { rewrite Forall_forall in W. apply (W (r, sub)). eapply nthN_In; eauto. }
    destruct Wc as [Pr Wsub]. rewrite str_load_in by apply Pr. cbv zeta.
    destruct (N.eqb_spec (common (key_at bs r) (key_at bs s)) 0) as [C|C]; [apply New; auto|].
    destruct (common_spec (key_at bs r) (key_at bs s)) as (x & a & b & Ea & Eb & Lx & Dab).
    set (k := common (key_at bs r) (key_at bs s)) in *.
    change (if k =? snd r then (r, sub) else ((fst r, k), Tree [] [((fst r + k, snd r - k), sub)])) with (split_child (r, sub) k).
    destruct (split_child_ok p (r, sub) x k a Pr Wsub Ea (eq_sym Lx)) as (P' & W' & K' & C' & N').
    set (c' := split_child (r, sub) k) in *. cbv zeta in *.
    pose proof (key_len _ _ (proj1 P)) as Ls.
    destruct s as [off len]. cbn [fst snd] in *.
    assert (Lk : k <= len). { rewrite <- Ls, Eb, lenN_app. lia. }
    assert (P2 := P). replace len with (k + (len - k)) in P2 by lia. destruct (path_cut _ _ _ _ P2) as (_ & Pcut & Ecut).
    replace (k + (len - k)) with len in Ecut by lia.
    assert (Lo : lenN (key_at bs (off, k)) = k).
    { apply key_len. destruct P as [I _]. unfold ref_in in *. cbn [fst snd] in *. lia. }
    assert (X : key_at bs (off, k) = x /\ key_at bs (off + k, len - k) = b).
    { rewrite Ecut in Eb. apply app_len_inj in Eb; auto. apply Nat2N.inj. change (lenN (key_at bs (off, k)) = lenN x). congruence. }
    destruct X as [X1 X2].
    assert (Sk : skipn (N.to_nat k) (key_at bs (off, len)) = key_at bs (off + k, len - k)).
    { rewrite Ecut. rewrite skipn_app. unfold lenN in Lo. replace (N.to_nat k) with (length (key_at bs (off, k))) by lia.
      rewrite Nat.sub_diag, skipn_all. auto. }
    rewrite Sk. rewrite X1 in Pcut. rewrite K' in W'.
    destruct (IH (p ++ x) (snd c') (off + k, len - k)) as (sub2 & -> & W2 & Pm & Nn & Nn1); auto.
    { assert (length (key_at bs (off, len)) = length (key_at bs (off, k)) + length (key_at bs ((off + k)%N, (len - k)%N)))%nat as Q;
      [|clear - Q Lo C Fu; unfold lenN in Lo; lia].
      rewrite Ecut at 1. apply app_length. }
    eexists. split; [reflexivity|]. rewrite Up. rewrite Ech in W. apply Forall_app in W as [W1 Wr]. pose proof (Forall_inv_tail Wr) as W3. split.
    + rewrite wok_eq. apply Forall_app. split; [auto|]. constructor; [|auto]. cbn [fst snd]. split; [auto|]. rewrite K'. auto.
    + split.
      * rewrite Ech. rewrite !entries_eq, !flat_map_app. cbn [flat_map].
        assert (Permutation (centries (fst c', sub2)) ((key_at bs (off, len), v) :: centries (r, sub))) as Q.
        { rewrite <- C'. unfold centries at 1. cbn [fst snd]. rewrite Pm. cbn [map].
          assert (pre (key_at bs (fst c')) (key_at bs (off + k, len - k), v) = (key_at bs (off, len), v)) as -> by (unfold pre; cbn [fst snd]; rewrite K', Eb, X2; auto).
          reflexivity. }
        rewrite Q. cbn [app]. rewrite !app_assoc. rewrite <- Permutation_middle. rewrite <- !app_assoc. auto.
      * rewrite Ech. rewrite !nodes_app, !nodes_cons. cbn [snd kids]. split.
        -- destruct N' as [Q|(N' & _ & r1 & Kc & Ka)]; [rewrite Q in *; cbn [snd] in *; lia|].
           cbn [snd] in N', Kc. rewrite Kc in Nn1.
           assert (nodes sub2 <= nodes (snd c') + 1); [|lia]. apply Nn1. constructor; [|constructor]. cbn [fst]. rewrite Ka, X2.
           destruct Dab as [->|[->|D]]; [reflexivity| |apply common_hd; auto]. destruct a; reflexivity.
        -- intros F0. exfalso. apply Forall_app in F0 as [_ F0]. apply Forall_inv in F0. cbn [fst] in F0. fold k in F0. lia.
Qed.

Lemma ref_path s : ref_in bs s -> path_ok [] s.
Proof. intros H. split; auto. split; [cbn; lia|]. unfold key_at. reflexivity. Qed.

Lemma insert_all_weak : forall es t, wok [] t -> Forall (fun e => ref_in bs (fst e)) es ->
  exists t', insert_all bs t es = Some (ZOk t') /\ wok [] t' /\ Permutation (entries t') (keyed bs es ++ entries t) /\
    nodes t' <= nodes t + 2 * lenN es.
Proof.
  induction es as [|[s v] es IH]; intros t W F; cbn [insert_all keyed map app].
  { exists t. repeat split; auto. cbn. lia. }
  inversion F; subst. cbn [fst snd] in *. unfold trie_insert. rewrite str_load_in by auto.
  destruct (t_insert_weak v (S (length (key_at bs s))) [] t s W (ref_path _ H1)) as (t1 & -> & W1 & P1 & N1 & _); [lia|].
  destruct (IH t1 W1 H2) as (t2 & -> & W2 & P2 & N2). exists t2. split; auto. split; auto. split.
  - rewrite P2, P1. fold (keyed bs es). rewrite <- Permutation_middle. auto.
  - rewrite lenN_cons. lia.
Qed.

(** ** Ordered insertion *)
Fixpoint srt (root : bool) (t : tree V) : Prop :=
  match t with
  | Tree vals ch =>
      (root = true -> vals = []) /\ StronglySorted hlt (map (fun c => key c) ch) /\
      fold_right (fun c P => ((key c = [] -> root = true /\ kids (snd c) = []) /\ entries (snd c) <> [] /\ srt false (snd c)) /\ P) True ch
  end.
Definition cok (root : bool) (c : sref * tree V) : Prop :=
  (key c = [] -> root = true /\ kids (snd c) = []) /\ entries (snd c) <> [] /\ srt false (snd c).
Lemma srt_eq root vals ch : srt root (Tree vals ch) <->
  (root = true -> vals = []) /\ StronglySorted hlt (map (fun c => key c) ch) /\ Forall (cok root) ch.
Proof.
  cbn [srt]. assert (H : fold_right (fun c P => ((key c = [] -> root = true /\ kids (snd c) = []) /\ entries (snd c) <> [] /\ srt false (snd c)) /\ P) True ch
    <-> Forall (cok root) ch); [|tauto].
  induction ch as [|c ch IH]; cbn [fold_right].
  - split; auto.
  - rewrite IH. split; [intros [A B]; constructor; auto|]. intros F. inversion F; auto.
Qed.

(** First bytes of keys *)
Lemma centries_hd root c e : cok root c -> In e (centries c) -> hd_error (fst e) = hd_error (key c).
Proof.
  intros (K & _ & _) I. unfold centries in I. apply in_map_iff in I as (e' & <- & I). unfold pre. cbn [fst].
  destruct (key c) as [|x k]; [|reflexivity]. destruct (K eq_refl) as [_ Z]. cbn [app].
  destruct (snd c) as [vals ch]. cbn [kids] in Z. subst ch. cbn [entries flat_map] in I. rewrite app_nil_r in I.
  apply in_map_iff in I as (v & <- & _). reflexivity.
Qed.
Lemma centries_pre c e : In e (centries c) -> exists k, fst e = key c ++ k.
Proof. intros I. apply in_map_iff in I as (e' & <- & I). unfold pre. cbn [fst]. eauto. Qed.

Lemma values_app k (l1 l2 : list (bytes * V)) : values_at k (l1 ++ l2) = values_at k l1 ++ values_at k l2.
Proof. unfold values_at. rewrite filter_app, map_app. auto. Qed.
Lemma values_none k (l : list (bytes * V)) : (forall e, In e l -> fst e <> k) -> values_at k l = [].
Proof.
  intros H. unfold values_at. induction l as [|e l IH]; cbn [filter]; auto. rewrite beqb_ne by (apply H; left; auto).
  apply IH. intros x I. apply H. right; auto.
Qed.
Lemma values_pre x k (l : list (bytes * V)) : values_at (x ++ k) (map (pre x) l) = values_at k l.
Proof.
  unfold values_at. induction l as [|[q v] l IH]; cbn [map filter pre fst snd]; auto.
  destruct (bytes_eqb q k) eqn:E.
  - apply beqb_eq in E. subst q. rewrite beqb_refl. cbn [map snd]. f_equal. auto.
  - rewrite beqb_ne; auto. intros X. apply app_inv_head in X. subst q. rewrite beqb_refl in E. discriminate.
Qed.
Lemma values_nil_pair (vals : list V) : values_at [] (map (pair []) vals) = vals.
Proof. unfold values_at. induction vals as [|v l IH]; cbn [map filter fst snd]; auto. rewrite beqb_refl. cbn [map snd]. f_equal. auto. Qed.
Lemma values_cons_pair x k (vals : list V) : values_at (x :: k) (map (pair []) vals) = [].
Proof. apply values_none. intros e I. apply in_map_iff in I as (v & <- & _). discriminate. Qed.

(** Where the values of a key are: in the child with its first byte *)
Lemma values_child root k : forall ch c, Forall (cok root) ch -> StronglySorted hlt (map (fun c => key c) ch) -> In c ch ->
  hd_error (key c) = hd_error k -> values_at k (flat_map centries ch) = values_at k (centries c).
Proof.
  induction ch as [|c0 ch IH]; intros c F S' I H; [destruct I|]. cbn [flat_map]. rewrite values_app.
  pose proof (Forall_inv F) as F0. pose proof (Forall_inv_tail F) as Fr. inversion S' as [|? ? Ss Sf]; subst. destruct I as [->|I].
  - rewrite (values_none k (flat_map centries ch)); [apply app_nil_r|]. intros e Ie X.
    apply in_flat_map in Ie as (c' & Ic & Ie). rewrite Forall_forall in Fr. pose proof (centries_hd root c' e (Fr _ Ic) Ie) as Y.
    rewrite Forall_forall in Sf. assert (hlt (key c) (key c')) as Z by (apply Sf; apply (in_map (fun c => key c)); auto).
    apply hlt_hd in Z. congruence.
  - rewrite (values_none k (centries c0)); [apply IH; auto|]. intros e Ie X.
    pose proof (centries_hd root c0 e F0 Ie) as Y.
    rewrite Forall_forall in Sf. assert (hlt (key c0) (key c)) as Z by (apply Sf; apply (in_map (fun c => key c)); auto).
    apply hlt_hd in Z. congruence.
Qed.
Lemma values_no_child root k ch : Forall (cok root) ch -> (forall c, In c ch -> hd_error (key c) <> hd_error k) ->
  values_at k (flat_map centries ch) = [].
Proof.
  intros F H. apply values_none. intros e Ie X. apply in_flat_map in Ie as (c & Ic & Ie).
  rewrite Forall_forall in F. pose proof (centries_hd root c e (F _ Ic) Ie). apply (H c Ic). congruence.
Qed.

Lemma sorted_app {A} (R : A -> A -> Prop) l1 l2 : StronglySorted R (l1 ++ l2) <->
  StronglySorted R l1 /\ StronglySorted R l2 /\ (forall x y, In x l1 -> In y l2 -> R x y).
Proof.
  induction l1 as [|a l IH]; cbn [app].
  - split; [intros H; repeat split; auto; [constructor|intros x y []]|tauto].
  - split.
    + intros H. inversion H; subst. apply IH in H2 as (A1 & A2 & A3). apply Forall_app in H3 as [B1 B2].
      repeat split; auto; [constructor; auto|]. intros x y [->|I] J; auto. rewrite Forall_forall in B2. auto.
    + intros (H1 & H2 & H3). inversion H1; subst. constructor.
      * apply IH. repeat split; auto. intros; apply H3; cbn; auto.
      * apply Forall_app. split; auto. rewrite Forall_forall. intros y J. apply H3; cbn; auto.
Qed.
Lemma sorted_nth (l : list bytes) i j x y : StronglySorted hlt l -> nthN l i = Some x -> nthN l j = Some y -> i < j -> hlt x y.
Proof.
  intros S' Ei Ej L. destruct (nthN_cut _ _ _ Ei) as (l1 & l2 & -> & L1 & _).
  apply sorted_app in S' as (_ & S2 & _). inversion S2; subst. rewrite Forall_forall in H2. apply H2.
  unfold nthN in Ej. rewrite nth_error_app2 in Ej by (unfold lenN in L; lia).
  destruct (N.to_nat j - length l1)%nat as [|q] eqn:Q; [unfold lenN in L; lia|]. cbn in Ej. eapply nth_error_In; eauto.
Qed.

Lemma nthN_map {A B} (f : A -> B) l i x : nthN l i = Some x -> nthN (map f l) i = Some (f x).
Proof. unfold nthN. intros E. apply map_nth_error. auto. Qed.

Lemma sorted_probe ch cur : StronglySorted hlt (map (fun c => key c) ch) ->
  sorted_cmp (fun i => match nthN ch i with Some c => cmp_bytes (key c) cur | None => Eq end) (lenN ch).
Proof.
  intros S' i j L Lj. destruct (nthN_some ch j Lj) as [cj Ej]. destruct (nthN_some ch i) as [ci Ei]; [lia|]. rewrite Ei, Ej.
  destruct (N.eq_dec i j) as [->|NE]; [rewrite Ei in Ej; inversion Ej; auto|].
  assert (hlt (key ci) (key cj)) as H.
  { eapply (sorted_nth _ i j); eauto; [apply (nthN_map (fun c => key c)); auto|apply (nthN_map (fun c => key c)); auto|lia]. }
  apply hlt_cmp in H. split.
  - intros G. rewrite cmp_antisym in G. destruct (cmp_bytes cur (key ci)) eqn:Q; try discriminate.
    rewrite cmp_antisym. rewrite (cmp_trans _ _ _ Q H). auto.
  - intros G. eapply cmp_trans; eauto.
Qed.
Lemma search_strong ch cur : Forall (fun x => ref_in bs (fst x)) ch -> StronglySorted hlt (map (fun c => key c) ch) ->
  exists r, search_children bs ch cur = Some (ZOk r) /\
  answer (fun i => match nthN ch i with Some c => cmp_bytes (key c) cur | None => Eq end) (lenN ch) r.
Proof.
  intros F S'. unfold search_children, binary_search_by. apply bs_loop_answer; try lia.
  - apply sorted_probe; auto.
  - intros i L. destruct (nthN_some ch i L) as [c E]. rewrite (search_ok ch cur (fun _ => Eq) F i c E), E. auto.
Qed.

Lemma cmp_lt_le a b c : cmp_bytes a b = Lt -> cmp_bytes b c <> Gt -> cmp_bytes a c = Lt.
Proof.
  intros A B. destruct (cmp_bytes b c) eqn:E; [|eapply cmp_trans; eauto|congruence]. apply cmp_eq in E. subst. auto.
Qed.

Definition ite (k cur : bytes) (v : V) : list V := if bytes_eqb k cur then [v] else [].

Section insert.
Context (root : bool) (vals : list V) (s : sref) (v : V).
Local Notation cur := (key_at bs s).
Context (Rt : cur = [] -> root = true).

Lemma vals_cur : (root = true -> vals = []) -> values_at cur (map (pair []) vals) = [].
Proof.
  intros H. destruct cur as [|x k] eqn:E; [|apply values_cons_pair]. rewrite H by auto. reflexivity.
Qed.

Lemma new_ok l1 l2 : srt root (Tree vals (l1 ++ l2)) -> (forall c, In c l1 -> hlt (key c) cur) -> (forall c, In c l2 -> hlt cur (key c)) ->
  let t' := Tree vals (l1 ++ (s, Tree [v] []) :: l2) in
  srt root t' /\ forall k, values_at k (entries t') = values_at k (entries (Tree vals (l1 ++ l2))) ++ ite k cur v.
Proof.
  intros H A B. apply srt_eq in H as (Hv & So & F). cbv zeta. apply Forall_app in F as [F1 F2].
  rewrite map_app in So. apply sorted_app in So as (S1 & S2 & S3). split.
  - apply srt_eq. split; auto. split.
    + rewrite map_app. cbn [map fst]. apply sorted_app. split; auto. split.
      * constructor; auto. rewrite Forall_forall. intros y I. apply in_map_iff in I as (c & <- & I). auto.
      * intros x y I [<-|J]; auto. apply in_map_iff in I as (c & <- & I). auto.
    + apply Forall_app. split; auto. constructor; auto. split; [|split].
      * cbn [fst snd kids]. intros E. auto.
      * cbn. discriminate.
      * apply srt_eq. split; [discriminate|]. split; constructor.
  - intros k. rewrite !entries_eq, !flat_map_app, !values_app. cbn [flat_map]. rewrite !values_app, centries_single.
    unfold ite. destruct (bytes_eqb k cur) eqn:E.
    + apply beqb_eq in E. subst k.
      rewrite (values_no_child root cur l1 F1) by (intros c I; apply hlt_hd; auto).
      rewrite (values_no_child root cur l2 F2) by (intros c I X; apply (hlt_hd _ _ (B c I)); auto).
      cbn [app]. rewrite vals_cur by auto. unfold values_at. cbn [filter fst]. rewrite beqb_refl. reflexivity.
    + assert (values_at k [(cur, v)] = []) as ->.
      { apply values_none. intros e [<-|[]]. cbn [fst]. intros X. subst k. rewrite beqb_refl in E. discriminate. }
      cbn [app]. rewrite !app_nil_r. auto.
Qed.

Lemma replace_ok l1 c l2 c' : srt root (Tree vals (l1 ++ c :: l2)) -> hd_error (key c') = hd_error (key c) -> hd_error (key c) = hd_error cur ->
  cok root c' -> (forall k, values_at k (centries c') = values_at k (centries c) ++ ite k cur v) ->
  let t' := Tree vals (l1 ++ c' :: l2) in
  srt root t' /\ forall k, values_at k (entries t') = values_at k (entries (Tree vals (l1 ++ c :: l2))) ++ ite k cur v.
Proof.
  intros H Hh Hc Ok Hv. apply srt_eq in H as (Hr & So & F). cbv zeta. apply Forall_app in F as [F1 F2].
  pose proof (Forall_inv_tail F2) as F3.
  rewrite map_app in So. cbn [map] in So. apply sorted_app in So as (S1 & S2 & S3). inversion S2 as [|? ? S4 S5]; subst.
  rewrite Forall_forall in S5. split.
  - apply srt_eq. split; auto. split.
    + rewrite map_app. cbn [map]. apply sorted_app. split; auto. split.
      * constructor; auto. rewrite Forall_forall. intros y I. eapply hlt_hd_eq_l; [symmetry; eauto|auto].
      * intros x y I [<-|J].
        -- eapply hlt_hd_eq_r; [symmetry; eauto|]. apply S3; cbn; auto.
        -- apply S3; cbn; auto.
    + apply Forall_app. split; auto.
  - intros k. rewrite !entries_eq, !flat_map_app, !values_app. cbn [flat_map]. rewrite !values_app, Hv.
    unfold ite. destruct (bytes_eqb k cur) eqn:E; [|rewrite !app_nil_r; auto].
    apply beqb_eq in E. subst k.
    rewrite (values_no_child root cur l2 F3); [rewrite !app_nil_r, !app_assoc; auto|].
    intros c0 I X. assert (hlt (key c) (key c0)) as Z by (apply S5; apply (in_map (fun c => key c)); auto). apply hlt_hd in Z. congruence.
Qed.
End insert.

Lemma In_nthN_app {A} (l1 l2 : list A) c : In c l1 -> exists j, j < lenN l1 /\ nthN (l1 ++ l2) j = Some c.
Proof.
  intros I. apply In_nthN in I as [j E]. exists j. split; [eapply nthN_lt; eauto|]. unfold nthN in *. rewrite nth_error_app1; auto.
  apply nth_error_Some. congruence.
Qed.
Lemma In_nthN_app2 {A} (l1 l2 : list A) c : In c l2 -> exists j, lenN l1 <= j /\ j < lenN (l1 ++ l2) /\ nthN (l1 ++ l2) j = Some c.
Proof.
  intros I. apply In_nthN in I as [j E]. exists (lenN l1 + j). pose proof (nthN_lt _ _ _ E). rewrite lenN_app. repeat split; try lia.
  unfold nthN, lenN in *. rewrite nth_error_app2 by lia. rewrite <- E. f_equal. lia.
Qed.

Lemma entries_children vals ch c e : In c ch -> In e (centries c) -> In e (entries (Tree vals ch)).
Proof. intros I J. rewrite entries_eq. apply in_app_iff. right. apply in_flat_map. eauto. Qed.

Lemma t_insert_strong v : forall fuel root p t s, wok p t -> srt root t -> path_ok p s -> (key_at bs s = [] -> root = true) ->
  (forall e, In e (entries t) -> hd_error (fst e) = hd_error (key_at bs s) -> cmp_bytes (fst e) (key_at bs s) <> Gt) ->
  (length (key_at bs s) < fuel)%nat ->
  exists t', t_insert fuel bs t s (key_at bs s) v = Some (ZOk t') /\ srt root t' /\
    forall k, values_at k (entries t') = values_at k (entries t) ++ ite k (key_at bs s) v.
Proof.
  induction fuel as [|fuel IH]; intros root p [vals ch] s W So P Rt Ord Fu; [lia|]. cbn [t_insert]. rewrite wok_eq in W.
  assert (Fr : Forall (fun x : sref * tree V => ref_in bs (fst x)) ch) by (eapply Forall_impl; [|exact W]; intros a [[? _] _]; auto).
  pose proof (proj1 (srt_eq _ _ _) So) as (Hv & Sk & Ck).
  destruct (search_strong ch (key_at bs s) Fr Sk) as (r & -> & Hr).
  assert (Above : forall c, In c ch -> cmp_bytes (key c) (key_at bs s) = Gt -> hlt (key_at bs s) (key c)).
  { intros c I G. rewrite cmp_antisym in G. destruct (cmp_bytes (key_at bs s) (key c)) eqn:Q; try discriminate.
    apply lt_hlt; auto. intros Hd. rewrite Forall_forall in Ck. pose proof (Ck c I) as Okc. destruct Okc as (A1 & A2 & A3).
    destruct (centries c) as [|e es] eqn:Ec. { unfold centries in Ec. apply map_eq_nil in Ec. auto. }
    assert (Ie : In e (centries c)) by (rewrite Ec; left; auto).
    pose proof (centries_hd root c e (conj A1 (conj A2 A3)) Ie) as He. destruct (centries_pre c e Ie) as [q Eq].
    apply (Ord e); [eapply entries_children; eauto|congruence|].
    rewrite cmp_antisym. rewrite (cmp_lt_le _ _ (fst e) Q); auto. rewrite Eq, cmp_antisym. pose proof (cmp_app_le (key c) q).
    destruct (cmp_bytes (key c ++ q) (key c)); cbn; congruence. }
  destruct r as [n|n]; cbn [answer] in Hr.
  - destruct Hr as [Ln C]. destruct (nthN_some ch n Ln) as [[r [vs cs]] E]. rewrite E in *. cbn [fst] in C. apply cmp_eq in C.
    eexists. split; [reflexivity|]. destruct (nthN_cut _ _ _ E) as (l1 & l2 & -> & _ & ->).
    apply Forall_app in Ck as [_ Ck]. apply Forall_inv in Ck as (B1 & B2 & B3). cbn [fst snd kids] in *.
    apply replace_ok; auto.
    + cbn [fst]. congruence.
    + split; [auto|]. split.
      * cbn [snd]. rewrite entries_eq, map_app. cbn [map]. intros Z. apply app_eq_nil in Z as [Z _]. apply app_eq_nil in Z as [_ Z]. discriminate.
      * cbn [snd]. apply srt_eq in B3 as (_ & B4 & B5). apply srt_eq. split; [discriminate|auto].
    + intros k. unfold centries. cbn [fst snd]. rewrite !entries_eq, !map_app, !values_app. unfold ite. rewrite C.
      destruct (bytes_eqb k (key_at bs s)) eqn:Q.
      * apply beqb_eq in Q. subst k.
        match goal with |- context [?T] => match T with values_at _ (map _ (map _ [v])) => replace T with [v] end end.
        2: { symmetry. rewrite <- (app_nil_r (key_at bs s)) at 1. rewrite values_pre. apply values_nil_pair. }
        match goal with |- context [?T] => match T with values_at _ (map _ (flat_map _ cs)) => replace T with (@nil V) end end.
        2: { symmetry. rewrite <- (app_nil_r (key_at bs s)) at 1. rewrite values_pre. apply srt_eq in B3 as (_ & _ & B5).
          apply (values_no_child false); auto. intros c I X. rewrite Forall_forall in B5. destruct (B5 c I) as (D1 & _ & _).
          destruct (key c); [destruct D1; auto; discriminate|discriminate]. }
        rewrite !app_nil_r. auto.
      * match goal with |- context [?T] => match T with values_at _ (map _ (map _ [v])) => replace T with (@nil V) end end.
        2: { symmetry. apply values_none. cbn [map]. intros e [<-|[]] X. unfold pre in X. cbn [fst snd] in X. rewrite app_nil_r in X. subst k. rewrite beqb_refl in Q. discriminate. }
        rewrite !app_nil_r. auto.
  - destruct Hr as (Ln & Lo & Hi).
    assert (NewOk : forall l1 l2, ch = l1 ++ l2 -> lenN l1 = n -> (forall c, In c l1 -> hlt (key c) (key_at bs s)) ->
      srt root (Tree vals (l1 ++ (s, Tree [v] []) :: l2)) /\
      forall k, values_at k (entries (Tree vals (l1 ++ (s, Tree [v] []) :: l2))) = values_at k (entries (Tree vals ch)) ++ ite k (key_at bs s) v).
    { intros l1 l2 Ec Ll A. rewrite Ec in *. apply new_ok; auto. intros c I. apply Above; [apply in_app_iff; auto|].
      destruct (In_nthN_app2 l1 l2 c I) as (j & J1 & J2 & J3). specialize (Hi j ltac:(lia) J2). rewrite J3 in Hi. auto. }
    destruct (N.eqb_spec n 0) as [->|Z].
    { eexists. split; [reflexivity|]. unfold ins. cbn [N.to_nat firstn skipn app]. apply (NewOk [] ch); auto. intros c []. }
    destruct (nthN_some ch (n - 1)) as [[r sub] E]; [lia|]. rewrite E.
    pose proof (Lo (n - 1) ltac:(lia)) as Lc. rewrite E in Lc. cbn [fst] in Lc.
    assert (Wc : path_ok p r /\ wok (p ++ key_at bs r) sub).
    { rewrite Forall_forall in W. apply (W (r, sub)). eapply nthN_In; eauto. }
    destruct Wc as [Pr Wsub]. rewrite str_load_in by apply Pr. cbv zeta.
    destruct (N.eqb_spec (common (key_at bs r) (key_at bs s)) 0) as [C|C].
    { eexists. split; [reflexivity|]. destruct (ins_cut ch n (s, Tree [v] []) Ln) as (l1 & l2 & Ec & Ll & ->).
      apply (NewOk l1 l2); auto.
      assert (Hc : hlt (key_at bs r) (key_at bs s)).
      { apply lt_hlt; auto. apply common_0 in C as [X|[X|X]]; auto.
        - rewrite X in *. destruct (key_at bs s); [discriminate|discriminate].
        - rewrite X in *. destruct (key_at bs r); discriminate. }
      intros c I. destruct (In_nthN_app l1 l2 c I) as (j & J1 & J2). rewrite <- Ec in J2.
      destruct (N.eq_dec j (n - 1)) as [->|NE].
      - rewrite E in J2. inversion J2; subst c. auto.
      - eapply hlt_trans; [|exact Hc]. eapply (sorted_nth _ j (n - 1)); [exact Sk| | |lia].
        + apply (nthN_map (fun c => key c)); eauto.
        + apply (nthN_map (fun c => key c) _ _ _ E). }
    destruct (nthN_cut _ _ _ E) as (l1 & l2 & Ech & _ & Up).
    destruct (common_spec (key_at bs r) (key_at bs s)) as (x & a & b & Ea & Eb & Lx & Dab).
    set (k := common (key_at bs r) (key_at bs s)) in *.
    change (if k =? snd r then (r, sub) else ((fst r, k), Tree [] [((fst r + k, snd r - k), sub)])) with (split_child (r, sub) k).
    destruct (split_child_ok p (r, sub) x k a Pr Wsub Ea (eq_sym Lx)) as (P' & W' & K' & C' & N').
    set (c' := split_child (r, sub) k) in *. cbv zeta in *.
    pose proof (key_len _ _ (proj1 P)) as Ls.
    assert (Okc : cok root (r, sub)) by (rewrite Forall_forall in Ck; apply Ck; eapply nthN_In; eauto).
    assert (Inc : In (r, sub) ch) by (eapply nthN_In; eauto).
    assert (xn : x <> []) by (intros ->; cbn in Lx; lia).
    assert (bn : b <> []).
    { intros ->. rewrite Ea, Eb, cmp_app in Lc. destruct a; discriminate. }
    destruct s as [off len]. cbn [fst snd] in *.
    assert (Lk : k <= len). { rewrite <- Ls, Eb, lenN_app. lia. }
    assert (P2 := P). replace len with (k + (len - k)) in P2 by lia. destruct (path_cut _ _ _ _ P2) as (_ & Pcut & Ecut).
    replace (k + (len - k)) with len in Ecut by lia.
    assert (Lo' : lenN (key_at bs (off, k)) = k).
    { apply key_len. destruct P as [I _]. unfold ref_in in *. cbn [fst snd] in *. lia. }
    assert (X : key_at bs (off, k) = x /\ key_at bs (off + k, len - k) = b).
    { rewrite Ecut in Eb. apply app_len_inj in Eb; auto. apply Nat2N.inj. change (lenN (key_at bs (off, k)) = lenN x). congruence. }
    destruct X as [X1 X2].
    assert (Sk' : skipn (N.to_nat k) (key_at bs (off, len)) = key_at bs (off + k, len - k)).
    { rewrite Ecut. rewrite skipn_app. unfold lenN in Lo'. replace (N.to_nat k) with (length (key_at bs (off, k))) by lia.
      rewrite Nat.sub_diag, skipn_all. auto. }
    rewrite Sk'. rewrite X1 in Pcut. rewrite K' in W'.
    destruct (IH false (p ++ x) (snd c') (off + k, len - k)) as (sub2 & -> & S2 & Vs); auto.
    { destruct N' as [->|(_ & An & r1 & Kc & Ka)]; [apply Okc|]. destruct (snd c') as [vals' ch'] eqn:Q. cbn [kids] in Kc. subst ch'.
      apply srt_eq. split; [discriminate|]. split.
      - cbn [map]. constructor; constructor.
      - constructor; [|constructor]. destruct Okc as (O1 & O2 & O3). cbn [snd] in *. split; [|auto]. cbn [fst].
        rewrite Ka. intros Y. congruence. }
    { rewrite X2. congruence. }
    { rewrite X2. intros e Ie He. assert (In (pre x e) (centries c')) as J.
      { unfold centries. rewrite K'. apply in_map; auto. }
      rewrite C' in J. pose proof (entries_children vals ch _ _ Inc J) as Je.
      specialize (Ord _ Je). unfold pre in Ord. cbn [fst] in Ord. rewrite Eb, cmp_app in Ord. apply Ord.
      destruct x; [congruence|reflexivity]. }
    { assert (length (key_at bs (off, len)) = length (key_at bs (off, k)) + length (key_at bs ((off + k)%N, (len - k)%N)))%nat as Q;
      [|clear - Q Lo' C Fu; unfold lenN in Lo'; lia].
      rewrite Ecut at 1. apply app_length. }
    eexists. split; [reflexivity|]. rewrite Up, Ech. rewrite Ech in So. rewrite X2 in Vs. apply replace_ok; auto.
    + cbn [fst]. rewrite K', Ea. destruct x; [congruence|reflexivity].
    + cbn [fst]. rewrite Ea, Eb. destruct x; [congruence|reflexivity].
    + split; [cbn [fst]; rewrite K'; congruence|]. split; [|auto]. cbn [snd]. intros Q. specialize (Vs b). rewrite Q in Vs.
      unfold ite in Vs. rewrite beqb_refl in Vs. cbn in Vs. symmetry in Vs. apply app_eq_nil in Vs as [_ Vs]. discriminate.
    + intros q. rewrite <- C'. unfold centries. cbn [fst snd]. rewrite K', Eb.
      destruct (list_eq_dec N.eq_dec (firstn (length x) q) x) as [Q|Q].
      * rewrite <- (firstn_skipn (length x) q), Q. set (q2 := skipn (length x) q). rewrite !values_pre, Vs. f_equal.
        unfold ite. destruct (bytes_eqb q2 b) eqn:Y.
        -- apply beqb_eq in Y. rewrite Y, beqb_refl. auto.
        -- rewrite beqb_ne; auto. intros Y'. apply app_inv_head in Y'. rewrite Y', beqb_refl in Y. discriminate.
      * assert (forall l : list (bytes * V), values_at q (map (pre x) l) = []) as N0.
        { intros l. apply values_none. intros e Ie Y. apply in_map_iff in Ie as (e' & <- & _). unfold pre in Y. cbn [fst] in Y. subst q.
          apply Q. rewrite firstn_app, Nat.sub_diag, firstn_all. cbn. apply app_nil_r. }
        rewrite !N0. unfold ite. rewrite beqb_ne; auto. intros ->. apply Q. rewrite firstn_app, Nat.sub_diag, firstn_all. cbn. apply app_nil_r.
Qed.

Lemma insert_all_strong : forall es d t, wok [] t -> srt true t -> Forall (fun e => ref_in bs (fst e)) es ->
  (forall e, In e (entries t) -> In (fst e) d) -> ascending (d ++ map fst (keyed bs es)) ->
  exists t', insert_all bs t es = Some (ZOk t') /\ srt true t' /\
    forall k, values_at k (entries t') = values_at k (entries t) ++ values_at k (keyed bs es).
Proof.
  induction es as [|[s v] es IH]; intros d t W So F D A; cbn [insert_all keyed map app].
  { exists t. repeat split; auto. intros k. rewrite app_nil_r. auto. }
  inversion F as [|? ? F1 F2]; subst. cbn [fst snd] in *. unfold trie_insert. rewrite str_load_in by auto.
  cbn [keyed map fst snd] in A.
  assert (Ord : forall e, In e (entries t) -> hd_error (fst e) = hd_error (key_at bs s) -> cmp_bytes (fst e) (key_at bs s) <> Gt).
  { intros e I H. apply cmp_le_spec. apply D in I. apply in_split in I as (d1 & d2 & ->).
    apply (A d1 (fst e) d2 (key_at bs s) (map fst (keyed bs es))); auto. rewrite <- app_assoc. reflexivity. }
  destruct (t_insert_weak v (S (length (key_at bs s))) [] t s W (ref_path _ F1)) as (t1 & E1 & W1 & P1 & _); [lia|].
  destruct (t_insert_strong v (S (length (key_at bs s))) true [] t s W So (ref_path _ F1)) as (t1' & E1' & S1 & V1); auto.
  rewrite E1 in E1'. inversion E1'; subst t1'. rewrite E1.
  destruct (IH (d ++ [key_at bs s]) t1 W1 S1 F2) as (t2 & -> & S2 & V2).
  { intros e I. apply in_app_iff. apply (Permutation_in _ P1) in I as [<-|I]; [right; left; auto|left; auto]. }
  { rewrite <- app_assoc. exact A. }
  exists t2. split; auto. split; auto. intros k. rewrite V2, V1. rewrite <- app_assoc. f_equal.
  unfold ite, values_at. cbn [filter fst]. unfold bytes_eqb.
  destruct (list_eq_dec N.eq_dec k (key_at bs s)), (list_eq_dec N.eq_dec (key_at bs s) k); try congruence; reflexivity.
Qed.

(** A node's own values *)
Definition tvals (t : tree V) : list V := match t with Tree vals _ => vals end.
Lemma values_own t : srt false t -> values_at [] (entries t) = tvals t.
Proof.
  destruct t as [vals ch]. intros So. apply srt_eq in So as (_ & _ & F). rewrite entries_eq, values_app.
  rewrite (values_no_child false [] ch F); [rewrite app_nil_r; apply values_nil_pair|].
  intros c I X. rewrite Forall_forall in F. destruct (F c I) as (D1 & _ & _). destruct (key c); [destruct D1; auto; discriminate|discriminate].
Qed.

(** Keys in order *)
Definition sorted_keys (l : list (bytes * V)) : Prop := StronglySorted (fun a b => cmp_bytes (fst a) (fst b) <> Gt) l.
Lemma sorted_const k vals : sorted_keys (map (pair k) vals).
Proof.
  induction vals as [|v vs IH]; cbn [map]; constructor; auto. rewrite Forall_forall. intros e I. apply in_map_iff in I as (x & <- & _).
  cbn [fst]. rewrite cmp_refl. discriminate.
Qed.
Lemma sorted_pre x l : sorted_keys l -> sorted_keys (map (pre x) l).
Proof.
  induction 1 as [|e l S1 IH F]; cbn [map]; constructor; auto. rewrite Forall_forall in *. intros e' I. apply in_map_iff in I as (e2 & <- & I).
  unfold pre. cbn [fst]. rewrite cmp_app. apply F; auto.
Qed.
Lemma entries_sorted : forall t root, srt root t -> sorted_keys (entries t).
Proof.
  induction t as [vals ch IH] using tree_ind'. intros root So. apply srt_eq in So as (_ & So & F).
  rewrite entries_eq. apply sorted_app. split; [apply sorted_const|]. split.
  - clear vals. induction ch as [|c ch IHc]; cbn [flat_map]; [constructor|].
    pose proof (Forall_inv F) as F1. pose proof (Forall_inv_tail F) as F2. pose proof (Forall_inv IH) as I1. pose proof (Forall_inv_tail IH) as I2.
    inversion So as [|? ? So1 So2]; subst. apply sorted_app. split; [|split; auto].
    + apply sorted_pre. apply (I1 false). apply F1.
    + intros a b Ia Ib. apply in_flat_map in Ib as (c' & Ic & Ib). rewrite Forall_forall in F2.
      pose proof (centries_hd root c a F1 Ia) as Ha. pose proof (centries_hd root c' b (F2 _ Ic) Ib) as Hb.
      assert (hlt (fst a) (fst b)) as H.
      { rewrite Forall_forall in So2. assert (hlt (key c) (key c')) as H by (apply So2; apply (in_map (fun c => key c)); auto).
        eapply hlt_hd_eq_l; [symmetry; exact Ha|]. eapply hlt_hd_eq_r; [symmetry; exact Hb|]. auto. }
      rewrite (hlt_cmp _ _ H). discriminate.
  - intros a b Ia Ib. apply in_map_iff in Ia as (v & <- & _). cbn [fst]. destruct (fst b); cbn; discriminate.
Qed.
End trees.
