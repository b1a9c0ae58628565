(** Lemmas about [Prealloc]. *)
From Coq Require Import Lia.
From Verif Require Import Base System SystemSpec Prealloc BaseFacts SystemFacts.
Local Open Scope N_scope.

Definition no_heap : heap := mkheap [] 0.

Lemma sum_none (bs : list (option block)) : (forall j b, nth_error bs j <> Some (Some b)) ->
  fold_right (fun b n => match b with Some b => b_size b + n | None => n end) 0 bs = 0.
Proof.
  induction bs as [|o bs IH]; intros H; [reflexivity|]. cbn [fold_right]. rewrite IH by (intros j b; exact (H (S j) b)).
  destruct o as [b|]; [destruct (H O b eq_refl)|reflexivity].
Qed.

Lemma sum_one (bs : list (option block)) : forall i b, nth_error bs i = Some (Some b) -> (forall j b', j <> i -> nth_error bs j <> Some (Some b')) ->
  fold_right (fun b n => match b with Some b => b_size b + n | None => n end) 0 bs = b_size b.
Proof.
  induction bs as [|o bs IH]; intros [|i] b H1 H2; try discriminate; cbn [fold_right nth_error] in *.
  - injection H1 as ->. rewrite sum_none; [lia|]. intros j b'. exact (H2 (S j) b' (Nat.neq_succ_0 j)).
  - destruct o as [b'|]; [destruct (H2 O b' ltac:(discriminate) eq_refl)|]. apply (IH i b H1). intros j b' Hj. apply (H2 (S j) b'). lia.
Qed.

(** There is one vector. *)
Definition own (h : heap) (v : svec) (t : ety) (xs : list item) : Prop := vrel h v t xs /\ frame no_heap None h (s_data v).

Lemma block_none h j b : block_at h j = None -> nth_error (h_blocks h) j <> Some (Some b).
Proof. unfold block_at. intros H E. rewrite E in H. discriminate. Qed.

Lemma empty_block d : block_at no_heap d = None.
Proof. unfold block_at, no_heap. cbn. destruct d; reflexivity. Qed.

Lemma own_allocated h v t xs : own h v t xs -> allocated h = s_cap v * e_size t.
Proof.
  intros ((_ & _ & _ & _ & _ & D) & (F & _)). unfold allocated. destruct (s_data v) as [i|].
  - destruct D as (_ & b & B & <- & _). apply (sum_one _ i b (block_at_nth _ _ _ B)). intros j b' Hj. apply block_none.
    rewrite F; [apply empty_block|discriminate|congruence].
  - rewrite D. apply sum_none. intros j b. apply block_none. rewrite F; [apply empty_block|discriminate|discriminate].
Qed.

Lemma none_allocated h : frame no_heap None h None -> allocated h = 0.
Proof.
  intros (F & _). apply sum_none. intros j b. apply block_none. rewrite F; [apply empty_block|discriminate|discriminate].
Qed.

(** How the capacity grows *)
Lemma resize_cap env dbg h v t xs n ok v' h' : vrel h v t xs -> sresize env dbg h v (lenN xs) n = SDone (ok, v', h') ->
  s_cap v' = s_cap v \/ (s_cap v < lenN xs + n /\ s_cap v' = N.max (min_non_zero_cap t) (N.max (s_cap v * 2) (lenN xs + n))).
Proof.
  intros R. pose proof R as (E & (Hs & _) & _ & _ & Hm & _). pose proof (vrel_small _ _ _ _ R) as Hc. pose proof pow64 as (P1 & P2 & P3).
  unfold sresize. rewrite E. replace (e_size t =? 0) with false by lia. destruct (usize_max <? lenN xs + n); [intros [= <- <- <-]; now left|].
  destruct (lenN xs + n <=? s_cap v) eqn:E2; [intros [= <- <- <-]; now left|]. unfold udouble. replace (s_cap v * 2 <=? usize_max) with true by lia. cbn [sbind].
  destruct (layout_array t _); [|intros [= <- <- <-]; now left].
  destruct (srealloc env h v n0 _) as [[[i|] h2]| |]; cbn [sbind]; intros [= <- <- <-]; [|now left].
  right. split; [lia|reflexivity].
Qed.

Lemma resize_fails env dbg h v t xs n v' h' : vrel h v t xs -> (forall i, env i = true) -> sresize env dbg h v (lenN xs) n = SDone (false, v', h') ->
  s_cap v < lenN xs + n /\ isize_max - (e_align t - 1) < N.max (min_non_zero_cap t) (N.max (s_cap v * 2) (lenN xs + n)) * e_size t.
Proof.
  intros R He. pose proof R as (E & (Hs & _) & _ & _ & Hm & _). pose proof (vrel_small _ _ _ _ R) as Hc. pose proof pow64 as (P1 & P2 & P3).
  unfold sresize. rewrite E. replace (e_size t =? 0) with false by lia. destruct (usize_max <? lenN xs + n) eqn:E1.
  { intros _. split; [lia|]. nia. }
  destruct (lenN xs + n <=? s_cap v) eqn:E2; [discriminate|]. unfold udouble. replace (s_cap v * 2 <=? usize_max) with true by lia. cbn [sbind].
  unfold layout_array. destruct (isize_max - (e_align t - 1) <? _) eqn:E3; [intros _; split; lia|].
  unfold srealloc, grealloc, galloc. destruct (0 <? s_cap v); [destruct (s_data v); [|discriminate]; destruct (block_at h n0); [|discriminate]|].
  all: match goal with |- context [if ?c then SUndef else _] => destruct c end; [discriminate|]; rewrite He; discriminate.
Qed.

Lemma push_fails env dbg h v t xs x v' h' l : vrel h v t xs -> (forall i, env i = true) -> svec_push env dbg h v x = SDone (false, v', h', l) ->
  s_cap v < lenN xs + 1 /\ isize_max - (e_align t - 1) < N.max (min_non_zero_cap t) (N.max (s_cap v * 2) (lenN xs + 1)) * e_size t.
Proof.
  intros R He. pose proof R as (E & (Hs & _) & L & _). unfold svec_push. rewrite E. replace (e_size t =? 0) with false by lia. rewrite L.
  destruct (sresize env dbg h v (lenN xs) 1) as [[[o u] g]| |] eqn:Er; cbn [sbind]; [|discriminate..].
  destruct o; cbn [negb]; [|intros _; exact (resize_fails _ _ _ _ _ _ _ _ _ R He Er)].
  destruct (write_items g (s_data u) (s_len u) [x]); cbn [sbind]; [|discriminate..]. destruct (uadd dbg (s_len u) 1); cbn [sbind]; discriminate.
Qed.

Lemma push_cap env dbg h v t xs x ok v' h' l : vrel h v t xs -> svec_push env dbg h v x = SDone (ok, v', h', l) ->
  s_cap v' = s_cap v \/ (s_cap v < lenN xs + 1 /\ s_cap v' = N.max (min_non_zero_cap t) (N.max (s_cap v * 2) (lenN xs + 1))).
Proof.
  intros R. pose proof R as (E & (Hs & _) & L & _). unfold svec_push. rewrite E. replace (e_size t =? 0) with false by lia. rewrite L.
  destruct (sresize env dbg h v (lenN xs) 1) as [[[o u] g]| |] eqn:Er; cbn [sbind]; [|discriminate..].
  pose proof (resize_cap _ _ _ _ _ _ _ _ _ _ R Er) as H. destruct o; cbn [negb]; [|intros [= <- <- <- <-]; exact H].
  destruct (write_items g (s_data u) (s_len u) [x]); cbn [sbind]; [|discriminate..]. destruct (uadd dbg (s_len u) 1); cbn [sbind]; [|discriminate..].
  intros [= <- <- <- <-]. exact H.
Qed.

Lemma min_cap t : sized t -> min_non_zero_cap t * e_size t <= N.max (2 ^ 20) (2 * e_size t).
Proof.
  intros (Hs & _). unfold min_non_zero_cap. destruct (e_size t =? 1) eqn:E1; [lia|]. destruct (e_size t <=? 1024) eqn:E2; change (2 ^ 20) with 1048576; lia.
Qed.

Lemma cautious_room t hint : cautious t hint * e_size t <= 2 ^ 20.
Proof.
  unfold cautious. destruct (e_size t =? 0) eqn:E; [cbn; lia|]. change (1024 * 1024) with (2 ^ 20).
  pose proof (N.mul_div_le (2 ^ 20) (e_size t) ltac:(lia)). nia.
Qed.

(** What is said of all entries of the log *)
Definition modest (t : ety) (B : N) (e : N * N) : Prop := snd e <= N.max B (2 * fst e * e_size t).

Lemma drop_own h v t xs : own h v t xs -> exists h' l, svec_drop h v = SDone (h', l) /\ allocated h' = 0.
Proof.
  intros (R & F). destruct (drop_ok _ _ _ _ R) as (h' & E & F'). exists h', (dropped t xs). split; [exact E|].
  apply none_allocated. exact (frame_trans _ _ _ _ _ _ F F').
Qed.

Lemma give_up_ok h v t xs log : own h v t xs -> exists h', give_up h v log = SDone (None, h', log) /\ allocated h' = 0.
Proof.
  intros O. destruct (drop_own _ _ _ _ O) as (h' & l & E & H). unfold give_up. rewrite E. cbn [sbind]. eauto.
Qed.

Fixpoint got (outs : list (option item)) : option (list item) :=
  match outs with
  | [] => Some []
  | Some x :: r => option_map (cons x) (got r)
  | None :: _ => None
  end.

(** What is known of a run: no undefined behaviour, what it returns, the memory. *)
Definition collected (env : nat -> bool) (t : ety) (B : N) (xs : list item) (outs : list (option item)) (r : sout (option svec * heap * mlog)) : Prop :=
  exists ov h' log, r = SDone (ov, h', log) /\ Forall (modest t B) log /\
    match ov with
    | Some v => exists ys, got outs = Some ys /\ svec_items h' v = SDone (xs ++ ys) /\ s_len v = lenN (xs ++ ys)
    | None => allocated h' = 0 /\
        ((forall i, env i = true) -> forall ys, got outs = Some ys -> isize_max - (e_align t - 1) < N.max B (2 * lenN (xs ++ ys) * e_size t))
    end.

Lemma push_all_ok env dbg t B outs : 2 ^ 20 <= B -> forall h v xs log, own h v t xs ->
  allocated h <= N.max B (2 * lenN xs * e_size t) -> Forall (modest t B) log ->
  collected env t B xs outs (push_all env dbg h v (lenN xs) outs log).
Proof.
  intros HB. induction outs as [|[x|] outs IH]; intros h v xs log O Ha Hl; cbn [push_all].
  - exists (Some v), h, log. split; [reflexivity|]. split; [exact Hl|]. exists []. rewrite app_nil_r. destruct O as (R & _).
    split; [reflexivity|]. split; [exact (svec_items_ok _ _ _ _ R)|]. exact (proj1 (proj2 (proj2 R))).
  - destruct O as (R & F). pose proof R as (Et & Hs & _ & Hlc & _). destruct (push_ok env dbg h v t xs x R) as (ok & v' & h' & E & R' & F'). rewrite E. cbn [sbind].
    pose proof (push_cap _ _ _ _ _ _ _ _ _ _ _ R E) as Hc.
    assert (O' : own h' v' t (if ok then xs ++ [x] else xs)). { split; [exact R'|exact (frame_trans _ _ _ _ _ _ F F')]. }
    assert (Hn : modest t B (lenN xs + 1, allocated h')).
    { unfold modest. cbn [fst snd]. rewrite (own_allocated _ _ _ _ O'). rewrite (own_allocated h v t xs (conj R F)) in Ha. pose proof (min_cap t Hs).
      destruct Hc as [->|(Hc & ->)]; [|nia]. nia. }
    assert (Hl' : Forall (modest t B) (log ++ [(lenN xs + 1, allocated h')])).
    { apply Forall_app. split; [exact Hl|]. constructor; [exact Hn|constructor]. }
    destruct ok; cbn [negb].
    + assert (Hk : lenN xs + 1 = lenN (xs ++ [x])) by (rewrite lenN_app; reflexivity). rewrite Hk in *.
      destruct (IH h' v' (xs ++ [x]) _ O' Hn Hl') as (ov & h2 & log2 & E2 & H2 & H3). exists ov, h2, log2. split; [exact E2|]. split; [exact H2|].
      destruct ov as [v2|].
      2:{ destruct H3 as (H3 & H4). split; [exact H3|]. intros He ys. cbn [got]. destruct (got outs) as [zs|] eqn:Eg; [|discriminate]. intros [= <-].
          specialize (H4 He zs eq_refl). rewrite <- app_assoc in H4. exact H4. }
      destruct H3 as (ys & Hy & H4). exists (x :: ys). cbn [got]. rewrite Hy. rewrite <- app_assoc in H4. split; [reflexivity|exact H4].
    + destruct (give_up_ok h' v' t xs (log ++ [(lenN xs + 1, allocated h')]) O') as (h2 & -> & Hz). exists None, h2. eexists. split; [reflexivity|].
      split; [exact Hl'|]. split; [exact Hz|]. intros He ys. cbn [got]. destruct (got outs) as [zs|]; [|discriminate]. intros [= <-].
      destruct (push_fails _ _ _ _ _ _ _ _ _ _ R He E) as (P1 & P2). rewrite lenN_app. assert (Hz1 : 1 <= lenN (x :: zs)) by (unfold lenN; cbn [length]; lia).
      pose proof (min_cap t Hs). eapply N.lt_le_trans; [exact P2|].
      assert (Hd : 2 * (lenN xs + 1) * e_size t <= 2 * (lenN xs + lenN (x :: zs)) * e_size t) by nia. nia.
  - destruct (give_up_ok h v t xs log O) as (h' & -> & Hz). exists None, h', log. split; [reflexivity|]. split; [exact Hl|]. split; [exact Hz|]. intros _ ys. discriminate.
Qed.

Lemma with_capacity_cap env dbg h t n v h' : sized t -> svec_with_capacity env dbg h t n = SDone (Some v, h') ->
  s_cap v = 0 \/ (0 < n /\ s_cap v = N.max (min_non_zero_cap t) n).
Proof.
  intros Hs. unfold svec_with_capacity. destruct (sresize env dbg h (svec_new t) 0 n) as [[[ok u] g]| |] eqn:E; cbn [sbind]; [|discriminate..].
  pose proof (resize_cap env dbg h (svec_new t) t [] n ok u g (svec_new_ok h t Hs) E) as H. destruct ok.
  - intros [= <- <-]. cbn [svec_new s_cap] in H. change (lenN []) with 0 in H. destruct H as [H|(H1 & H)]; [left; exact H|right]. split; [lia|]. rewrite H. f_equal. lia.
  - destruct (sfree g u); cbn [sbind]; discriminate.
Qed.

Lemma with_capacity_fails env dbg h t n h' : sized t -> (forall i, env i = true) -> svec_with_capacity env dbg h t n = SDone (None, h') ->
  0 < n /\ isize_max - (e_align t - 1) < N.max (min_non_zero_cap t) n * e_size t.
Proof.
  intros Hs He. unfold svec_with_capacity. destruct (sresize env dbg h (svec_new t) 0 n) as [[[ok u] g]| |] eqn:E; cbn [sbind]; [|discriminate..].
  destruct ok; [discriminate|]. intros _. destruct (resize_fails env dbg h (svec_new t) t [] n u g (svec_new_ok h t Hs) He E) as (H1 & H2).
  cbn [svec_new s_cap] in H1, H2. change (lenN []) with 0 in H1, H2. split; [lia|]. replace (N.max (0 * 2) (0 + n)) with n in H2 by lia. exact H2.
Qed.

Lemma min_cap_small t : e_size t <= 2 ^ 20 -> min_non_zero_cap t * e_size t <= 2 ^ 20.
Proof.
  change (2 ^ 20) with 1048576. intros H. unfold min_non_zero_cap. destruct (e_size t =? 1) eqn:E1; [lia|]. destruct (e_size t <=? 1024) eqn:E2; lia.
Qed.

Lemma default_ok env dbg t hint outs : sized t -> collected env t (2 ^ 20) [] outs (default_decode_slice env dbg no_heap t hint outs).
Proof.
  intros Hs. unfold default_decode_slice, collect_slice.
  destruct (with_capacity_ok env dbg no_heap t (cautious t hint) Hs) as [(v & h' & E & R & F)|(h' & E & F)]; rewrite E; cbn [sbind].
  - assert (O : own h' v t []) by (split; assumption). assert (Hm : allocated h' <= 2 ^ 20).
    { rewrite (own_allocated _ _ _ _ O). pose proof (cautious_room t hint) as H. destruct (with_capacity_cap _ _ _ _ _ _ _ Hs E) as [->|(H1 & ->)]; [lia|].
      assert (e_size t <= 2 ^ 20) by nia. pose proof (min_cap_small t ltac:(assumption)). nia. }
    apply (push_all_ok env dbg t (2 ^ 20) outs (N.le_refl _) h' v [] _ O); [apply N.max_le_iff; left; exact Hm|].
    constructor; [|constructor]. apply N.max_le_iff. left. exact Hm.
  - exists None, h', [(0, allocated h')]. split; [reflexivity|]. rewrite (none_allocated _ F). split.
    { constructor; [|constructor]. unfold modest. cbn [fst snd]. lia. }
    split; [reflexivity|]. intros He ys _. destruct (with_capacity_fails _ _ _ _ _ _ Hs He E) as (H1 & H2). pose proof (cautious_room t hint) as H.
    assert (e_size t <= 2 ^ 20) by nia. pose proof (min_cap_small t ltac:(assumption)). nia.
Qed.

(** ** Elements as in memory *)

Lemma elems_length s n : forall bs, lenN (elems s n bs) = N.of_nat n.
Proof. unfold lenN. induction n as [|n IH]; intros bs; [reflexivity|]. cbn [elems length]. specialize (IH (skipn s bs)). lia. Qed.

Lemma skipn_add {A} (a b : nat) : forall l : list A, skipn a (skipn b l) = skipn (b + a) l.
Proof. induction b as [|b IH]; intros l; [reflexivity|]. destruct l as [|x l]; [destruct a; reflexivity|]. cbn [skipn Nat.add]. apply IH. Qed.

Lemma elems_split s b : forall a bs, elems s (a + b) bs = elems s a (firstn (a * s) bs) ++ elems s b (skipn (a * s) bs).
Proof.
  induction a as [|a IH]; intros bs; [reflexivity|]. cbn [elems Nat.add app]. f_equal.
  - f_equal. rewrite firstn_firstn. f_equal. lia.
  - rewrite IH. cbn [Nat.mul]. rewrite skipn_firstn_comm, skipn_add. replace (s + a * s - s)%nat with (a * s)%nat by lia. reflexivity.
Qed.

Lemma max_chunk_room t : sized t -> 1 <= max_chunk t /\ max_chunk t * e_size t <= N.max (2 ^ 17) (e_size t).
Proof.
  intros (Hs & _). unfold max_chunk. change (2 ^ 16) with 65536. change (2 ^ 17) with 131072. replace (e_size t =? 0) with false by lia.
  destruct (65536 <? e_size t) eqn:E.
  - change ((65536 + 65536 - 1) / 65536) with 1. lia.
  - pose proof (N.mul_div_le (65536 + e_size t - 1) (e_size t) ltac:(lia)). split; [|nia].
    apply N.div_le_lower_bound; lia.
Qed.

Definition cheap (t : ety) (e : N * N) : Prop := snd e <= 2 * fst e + N.max (2 ^ 18) (2 * e_size t).

Lemma reserve_cap env dbg h v t xs n ok v' h' : vrel h v t xs -> svec_reserve env dbg h v n = SDone (ok, v', h') ->
  s_cap v' = s_cap v \/ (s_cap v < lenN xs + n /\ s_cap v' = N.max (min_non_zero_cap t) (N.max (s_cap v * 2) (lenN xs + n))).
Proof.
  intros R. pose proof R as (E & (Hs & _) & L & _). unfold svec_reserve. rewrite E. replace (e_size t =? 0) with false by lia. rewrite L.
  apply (resize_cap env dbg h v t xs n ok v' h' R).
Qed.

Lemma reserve_fails env dbg h v t xs n v' h' : vrel h v t xs -> (forall i, env i = true) -> svec_reserve env dbg h v n = SDone (false, v', h') ->
  s_cap v < lenN xs + n /\ isize_max - (e_align t - 1) < N.max (min_non_zero_cap t) (N.max (s_cap v * 2) (lenN xs + n)) * e_size t.
Proof.
  intros R He. pose proof R as (E & (Hs & _) & L & _). unfold svec_reserve. rewrite E. replace (e_size t =? 0) with false by lia. rewrite L.
  apply (resize_fails env dbg h v t xs n v' h' R He).
Qed.

Lemma read_chunks_ok env dbg t len fuel : forall h v xs bs log, own h v t xs -> (length bs < fuel)%nat -> lenN xs <= len ->
  let k := lenN xs * e_size t in allocated h <= 2 * k + N.max (2 ^ 18) (2 * e_size t) ->
  Forall (fun e => cheap t e /\ fst e <= k + lenN bs) log ->
  exists ov h' log', read_chunks fuel env dbg h v len k bs log = SDone (ov, h', log') /\
    Forall (fun e => cheap t e /\ fst e <= k + lenN bs) log' /\
    match ov with
    | Some (v', rest) =>
        lenN bs = (len - lenN xs) * e_size t + lenN rest /\ rest = skipn (N.to_nat ((len - lenN xs) * e_size t)) bs /\
        svec_items h' v' = SDone (xs ++ elems (N.to_nat (e_size t)) (N.to_nat (len - lenN xs)) bs) /\ s_len v' = len
    | None => allocated h' = 0 /\
        ((forall i, env i = true) -> (len - lenN xs) * e_size t <= lenN bs -> isize_max - (e_align t - 1) < 2 * (k + lenN bs) + N.max (2 ^ 18) (2 * e_size t))
    end.
Proof.
  induction fuel as [|fuel IH]; intros h v xs bs log O Hf Hx k Ha Hl; [lia|]. pose proof O as (R & F).
  pose proof R as (Et & Hs & L & Hlc & _). pose proof Hs as (Hs1 & _). cbn [read_chunks]. rewrite L, Et. destruct (len <=? lenN xs) eqn:El.
  - exists (Some (v, bs)), h, log. split; [reflexivity|]. split; [exact Hl|]. assert (len = lenN xs) as -> by lia. rewrite N.sub_diag, N.mul_0_l. cbn [N.to_nat elems].
    rewrite app_nil_r. split; [lia|]. split; [reflexivity|]. split; [exact (svec_items_ok _ _ _ _ R)|exact L].
  - set (chunk := N.min (len - lenN xs) (max_chunk t)). destruct (max_chunk_room t Hs) as (Hm1 & Hm2).
    assert (Hc : 1 <= chunk <= len - lenN xs /\ chunk <= max_chunk t) by lia.
    destruct (reserve_ok env dbg h v t xs chunk R) as (ok & v' & h' & E & R' & F' & Hok). rewrite E. cbn [sbind].
    pose proof (reserve_cap _ _ _ _ _ _ _ _ _ _ R E) as Hcap. assert (O' : own h' v' t xs). { split; [exact R'|exact (frame_trans _ _ _ _ _ _ F F')]. }
    assert (Hw : s_cap v < lenN xs + chunk -> N.max (min_non_zero_cap t) (N.max (s_cap v * 2) (lenN xs + chunk)) * e_size t <= 2 * k + N.max (2 ^ 18) (2 * e_size t)).
    { intros Hlt.
      assert (Hroom : (lenN xs + chunk) * e_size t <= k + N.max (2 ^ 17) (e_size t)) by (unfold k; nia).
      assert (Hdbl : 2 * N.max (2 ^ 17) (e_size t) <= N.max (2 ^ 18) (2 * e_size t)) by (change (2 ^ 17) with 131072; change (2 ^ 18) with 262144; lia).
      assert (Hmin : min_non_zero_cap t * e_size t <= N.max (2 ^ 18) (2 * e_size t)).
      { unfold min_non_zero_cap. change (2 ^ 18) with 262144. destruct (e_size t =? 1) eqn:E1; [lia|]. destruct (e_size t <=? 1024) eqn:E2; lia. }
      assert (Htw : s_cap v * 2 * e_size t <= 2 * ((lenN xs + chunk) * e_size t)) by nia.
      destruct (N.max_spec (min_non_zero_cap t) (N.max (s_cap v * 2) (lenN xs + chunk))) as [(_ & ->)|(_ & ->)]; [|lia].
      destruct (N.max_spec (s_cap v * 2) (lenN xs + chunk)) as [(_ & ->)|(_ & ->)]; lia. }
    assert (Hn : cheap t (k, allocated h')).
    { unfold cheap. cbn [fst snd]. rewrite (own_allocated _ _ _ _ O'). rewrite (own_allocated _ _ _ _ O) in Ha.
      destruct Hcap as [->|(Hlt & ->)]; [exact Ha|exact (Hw Hlt)]. }
    assert (Hl' : Forall (fun e => cheap t e /\ fst e <= k + lenN bs) (log ++ [(k, allocated h')])).
    { apply Forall_app. split; [exact Hl|]. constructor; [|constructor]. split; [exact Hn|cbn [fst]; lia]. }
    assert (Hdrop : exists ov h2 log2, (let? (h, _) := svec_drop h' v' in SDone (@None (svec * bytes), h, log ++ [(k, allocated h')])) = SDone (ov, h2, log2) /\
        Forall (fun e => cheap t e /\ fst e <= k + lenN bs) log2 /\ ov = None /\ allocated h2 = 0).
    { destruct (drop_own _ _ _ _ O') as (h2 & l & -> & Hz). cbn [sbind]. do 3 eexists. split; [reflexivity|]. auto. }
    assert (Et' : s_ty v' = t) by exact (proj1 R'). rewrite Et'.
    destruct ok; cbn [negb orb].
    2:{ destruct Hdrop as (ov & h2 & log2 & -> & H1 & -> & H2). exists None, h2, log2. split; [reflexivity|]. split; [exact H1|]. split; [exact H2|].
        intros He Hb. destruct (reserve_fails _ _ _ _ _ _ _ _ _ R He E) as (P1 & P2). specialize (Hw P1). lia. }
    destruct (lenN bs <? chunk * e_size t) eqn:Eb.
    { destruct Hdrop as (ov & h2 & log2 & -> & H1 & -> & H2). exists None, h2, log2. split; [reflexivity|]. split; [exact H1|]. split; [exact H2|].
      intros He Hb. assert (chunk * e_size t <= (len - lenN xs) * e_size t) by nia. lia. }
    specialize (Hok eq_refl). set (n := chunk * e_size t) in *. set (ys := elems (N.to_nat (e_size t)) (N.to_nat chunk) (firstn (N.to_nat n) bs)).
    assert (Ly : lenN ys = chunk). { unfold ys. rewrite elems_length. lia. }
    destruct (write_ok h' v' t xs ys R') as (h2 & W & F2 & _ & R2); [lia|]. rewrite W. cbn [sbind]. pose proof (proj1 (proj2 (proj2 R'))) as L'. rewrite L'.
    rewrite Ly in R2. assert (Hk : k + n = lenN (xs ++ ys) * e_size t) by (rewrite lenN_app, Ly; unfold k, n; lia). rewrite Hk.
    assert (O2 : own h2 (with_slen v' (lenN xs + chunk)) t (xs ++ ys)).
    { split; [exact R2|]. cbn [with_slen s_data]. apply (frame_trans _ _ _ _ _ _ (proj2 O')). exact F2. }
    assert (Lr : lenN bs = n + lenN (skipn (N.to_nat n) bs)). { unfold lenN. rewrite skipn_length. unfold lenN in Eb. lia. }
    destruct (IH h2 (with_slen v' (lenN xs + chunk)) (xs ++ ys) (skipn (N.to_nat n) bs) (log ++ [(k, allocated h')]) O2) as (ov & h3 & log3 & E3 & H1 & H2).
    + assert (1 <= n) by (unfold n; nia). rewrite skipn_length. unfold lenN in Eb. lia.
    + rewrite lenN_app, Ly. lia.
    + rewrite <- Hk. rewrite (own_allocated _ _ _ _ O2). cbn [with_slen s_cap]. unfold cheap in Hn. cbn [fst snd] in Hn. rewrite (own_allocated _ _ _ _ O') in Hn. lia.
    + rewrite <- Hk, <- N.add_assoc, <- Lr. exact Hl'.
    + exists ov, h3, log3. split; [exact E3|]. rewrite <- Hk, <- N.add_assoc, <- Lr in H1. split; [exact H1|]. destruct ov as [[v3 rest]|].
      2:{ destruct H2 as (H2 & H3). split; [exact H2|]. intros He Hb. rewrite <- Hk, <- N.add_assoc, <- Lr in H3. apply (H3 He). rewrite lenN_app, Ly.
          assert (Hsub : (len - lenN xs) * e_size t = n + (len - (lenN xs + chunk)) * e_size t) by (unfold n; rewrite <- N.mul_add_distr_r; f_equal; lia). lia. }
      rewrite lenN_app, Ly in H2. destruct H2 as (H3 & H4 & H5 & H6).
      assert (Hsub : (len - lenN xs) * e_size t = n + (len - (lenN xs + chunk)) * e_size t) by (unfold n; rewrite <- N.mul_add_distr_r; f_equal; lia).
      rewrite Hsub. split; [lia|]. split.
      { rewrite H4, skipn_add. f_equal. lia. }
      split; [|exact H6]. rewrite H5, <- app_assoc. do 2 f_equal.
      replace (N.to_nat (len - lenN xs)) with (N.to_nat chunk + N.to_nat (len - (lenN xs + chunk)))%nat by lia. rewrite elems_split.
      unfold ys. replace (N.to_nat chunk * N.to_nat (e_size t))%nat with (N.to_nat n) by (unfold n; lia). reflexivity.
Qed.
