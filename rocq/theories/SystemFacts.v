(** Lemmas about [System]. *)
From Verif Require Import Base System SystemSpec BaseFacts.
From Coq Require Import ZifyBool ZifyNat ZifyN Permutation.
Local Open Scope N_scope.

(** ** Lists *)

Lemma set_at_length {A} (l : list A) i x : length (set_at l i x) = length l.
Proof. revert i. induction l as [|y l IH]; intros [|i]; cbn [set_at length]; try reflexivity. now rewrite IH. Qed.

Lemma set_at_nth {A} (l : list A) i x j : nth_error (set_at l i x) j =
  if Nat.eqb i j then match nth_error l j with Some _ => Some x | None => None end else nth_error l j.
Proof.
  revert i j. induction l as [|y l IH]; intros [|i] [|j]; cbn [set_at nth_error Nat.eqb]; try reflexivity.
  - now destruct (Nat.eqb i j).
  - apply IH.
Qed.

Lemma set_at_end {A} (l : list A) x y : set_at (l ++ [x]) (length l) y = l ++ [y].
Proof. induction l as [|z l IH]; cbn; [reflexivity|]. now rewrite IH. Qed.

Lemma set_at_same {A} (l : list A) i x : nth_error l i = Some x -> set_at l i x = l.
Proof. revert i. induction l as [|y l IH]; intros [|i]; cbn; try reflexivity; intros H; [congruence|]. now rewrite IH. Qed.

Lemma set_at_twice {A} (l : list A) i x y : set_at (set_at l i x) i y = set_at l i y.
Proof. revert i. induction l as [|z l IH]; intros [|i]; cbn; try reflexivity. now rewrite IH. Qed.

Lemma option_eq_dec (a b : option nat) : {a = b} + {a <> b}.
Proof. decide equality. apply Nat.eq_dec. Qed.

(** ** Frames: what a call on one vector may do to the blocks *)

Definition frame (h : heap) (a : option nat) (h' : heap) (b : option nat) : Prop :=
  (forall d, a <> Some d -> b <> Some d -> block_at h' d = block_at h d) /\
  (forall d, b = Some d -> a = Some d \/ block_at h d = None) /\
  (forall d, a = Some d -> b <> Some d -> block_at h' d = None).

Lemma frame_refl h a : frame h a h a.
Proof. split; [reflexivity|]. split; [auto|]. intros d H1 H2. contradiction. Qed.

Lemma frame_blocks h h' a : h_blocks h' = h_blocks h -> frame h a h' a.
Proof. intros E. split; [intros; unfold block_at; now rewrite E|]. split; [auto|]. intros d H1 H2. contradiction. Qed.

Lemma frame_trans h a h' b h'' c : frame h a h' b -> frame h' b h'' c -> frame h a h'' c.
Proof.
  intros (A1 & A2 & A3) (B1 & B2 & B3). split; [|split].
  - intros d Ha Hc. destruct (option_eq_dec b (Some d)) as [E|E].
    + rewrite (B3 d E Hc). destruct (A2 d E) as [E'|E']; [contradiction|now rewrite E'].
    + rewrite (B1 d E Hc). now apply A1.
  - intros d Hc. destruct (option_eq_dec a (Some d)) as [Ea|Ea]; [now left|]. right.
    destruct (option_eq_dec b (Some d)) as [Eb|Eb].
    + destruct (A2 d Eb); [contradiction|assumption].
    + destruct (B2 d Hc) as [E|E]; [contradiction|]. rewrite <- E. symmetry. now apply A1.
  - intros d Ha Hc. destruct (option_eq_dec b (Some d)) as [Eb|Eb]; [now apply B3|].
    rewrite (B1 d Eb Hc). now apply A3.
Qed.

(** ** One vector *)

Definition vrel (h : heap) (v : svec) (t : ety) (xs : list item) : Prop :=
  s_ty v = t /\ sized t /\ s_len v = lenN xs /\ lenN xs <= s_cap v /\ s_cap v * e_size t <= isize_max - (e_align t - 1) /\
  match s_data v with
  | None => s_cap v = 0
  | Some i => 0 < s_cap v /\ exists b, block_at h i = Some b /\ b_size b = s_cap v * e_size t /\ b_align b = e_align t /\
      lenN (b_cells b) = s_cap v /\ firstn (length xs) (b_cells b) = map Some xs
  end.

Lemma block_at_end h b c : block_at (mkheap (h_blocks h ++ [Some b]) c) (length (h_blocks h)) = Some b.
Proof. unfold block_at. cbn [h_blocks]. rewrite nth_error_app2 by lia. now rewrite Nat.sub_diag. Qed.

Lemma block_at_set h i ob d c : block_at (mkheap (set_at (h_blocks h) i ob) c) d =
  if Nat.eqb i d then match nth_error (h_blocks h) d with Some _ => ob | None => None end else block_at h d.
Proof.
  unfold block_at. cbn [h_blocks]. rewrite set_at_nth. destruct (Nat.eqb i d); [|reflexivity].
  destruct (nth_error (h_blocks h) d); [destruct ob|]; reflexivity.
Qed.

Lemma block_at_lt h i b : block_at h i = Some b -> (i < length (h_blocks h))%nat.
Proof. unfold block_at. intros H. apply nth_error_Some. destruct (nth_error (h_blocks h) i); discriminate. Qed.

Lemma block_at_beyond h d : (length (h_blocks h) <= d)%nat -> block_at h d = None.
Proof. intros H. unfold block_at. now rewrite (proj2 (nth_error_None _ _) H). Qed.

Lemma block_at_app h x d c : block_at (mkheap (h_blocks h ++ [x]) c) d =
  if Nat.eqb (length (h_blocks h)) d then x else block_at h d.
Proof.
  unfold block_at. cbn [h_blocks]. destruct (Nat.eqb_spec (length (h_blocks h)) d) as [E|E].
  - subst d. rewrite nth_error_app2 by lia. rewrite Nat.sub_diag. cbn. now destruct x.
  - destruct (Nat.lt_ge_cases d (length (h_blocks h))) as [L|L].
    + now rewrite nth_error_app1.
    + rewrite !(proj2 (nth_error_None _ _)); [reflexivity|lia|rewrite app_length; cbn [length]; lia].
Qed.

Lemma frame_new h b c : frame h None (mkheap (h_blocks h ++ [Some b]) c) (Some (length (h_blocks h))).
Proof.
  split; [|split].
  - intros d _ Hd. rewrite block_at_app. destruct (Nat.eqb_spec (length (h_blocks h)) d); [now subst|reflexivity].
  - intros d E. injection E as <-. right. now apply block_at_beyond.
  - discriminate.
Qed.

Lemma frame_free h i ob c : block_at h i <> None -> (ob = None \/ exists b, ob = Some b) ->
  frame h (Some i) (mkheap (set_at (h_blocks h) i ob) c) (match ob with None => None | Some _ => Some i end).
Proof.
  intros Hi _. split; [|split].
  - intros d Ha _. rewrite block_at_set. destruct (Nat.eqb_spec i d); [now subst|reflexivity].
  - intros d E. destruct ob; [now left|discriminate].
  - intros d E Hb. injection E as <-. rewrite block_at_set, Nat.eqb_refl. destruct ob; [contradiction|].
    now destruct (nth_error (h_blocks h) i).
Qed.

Lemma block_at_nth h i b : block_at h i = Some b -> nth_error (h_blocks h) i = Some (Some b).
Proof. unfold block_at. destruct (nth_error (h_blocks h) i) as [[x|]|]; congruence. Qed.

(** ** Reading and writing *)

Lemma all_some_map {A} (xs : list A) : all_some (map Some xs) = Some xs.
Proof. induction xs as [|x xs IH]; [reflexivity|]. cbn. now rewrite IH. Qed.

Lemma svec_items_ok h v t xs : vrel h v t xs -> svec_items h v = SDone xs.
Proof.
  intros (E & (Hs & _) & L & Hc & _ & D). unfold svec_items. rewrite E. replace (e_size t =? 0) with false by lia.
  unfold read_items. rewrite L. destruct (s_data v) as [i|].
  - destruct D as (_ & b & B1 & _ & _ & B4 & B5). rewrite B1. destruct (lenN xs =? 0) eqn:E0.
    + destruct xs; [reflexivity|]. unfold lenN in E0. cbn [length] in E0. lia.
    + fold (lenN (b_cells b)). rewrite B4. replace (s_cap v <? lenN xs) with false by lia.
      unfold lenN at 1. rewrite Nat2N.id, B5, all_some_map. reflexivity.
  - destruct xs; [reflexivity|]. unfold lenN in Hc. cbn [length] in Hc. lia.
Qed.

Lemma write_cells_ok ys : forall cells n xs, firstn n cells = map Some xs -> length xs = n -> (n + length ys <= length cells)%nat ->
  exists cells', write_cells cells n ys = Some cells' /\ length cells' = length cells /\
    firstn (n + length ys) cells' = map Some (xs ++ ys).
Proof.
  induction ys as [|y ys IH]; intros cells n xs Hf Hn Hl; cbn [write_cells length] in *.
  - exists cells. rewrite Nat.add_0_r, app_nil_r. auto.
  - replace (Nat.ltb n (length cells)) with true by (symmetry; apply Nat.ltb_lt; lia).
    destruct (IH (set_at cells n (Some y)) (S n) (xs ++ [y])) as (c & H1 & H2 & H3).
    + clear - Hf Hn Hl. revert n xs Hf Hn Hl. induction cells as [|c cells IHc]; intros [|n] xs Hf Hn Hl; cbn [length] in *; try lia.
      * destruct xs; [|discriminate]. reflexivity.
      * destruct xs as [|x xs]; [discriminate|]. cbn [firstn map app set_at] in *. injection Hf as -> Hf. f_equal. apply IHc; [assumption|injection Hn as Hn; exact Hn|lia].
    + rewrite app_length. cbn [length]. lia.
    + rewrite set_at_length. lia.
    + exists c. split; [exact H1|]. split; [now rewrite H2, set_at_length|].
      rewrite Nat.add_succ_r, <- Nat.add_succ_l, H3, <- app_assoc. reflexivity.
Qed.

Lemma write_ok h v t xs ys : vrel h v t xs -> lenN xs + lenN ys <= s_cap v ->
  exists h', write_items h (s_data v) (s_len v) ys = SDone h' /\ frame h (s_data v) h' (s_data v) /\ h_count h' = h_count h /\
    vrel h' (with_slen v (lenN xs + lenN ys)) t (xs ++ ys).
Proof.
  intros (E & Hs & L & Hc & Hm & D) Hcap. unfold write_items.
  destruct ys as [|y ys0] eqn:Ey.
  { exists h. split; [reflexivity|]. split; [apply frame_refl|]. split; [reflexivity|]. rewrite app_nil_r.
    unfold vrel. cbn [with_slen s_ty s_len s_cap s_data]. change (lenN []) with 0 in *. rewrite N.add_0_r. auto 10. }
  cbv beta iota. assert (Hne : ys <> []) by (rewrite Ey; discriminate). rewrite <- Ey in *. clear Ey y ys0. destruct (s_data v) as [i|] eqn:Ed.
  - destruct D as (Hp & b & B1 & B2 & B3 & B4 & B5). rewrite B1, L. unfold lenN at 1. rewrite Nat2N.id.
    destruct (write_cells_ok ys (b_cells b) (length xs) xs B5 eq_refl) as (c & C1 & C2 & C3); [unfold lenN in *; lia|].
    rewrite C1. eexists. split; [reflexivity|]. split; [|split; [reflexivity|]].
    + unfold set_block. apply (frame_free h i (Some _)); [congruence|]. right. eauto.
    + unfold vrel. cbn [with_slen s_ty s_len s_cap s_data]. rewrite lenN_app. split; [assumption|]. split; [assumption|]. split; [reflexivity|].
      split; [assumption|]. split; [assumption|]. rewrite Ed. split; [assumption|]. eexists. split; [|split; [|split; [|split]]].
      * unfold set_block. rewrite block_at_set, Nat.eqb_refl. rewrite (block_at_nth _ _ _ B1). reflexivity.
      * exact B2.
      * exact B3.
      * cbn [b_cells]. unfold lenN in *. rewrite C2. exact B4.
      * cbn [b_cells]. rewrite app_length. exact C3.
  - exfalso. destruct ys; [contradiction|]. unfold lenN in *. cbn [length] in *. lia.
Qed.

(** ** Growing *)

Lemma pow64 : usize_max = 18446744073709551615 /\ isize_max = 9223372036854775807 /\ 2 ^ 64 = 18446744073709551616.
Proof. repeat split. Qed.

Definition grown (h : heap) (v : svec) (t : ety) (xs : list item) (ok : bool) (v' : svec) (h' : heap) (n : N) : Prop :=
  vrel h' v' t xs /\ frame h (s_data v) h' (s_data v') /\
  (ok = true -> lenN xs + n <= s_cap v') /\ (ok = false -> v' = v).

Lemma galloc_ok env h t n : sized t -> 0 < n -> n * e_size t <= isize_max - (e_align t - 1) ->
  (exists h', galloc env h (n * e_size t) (e_align t) n = SDone (None, h') /\ h_blocks h' = h_blocks h /\ env (h_count h) = false /\ h_count h' = S (h_count h)) \/
  (galloc env h (n * e_size t) (e_align t) n = SDone (Some (length (h_blocks h)),
    mkheap (h_blocks h ++ [Some (mkb (n * e_size t) (e_align t) (uninit n))]) (S (h_count h)))).
Proof.
  intros (Hs & Ha & _) Hn Hm. unfold galloc. assert (0 < n * e_size t) by nia. replace (n * e_size t =? 0) with false by lia. replace (isize_max <? n * e_size t) with false by lia.
  cbn [orb]. destruct (env (h_count h)) eqn:E; [now right|]. left. eexists. split; [reflexivity|]. auto.
Qed.

Lemma uninit_len n : lenN (uninit n) = n.
Proof. unfold lenN, uninit. rewrite repeat_length. lia. Qed.

Lemma vrel_none h v t xs : vrel h v t xs -> s_data v = None -> xs = [].
Proof. intros (_ & _ & _ & Hc & _ & D) E. rewrite E in D. destruct xs; [reflexivity|]. unfold lenN in Hc. cbn [length] in Hc. lia. Qed.

Lemma vrel_blocks h h' v t xs : h_blocks h' = h_blocks h -> vrel h v t xs -> vrel h' v t xs.
Proof.
  intros E (A & B & C & D & F & G). repeat (split; [assumption|]). destruct (s_data v); [|assumption].
  destruct G as (G1 & b & G2 & G3). split; [assumption|]. exists b. unfold block_at in *. now rewrite E.
Qed.

Lemma sresize_ok env dbg h v t xs n : vrel h v t xs ->
  exists ok v' h', sresize env dbg h v (lenN xs) n = SDone (ok, v', h') /\ grown h v t xs ok v' h' n.
Proof.
  intros R. pose proof R as (E & Hs & L & Hc & Hm & D). pose proof pow64 as (P1 & P2 & P3). pose proof Hs as (Hs1 & Ha & Hs3).
  assert (Hcap : s_cap v <= isize_max) by nia.
  unfold sresize. rewrite E. replace (e_size t =? 0) with false by lia.
  assert (Fail : forall h', h_blocks h' = h_blocks h -> grown h v t xs false v h' n).
  { intros h' Hb. split; [now apply (vrel_blocks h)|]. split; [now apply frame_blocks|]. split; [discriminate|reflexivity]. }
  destruct (usize_max <? lenN xs + n) eqn:E1.
  { exists false, v, h. split; [reflexivity|]. now apply Fail. }
  destruct (lenN xs + n <=? s_cap v) eqn:E2.
  { exists true, v, h. split; [reflexivity|]. split; [assumption|]. split; [apply frame_refl|]. split; [lia|discriminate]. }
  unfold udouble. replace (s_cap v * 2 <=? usize_max) with true by lia. cbn [sbind].
  set (cap := N.max (min_non_zero_cap t) (N.max (s_cap v * 2) (lenN xs + n))).
  assert (Hcap0 : 0 < cap) by (unfold cap, min_non_zero_cap; destruct (e_size t =? 1), (e_size t <=? 1024); lia).
  assert (Hcap1 : lenN xs + n <= cap) by (unfold cap; lia). assert (Hcap2 : s_cap v <= cap) by (unfold cap; lia).
  unfold layout_array. destruct (isize_max - (e_align t - 1) <? cap * e_size t) eqn:E3.
  { exists false, v, h. split; [reflexivity|]. now apply Fail. }
  unfold srealloc. rewrite E. destruct (s_data v) as [i|] eqn:Ed.
  - destruct D as (Hp & b & B1 & B2 & B3 & B4 & B5). replace (0 <? s_cap v) with true by lia.
    rewrite N.mod_small by nia. unfold grealloc. rewrite B1, B2, B3, !N.eqb_refl. cbn [andb negb orb].
    assert (0 < cap * e_size t) by nia. replace (cap * e_size t =? 0) with false by lia. replace (isize_max <? cap * e_size t) with false by lia. cbn [orb].
    destruct (env (h_count h)); cbn [sbind].
    + eexists true, _, _. split; [reflexivity|].
      set (b' := mkb (cap * e_size t) (e_align t) (firstn (N.to_nat cap) (b_cells b ++ uninit (cap - lenN (b_cells b))))).
      assert (F1 : frame h (Some i) (mkheap (set_at (h_blocks h) i None) 0) None).
      { apply (frame_free h i None); [congruence|now left]. }
      assert (F2 : frame (mkheap (set_at (h_blocks h) i None) 0) None
        (mkheap (set_at (h_blocks h) i None ++ [Some b']) (S (h_count h))) (Some (length (h_blocks h)))).
      { pose proof (frame_new (mkheap (set_at (h_blocks h) i None) 0) b' (S (h_count h))) as F. cbn [h_blocks] in F. now rewrite set_at_length in F. }
      split; [|split; [cbn [s_data]; rewrite Ed; exact (frame_trans _ _ _ _ _ _ F1 F2)|split; [intros _; exact Hcap1|discriminate]]].
      unfold vrel. cbn [s_ty s_len s_cap s_data]. split; [reflexivity|]. split; [assumption|]. split; [assumption|]. split; [lia|]. split; [lia|].
      split; [assumption|]. exists b'. split.
      { pose proof (block_at_end (mkheap (set_at (h_blocks h) i None) 0) b' (S (h_count h))) as K. cbn [h_blocks] in K. now rewrite set_at_length in K. }
      split; [reflexivity|]. split; [reflexivity|]. cbn [b' b_cells]. split.
      * unfold lenN. rewrite firstn_length, app_length. pose proof (uninit_len (cap - lenN (b_cells b))) as U. unfold lenN in *. lia.
      * rewrite firstn_firstn, Nat.min_l by (unfold lenN in *; lia). rewrite firstn_app. replace (length xs - length (b_cells b))%nat with O by (unfold lenN in *; lia).
        cbn [firstn]. now rewrite app_nil_r.
    + exists false, v. eexists. split; [reflexivity|]. apply Fail. reflexivity.
  - replace (0 <? s_cap v) with false by lia. assert (xs = []) as -> by now apply (vrel_none h v t).
    destruct (galloc_ok env h t cap Hs Hcap0) as [(h' & -> & Hb & _)| ->]; [lia| |]; cbn [sbind].
    + exists false, v, h'. split; [reflexivity|]. now apply Fail.
    + eexists true, _, _. split; [reflexivity|]. split; [|split; [cbn [s_data]; rewrite Ed; apply frame_new|split; [intros _; exact Hcap1|discriminate]]].
      unfold vrel. cbn [s_ty s_len s_cap s_data]. split; [reflexivity|]. split; [assumption|]. split; [assumption|]. split; [lia|]. split; [lia|].
      split; [assumption|]. eexists. split; [apply block_at_end|]. split; [reflexivity|]. split; [reflexivity|]. split; [apply uninit_len|reflexivity].
Qed.

(** ** The calls on one vector *)

Lemma svec_new_ok h t : sized t -> vrel h (svec_new t) t [].
Proof.
  intros Hs. unfold vrel, svec_new. cbn [s_ty s_len s_cap s_data]. split; [reflexivity|]. split; [assumption|]. split; [reflexivity|].
  split; [change (lenN []) with 0; lia|]. split; [lia|reflexivity].
Qed.

Lemma sfree_ok h v t xs : vrel h v t xs -> exists h', sfree h v = SDone h' /\ frame h (s_data v) h' None.
Proof.
  intros (E & Hs & L & Hc & Hm & D). unfold sfree. rewrite E. destruct Hs as (Hs1 & _). replace (e_size t =? 0) with false by lia. cbn [orb].
  destruct (s_data v) as [i|].
  - destruct D as (Hp & b & B1 & B2 & B3 & _). replace (s_cap v =? 0) with false by lia.
    unfold gdealloc. rewrite B1, B2, B3, !N.eqb_refl. cbn [andb]. eexists. split; [reflexivity|].
    unfold set_block. apply (frame_free h i None); [congruence|now left].
  - rewrite D. cbn [N.eqb]. exists h. split; [reflexivity|]. apply frame_refl.
Qed.

Lemma vrel_small h v t xs : vrel h v t xs -> s_cap v <= isize_max.
Proof. intros (_ & (Hs & Ha & _) & _ & _ & Hm & _). nia. Qed.

Lemma with_capacity_ok env dbg h t n : sized t ->
  (exists v h', svec_with_capacity env dbg h t n = SDone (Some v, h') /\ vrel h' v t [] /\ frame h None h' (s_data v)) \/
  (exists h', svec_with_capacity env dbg h t n = SDone (None, h') /\ frame h None h' None).
Proof.
  intros Hs. unfold svec_with_capacity. destruct (sresize_ok env dbg h _ t [] n (svec_new_ok h t Hs)) as (ok & v' & h' & E & G1 & G2 & _ & G4).
  change (lenN []) with 0 in E. rewrite E. cbn [sbind]. destruct ok.
  - left. exists v', h'. auto.
  - right. rewrite (G4 eq_refl) in *. destruct (sfree_ok h' _ t [] G1) as (h2 & E2 & F2). rewrite E2. cbn [sbind].
    exists h2. split; [reflexivity|]. exact (frame_trans _ _ _ _ _ _ G2 F2).
Qed.

Lemma push_ok env dbg h v t xs x : vrel h v t xs ->
  exists (ok : bool) v' h', svec_push env dbg h v x = SDone (ok, v', h', if ok then (@nil item) else dropped t [x]) /\
    vrel h' v' t (if ok then xs ++ [x] else xs) /\ frame h (s_data v) h' (s_data v').
Proof.
  intros R. pose proof R as (E & (Hs & _) & L & _). pose proof pow64 as (P1 & P2 & P3). unfold svec_push. rewrite E. replace (e_size t =? 0) with false by lia.
  destruct (sresize_ok env dbg h v t xs 1 R) as (ok & v' & h' & Er & G1 & G2 & G3 & G4). rewrite L, Er. cbn [sbind]. destruct ok; cbn [negb].
  - pose proof G1 as (_ & _ & L' & _). pose proof (vrel_small _ _ _ _ G1). destruct (write_ok h' v' t xs [x] G1) as (h2 & W1 & W2 & _ & W4); [apply G3; reflexivity|].
    rewrite W1. cbn [sbind]. rewrite L'. unfold uadd. specialize (G3 eq_refl). replace (lenN xs + 1 <=? usize_max) with true by lia. cbn [sbind].
    eexists true, _, _. split; [reflexivity|]. split; [exact W4|]. exact (frame_trans _ _ _ _ _ _ G2 W2).
  - exists false, v', h'. auto.
Qed.

Lemma slice_ok env dbg h v t xs ys : vrel h v t xs ->
  exists (ok : bool) v' h', svec_extend_from_slice env dbg h v ys = SDone (ok, v', h') /\
    vrel h' v' t (if ok then xs ++ ys else xs) /\ frame h (s_data v) h' (s_data v').
Proof.
  intros R. pose proof R as (E & (Hs & _) & L & _). pose proof pow64 as (P1 & P2 & P3). unfold svec_extend_from_slice. rewrite E. replace (e_size t =? 0) with false by lia.
  destruct (sresize_ok env dbg h v t xs (lenN ys) R) as (ok & v' & h' & Er & G1 & G2 & G3 & G4). rewrite L, Er. cbn [sbind]. destruct ok; cbn [negb].
  - pose proof G1 as (_ & _ & L' & _). pose proof (vrel_small _ _ _ _ G1). destruct (write_ok h' v' t xs ys G1) as (h2 & W1 & W2 & _ & W4); [apply G3; reflexivity|].
    rewrite W1. cbn [sbind]. rewrite L'. unfold uadd. specialize (G3 eq_refl). replace (lenN xs + lenN ys <=? usize_max) with true by lia. cbn [sbind].
    eexists true, _, _. split; [reflexivity|]. split; [exact W4|]. exact (frame_trans _ _ _ _ _ _ G2 W2).
  - exists false, v', h'. auto.
Qed.

Lemma reserve_ok env dbg h v t xs n : vrel h v t xs ->
  exists (ok : bool) v' h', svec_reserve env dbg h v n = SDone (ok, v', h') /\
    vrel h' v' t xs /\ frame h (s_data v) h' (s_data v') /\ (ok = true -> lenN xs + n <= s_cap v').
Proof.
  intros R. pose proof R as (E & (Hs & _) & L & _). unfold svec_reserve. rewrite E. replace (e_size t =? 0) with false by lia. rewrite L.
  destruct (sresize_ok env dbg h v t xs n R) as (ok & v' & h' & Er & G1 & G2 & G3 & G4). eauto 10.
Qed.

Lemma vrel_shorter h v t xs ys : vrel h v t (xs ++ ys) -> vrel h (with_slen v (lenN xs)) t xs.
Proof.
  intros (E & Hs & L & Hc & Hm & D). rewrite lenN_app in Hc. unfold vrel. cbn [with_slen s_ty s_len s_cap s_data].
  split; [assumption|]. split; [assumption|]. split; [reflexivity|]. split; [lia|]. split; [assumption|]. destruct (s_data v); [|assumption].
  destruct D as (D1 & b & D2 & D3 & D4 & D5 & D6). split; [assumption|]. exists b. split; [assumption|]. split; [assumption|]. split; [assumption|]. split; [assumption|].
  rewrite app_length, map_app in D6. apply (f_equal (firstn (length xs))) in D6. rewrite firstn_firstn, Nat.min_l in D6 by lia. rewrite D6.
  rewrite firstn_app, map_length, Nat.sub_diag. cbn [firstn]. rewrite app_nil_r. apply firstn_all2. now rewrite map_length.
Qed.

Lemma pop_ok h v t xs : vrel h v t xs ->
  exists x v' rest, svec_pop h v = SDone (x, v') /\ last_of xs x rest /\ vrel h v' t rest /\ s_data v' = s_data v.
Proof.
  intros R. pose proof R as (E & Hs & L & _). unfold svec_pop. rewrite L. destruct xs as [|y0 ys] using rev_ind.
  - exists None, v, []. split; [reflexivity|]. split; [now left|]. auto.
  - clear IHys. rewrite lenN_app. change (lenN [y0]) with 1. replace (lenN ys + 1 =? 0) with false by lia.
    rewrite (svec_items_ok h v t _ R). cbn [sbind]. rewrite last_last. replace (lenN ys + 1 - 1) with (lenN ys) by lia.
    eexists (Some y0), _, ys. split; [reflexivity|]. split; [right; eauto|]. split; [exact (vrel_shorter _ _ _ _ _ R)|reflexivity].
Qed.

Lemma clear_ok h v t xs : vrel h v t xs ->
  svec_clear h v = SDone (with_slen v 0, dropped t xs) /\ vrel h (with_slen v 0) t [].
Proof.
  intros R. unfold svec_clear. rewrite (svec_items_ok h v t xs R). cbn [sbind]. pose proof R as (E & _). rewrite E. split; [reflexivity|].
  exact (vrel_shorter h v t [] xs R).
Qed.

Lemma drop_ok h v t xs : vrel h v t xs -> exists h', svec_drop h v = SDone (h', dropped t xs) /\ frame h (s_data v) h' None.
Proof.
  intros R. unfold svec_drop. destruct (clear_ok h v t xs R) as (-> & R'). cbn [sbind].
  destruct (sfree_ok h _ t [] R') as (h' & -> & F). cbn [sbind]. exists h'. split; [reflexivity|exact F].
Qed.

Lemma box_ok env h t x : sized t ->
  (exists v h', sbox_new env h t x = SDone (Some v, h', []) /\ vrel h' v t [x] /\ frame h None h' (s_data v)) \/
  (exists h', sbox_new env h t x = SDone (None, h', dropped t [x]) /\ frame h None h' None).
Proof.
  intros Hs. pose proof Hs as (Hs1 & Ha & Hs3). unfold sbox_new. replace (e_size t =? 0) with false by lia.
  destruct (galloc_ok env h t 1 Hs) as [(h' & E & Hb & _)|E]; [lia|lia| |]; rewrite N.mul_1_l in E; rewrite E; cbn [sbind].
  - right. exists h'. split; [reflexivity|]. now apply frame_blocks.
  - left. unfold write_items. rewrite block_at_end. cbn [b_cells b_size b_align].
    change (write_cells (uninit 1) (N.to_nat 0) [x]) with (Some [Some x]). cbv beta iota. cbn [sbind].
    eexists _, _. split; [reflexivity|]. unfold set_block. cbn [h_blocks h_count]. rewrite set_at_end. cbn [s_data]. split; [|apply frame_new].
    unfold vrel. cbn [s_ty s_len s_cap s_data]. change (lenN [x]) with 1. split; [reflexivity|]. split; [assumption|]. split; [reflexivity|].
    split; [lia|]. split; [lia|]. split; [lia|]. eexists. split; [apply block_at_end|]. cbn [b_size b_align b_cells]. rewrite N.mul_1_l. auto.
Qed.

Lemma from_std_ok h t xs cap : sized t -> lenN xs <= cap -> cap * e_size t <= isize_max - (e_align t - 1) ->
  exists v h', svec_from_std h t xs cap = (v, h') /\ vrel h' v t xs /\ frame h None h' (s_data v).
Proof.
  intros Hs Hc Hm. pose proof Hs as (Hs1 & Ha & Hs3). unfold svec_from_std. replace (e_size t =? 0) with false by lia.
  destruct (cap =? 0) eqn:E0.
  - eexists _, _. split; [reflexivity|]. split; [|apply frame_refl]. unfold vrel. cbn [s_ty s_len s_cap s_data].
    split; [reflexivity|]. split; [assumption|]. split; [reflexivity|]. split; [lia|]. split; [lia|reflexivity].
  - eexists _, _. split; [reflexivity|]. split; [|apply frame_new]. unfold vrel. cbn [s_ty s_len s_cap s_data].
    split; [reflexivity|]. split; [assumption|]. split; [reflexivity|]. split; [assumption|]. split; [assumption|]. split; [lia|].
    eexists. split; [apply block_at_end|]. cbn [b_size b_align b_cells]. split; [reflexivity|]. split; [reflexivity|]. split.
    + rewrite lenN_app, uninit_len. unfold lenN in *. rewrite map_length. lia.
    + rewrite firstn_app, map_length, Nat.sub_diag. cbn [firstn]. rewrite app_nil_r. apply firstn_all2. now rewrite map_length.
Qed.

Lemma into_std_ok h v t xs : vrel h v t xs ->
  exists h', svec_into_std h v = SDone (xs, s_cap v, h') /\ lenN xs <= s_cap v /\ frame h (s_data v) h' None.
Proof.
  intros R. pose proof R as (E & (Hs & _) & L & Hc & Hm & D). unfold svec_into_std, svec_capacity. rewrite E. replace (e_size t =? 0) with false by lia.
  rewrite (svec_items_ok h v t xs R). cbn [sbind orb]. rewrite L. replace (s_cap v <? lenN xs) with false by lia.
  destruct (s_data v) as [i|].
  - destruct D as (Hp & b & B1 & B2 & B3 & _). replace (s_cap v =? 0) with false by lia. unfold gdealloc. rewrite B1, B2, B3, !N.eqb_refl. cbn [andb sbind].
    eexists. split; [reflexivity|]. split; [assumption|]. unfold set_block. apply (frame_free h i None); [congruence|now left].
  - replace (s_cap v =? 0) with true by lia. exists h. split; [reflexivity|]. split; [assumption|apply frame_refl].
Qed.

(** ** All vectors *)

Definition oslot (h : heap) (a : option (option svec)) (b : option (option (ety * list item))) : Prop :=
  match a, b with
  | None, None => True
  | Some None, Some None => True
  | Some (Some v), Some (Some (t, xs)) => vrel h v t xs
  | _, _ => False
  end.
Definition odata (ov : option svec) : option nat := match ov with Some v => s_data v | None => None end.

Record winv (h : heap) (vs : list (option svec)) (ls : list (option (ety * list item))) : Prop := mkwinv {
  wi_len : length vs = length ls;
  wi_slot : forall i, oslot h (nth_error vs i) (nth_error ls i);
  wi_own : forall i j v v' d, nth_error vs i = Some (Some v) -> nth_error vs j = Some (Some v') -> s_data v = Some d -> s_data v' = Some d -> i = j;
  wi_live : forall d b, block_at h d = Some b -> exists i v, nth_error vs i = Some (Some v) /\ s_data v = Some d
}.

Lemma winv_empty c : winv (mkheap [] c) [] [].
Proof.
  split; [reflexivity| | |].
  - now intros [|i].
  - intros [|i] ? ? ? ? H; discriminate.
  - intros [|d] b H; discriminate.
Qed.

Lemma winv_at h vs ls i t xs : winv h vs ls -> nth_error ls i = Some (Some (t, xs)) ->
  exists v, nth_error vs i = Some (Some v) /\ vrel h v t xs.
Proof.
  intros [_ W _ _] E. specialize (W i). rewrite E in W. unfold oslot in W. destruct (nth_error vs i) as [[v|]|]; try contradiction. eauto.
Qed.

Lemma winv_put h vs ls i ov h' ov' ol' : winv h vs ls -> nth_error vs i = Some ov -> frame h (odata ov) h' (odata ov') ->
  oslot h' (Some ov') (Some ol') -> winv h' (set_at vs i ov') (set_at ls i ol').
Proof.
  intros [W1 W2 W3 W4] Hi (F1 & F2 & F3) Hs.
  assert (Hi' : exists ol, nth_error ls i = Some ol).
  { specialize (W2 i). rewrite Hi in W2. destruct (nth_error ls i) as [ol|]; [eauto|]. destruct ov; contradiction. }
  destruct Hi' as (ol & Hi').
  assert (Other : forall j v, j <> i -> nth_error vs j = Some (Some v) -> forall d, s_data v = Some d -> odata ov <> Some d /\ odata ov' <> Some d /\ block_at h' d = block_at h d).
  { intros j v Hj Ej d Ed.
    assert (A : odata ov <> Some d).
    { intros C. destruct ov as [u|]; [|discriminate]. cbn in C. apply Hj. eapply W3; eassumption. }
    assert (B : odata ov' <> Some d).
    { intros C. destruct (F2 d C) as [C'|C']; [contradiction|]. specialize (W2 j). rewrite Ej in W2. destruct (nth_error ls j) as [[[t xs]|]|]; try contradiction.
      destruct W2 as (_ & _ & _ & _ & _ & D). rewrite Ed in D. destruct D as (_ & b & D & _). congruence. }
    split; [exact A|]. split; [exact B|]. now apply F1. }
  split.
  - now rewrite !set_at_length.
  - intros j. rewrite !set_at_nth. destruct (Nat.eqb_spec i j) as [<-|Hj].
    + now rewrite Hi, Hi'.
    + specialize (W2 j). unfold oslot in *. destruct (nth_error vs j) as [[v|]|] eqn:Ej; destruct (nth_error ls j) as [[[t xs]|]|]; try assumption.
      destruct W2 as (A & B & C & D & E & G). repeat (split; [assumption|]). destruct (s_data v) as [d|] eqn:Ed; [|assumption].
      destruct (Other j v ltac:(congruence) Ej d Ed) as (_ & _ & ->). exact G.
  - intros a b v v' d. rewrite !set_at_nth. destruct (Nat.eqb_spec i a) as [<-|Ha]; destruct (Nat.eqb_spec i b) as [<-|Hb]; intros H1 H2 H3 H4.
    + reflexivity.
    + rewrite Hi in H1. injection H1 as H1. subst ov'. destruct (Other b v' ltac:(congruence) H2 d H4) as (_ & N & _). now contradict N.
    + rewrite Hi in H2. injection H2 as H2. subst ov'. destruct (Other a v ltac:(congruence) H1 d H3) as (_ & N & _). now contradict N.
    + eapply W3; eassumption.
  - intros d b Hb. destruct (option_eq_dec (odata ov') (Some d)) as [E|E].
    + exists i. destruct ov' as [v'|]; [|discriminate]. exists v'. rewrite set_at_nth, Nat.eqb_refl, Hi. auto.
    + destruct (option_eq_dec (odata ov) (Some d)) as [E'|E']; [rewrite (F3 d E' E) in Hb; discriminate|].
      rewrite (F1 d E' E) in Hb. destruct (W4 d b Hb) as (j & v & H1 & H2). exists j, v. split; [|assumption].
      rewrite set_at_nth. destruct (Nat.eqb_spec i j) as [<-|]; [|assumption]. exfalso. apply E'. rewrite H1 in Hi. injection Hi as <-. exact H2.
Qed.

Lemma winv_none h vs ls : winv h vs ls -> winv h (vs ++ [None]) (ls ++ [None]).
Proof.
  intros [W1 W2 W3 W4].
  assert (K : forall i v, nth_error (vs ++ [None]) i = Some (Some v) <-> nth_error vs i = Some (Some v)).
  { intros i v. destruct (Nat.lt_ge_cases i (length vs)) as [L|L]; [now rewrite nth_error_app1|].
    rewrite (proj2 (nth_error_None vs i) L), nth_error_app2 by assumption. destruct (i - length vs)%nat as [|k]; [split; discriminate|]. destruct k; split; discriminate. }
  split.
  - now rewrite !app_length, W1.
  - intros i. destruct (Nat.lt_ge_cases i (length vs)) as [L|L].
    + rewrite !nth_error_app1 by lia. apply W2.
    + rewrite !nth_error_app2 by lia. rewrite W1. destruct (i - length ls)%nat as [|k]; [exact I|]. now destruct k.
  - intros i j v v' d H1 H2. apply K in H1. apply K in H2. eapply W3; eassumption.
  - intros d b H. destruct (W4 d b H) as (i & v & H1 & H2). exists i, v. split; [now apply K|assumption].
Qed.

Lemma winv_add h vs ls h' ov ol : winv h vs ls -> frame h None h' (odata ov) -> oslot h' (Some ov) (Some ol) ->
  winv h' (vs ++ [ov]) (ls ++ [ol]).
Proof.
  intros W F H. pose proof (winv_put h _ _ (length vs) None h' ov ol (winv_none _ _ _ W)) as P.
  rewrite (set_at_end vs) in P. rewrite (wi_len _ _ _ W), (set_at_end ls) in P. apply P; [|assumption|assumption].
  rewrite <- (wi_len _ _ _ W). rewrite nth_error_app2 by lia. now rewrite Nat.sub_diag.
Qed.

(** ** Calls *)

Definition related (w : sworld) (lw : lists) : Prop := winv (w_heap w) (w_vecs w) (l_vecs lw) /\ w_log w = l_gone lw.

Lemma related_empty : related sworld_empty no_lists.
Proof. split; [apply winv_empty|reflexivity]. Qed.

Lemma vec_at_nth w i v : nth_error (w_vecs w) i = Some (Some v) -> vec_at w i = Some v.
Proof. intros H. unfold vec_at. now rewrite H. Qed.

Lemma tag_dropped t xs : tag t (dropped t xs) = if e_copy t then [] else map (fun x => (t, x)) xs.
Proof. unfold dropped, tag. now destruct (e_copy t). Qed.

Lemma ety_eqb_eq a b : ety_eqb a b = true <-> a = b.
Proof.
  destruct a as [s a c], b as [s' a' c']. unfold ety_eqb. cbn [e_size e_align e_copy]. rewrite !Bool.andb_true_iff, !N.eqb_eq, Bool.eqb_true_iff.
  split; [intros ((-> & ->) & ->); reflexivity|]. intros E. injection E as -> -> ->. auto.
Qed.

Lemma set_at_none_list (ls : list (option (ety * list item))) i t xs :
  nth_error ls i = Some (Some (t, xs)) -> set_at ls i (Some (t, xs)) = ls.
Proof. apply set_at_same. Qed.

Lemma step_ok env dbg w lw o : related w lw -> Forall sized (types_of o) -> allowed lw o ->
  exists r w' lw', sstep env dbg w o = SDone (r, w') /\ call lw o r lw' /\ related w' lw'.
Proof.
  intros (W & L) Hs Ha. unfold related. destruct o as [t|t n|t x|t xs cap|i x|i xs|i n|i|i|i j|i|i]; cbn [sstep types_of allowed] in *.
  - inversion Hs as [|? ? Ht _]. eexists _, _, _. split; [reflexivity|]. split; [apply call_new|]. cbn [w_heap w_vecs w_log add l_vecs l_gone]. split; [|assumption].
    eapply winv_add; [eassumption|apply frame_refl|]. cbn. now apply svec_new_ok.
  - inversion Hs as [|? ? Ht _]. destruct (with_capacity_ok env dbg (w_heap w) t n Ht) as [(v & h' & -> & R & F)|(h' & -> & F)]; cbn [sbind sreply_of];
      eexists _, _, _; (split; [reflexivity|]).
    + split; [apply call_with|]. cbn [w_heap w_vecs w_log add l_vecs l_gone]. split; [|assumption]. eapply winv_add; [eassumption| |]; assumption.
    + split; [apply call_with_fails|]. cbn [w_heap w_vecs w_log add l_vecs l_gone]. split; [|assumption]. eapply winv_add; [eassumption| |]; [assumption|exact I].
  - inversion Hs as [|? ? Ht _]. destruct (box_ok env (w_heap w) t x Ht) as [(v & h' & -> & R & F)|(h' & -> & F)]; cbn [sbind sreply_of];
      eexists _, _, _; (split; [reflexivity|]).
    + split; [apply call_box|]. cbn [w_heap w_vecs w_log add l_vecs l_gone tag map]. rewrite app_nil_r. split; [|assumption]. eapply winv_add; [eassumption| |]; assumption.
    + split; [apply call_box_fails|]. cbn [w_heap w_vecs w_log add gone l_vecs l_gone]. rewrite tag_dropped, L. split; [|reflexivity]. eapply winv_add; [eassumption| |]; [assumption|exact I].
  - inversion Hs as [|? ? Ht _]. destruct Ha as (Hc & Hm). replace (cap <? lenN xs) with false by lia. replace (isize_max - (e_align t - 1) <? cap * e_size t) with false by lia. cbn [orb].
    destruct (from_std_ok (w_heap w) t xs cap Ht Hc Hm) as (v & h' & -> & R & F). eexists _, _, _. split; [reflexivity|]. split; [now apply call_from_std|].
    cbn [w_heap w_vecs w_log add l_vecs l_gone]. split; [|assumption]. eapply winv_add; [eassumption| |]; assumption.
  - destruct Ha as (t & xs & Hl). destruct (winv_at _ _ _ _ _ _ W Hl) as (v & Hv & R). rewrite (vec_at_nth _ _ _ Hv). pose proof R as (Et & _).
    destruct (push_ok env dbg _ v t xs x R) as (ok & v' & h' & -> & R' & F). cbn [sbind]. rewrite Et. destruct ok; cbn [sreply_of]; eexists _, _, _; (split; [reflexivity|]).
    + split; [eapply call_push; exact Hl|]. cbn [w_heap w_vecs w_log put l_vecs l_gone tag map]. rewrite app_nil_r. split; [|assumption]. eapply winv_put; eassumption.
    + split; [eapply call_push_fails; exact Hl|]. cbn [w_heap w_vecs w_log gone l_vecs l_gone]. rewrite tag_dropped, L. split; [|reflexivity].
      rewrite <- (set_at_same _ _ _ Hl). eapply winv_put; eassumption.
  - destruct Ha as (t & ys & Hl & Hc). destruct (winv_at _ _ _ _ _ _ W Hl) as (v & Hv & R). rewrite (vec_at_nth _ _ _ Hv). pose proof R as (Et & _). rewrite Et, Hc. cbn [negb].
    destruct (slice_ok env dbg _ v t ys xs R) as (ok & v' & h' & -> & R' & F). cbn [sbind]. destruct ok; cbn [sreply_of]; eexists _, _, _; (split; [reflexivity|]).
    + split; [eapply call_slice; [exact Hl|exact Hc]|]. cbn [w_heap w_vecs w_log put l_vecs l_gone]. split; [|assumption]. eapply winv_put; eassumption.
    + split; [eapply call_slice_fails; [exact Hl|exact Hc]|]. cbn [w_heap w_vecs w_log]. split; [|assumption].
      rewrite <- (set_at_same _ _ _ Hl). eapply winv_put; eassumption.
  - destruct Ha as (t & xs & Hl). destruct (winv_at _ _ _ _ _ _ W Hl) as (v & Hv & R). rewrite (vec_at_nth _ _ _ Hv).
    destruct (reserve_ok env dbg _ v t xs n R) as (ok & v' & h' & -> & R' & F & _). cbn [sbind].
    assert (K : winv h' (set_at (w_vecs w) i (Some v')) (l_vecs lw)) by (rewrite <- (set_at_same _ _ _ Hl); eapply winv_put; eassumption).
    destruct ok; cbn [sreply_of]; eexists _, _, lw; (split; [reflexivity|]); (split; [econstructor; exact Hl|]); split; assumption.
  - destruct Ha as (t & xs & Hl). destruct (winv_at _ _ _ _ _ _ W Hl) as (v & Hv & R). rewrite (vec_at_nth _ _ _ Hv).
    destruct (pop_ok _ v t xs R) as (x & v' & rest & -> & Hx & R' & Ed). cbn [sbind]. eexists _, _, _. split; [reflexivity|].
    split; [eapply call_pop; eassumption|]. cbn [w_heap w_vecs w_log put l_vecs l_gone]. split; [|assumption].
    eapply winv_put; [eassumption|eassumption| |exact R']. cbn [odata]. rewrite Ed. apply frame_refl.
  - destruct Ha as (t & xs & Hl). destruct (winv_at _ _ _ _ _ _ W Hl) as (v & Hv & R). rewrite (vec_at_nth _ _ _ Hv). pose proof R as (Et & _).
    destruct (clear_ok _ v t xs R) as (-> & R'). cbn [sbind]. eexists _, _, _. split; [reflexivity|].
    split; [eapply call_clear; exact Hl|]. cbn [w_heap w_vecs w_log put gone l_vecs l_gone]. rewrite Et, tag_dropped, L. split; [|reflexivity].
    eapply winv_put; [eassumption|eassumption| |exact R']. apply frame_refl.
  - destruct Ha as (Hij & t & xs & ys & Hi & Hj & Hc). rewrite (proj2 (Nat.eqb_neq i j) Hij).
    destruct (winv_at _ _ _ _ _ _ W Hi) as (v & Hv & R). destruct (winv_at _ _ _ _ _ _ W Hj) as (u & Hu & Ru).
    rewrite (vec_at_nth _ _ _ Hv), (vec_at_nth _ _ _ Hu). pose proof R as (Et & (Hs1 & _) & _). pose proof Ru as (Eu & _). rewrite Et, Eu, Hc, (proj2 (ety_eqb_eq t t) eq_refl). cbn [negb orb].
    unfold svec_extend. rewrite Et. replace (e_size t =? 0) with false by lia. rewrite (svec_items_ok _ u t ys Ru). cbn [sbind].
    destruct (slice_ok env dbg _ v t xs ys R) as (ok & v' & h' & -> & R' & F). cbn [sbind].
    pose proof (winv_put _ _ _ i (Some v) h' (Some v') (Some (t, if ok then xs ++ ys else xs)) W Hv F R') as W1.
    assert (Hj1 : nth_error (set_at (l_vecs lw) i (Some (t, if ok then xs ++ ys else xs))) j = Some (Some (t, ys))).
    { rewrite set_at_nth, (proj2 (Nat.eqb_neq i j) Hij). exact Hj. }
    assert (Hu1 : nth_error (set_at (w_vecs w) i (Some v')) j = Some (Some u)).
    { rewrite set_at_nth, (proj2 (Nat.eqb_neq i j) Hij). exact Hu. }
    destruct (winv_at _ _ _ _ _ _ W1 Hj1) as (u' & Hu' & Ru'). assert (u' = u) as -> by congruence.
    destruct (drop_ok h' u t ys Ru') as (h2 & -> & F2). cbn [sbind].
    pose proof (winv_put _ _ _ j (Some u) h2 None None W1 Hu1 F2 I) as W2. destruct ok; cbn [sreply_of]; eexists _, _, _; (split; [reflexivity|]).
    + split; [eapply call_extend; eassumption|]. split; assumption.
    + split; [eapply call_extend_fails; eassumption|]. cbn [w_heap w_vecs w_log put l_vecs l_gone]. split; [|assumption]. rewrite (set_at_same _ _ _ Hi) in W2. exact W2.
  - destruct Ha as (t & xs & Hl). destruct (winv_at _ _ _ _ _ _ W Hl) as (v & Hv & R). rewrite (vec_at_nth _ _ _ Hv).
    destruct (into_std_ok _ v t xs R) as (h' & -> & Hc & F). cbn [sbind]. eexists _, _, _. split; [reflexivity|].
    split; [eapply call_into_std; [exact Hl|exact Hc]|]. cbn [w_heap w_vecs w_log put l_vecs l_gone]. split; [|assumption]. eapply winv_put; [eassumption|eassumption|exact F|exact I].
  - destruct Ha as (t & xs & Hl). destruct (winv_at _ _ _ _ _ _ W Hl) as (v & Hv & R). rewrite (vec_at_nth _ _ _ Hv). pose proof R as (Et & _).
    destruct (drop_ok _ v t xs R) as (h' & -> & F). cbn [sbind]. eexists _, _, _. split; [reflexivity|].
    split; [eapply call_drop; exact Hl|]. cbn [w_heap w_vecs w_log put gone l_vecs l_gone]. rewrite Et, tag_dropped, L. split; [|reflexivity].
    eapply winv_put; [eassumption|eassumption|exact F|exact I].
Qed.

Lemma vec_at_list w lw i v : related w lw -> vec_at w i = Some v -> exists t xs, list_at lw i t xs /\ vrel (w_heap w) v t xs.
Proof.
  intros ([_ W _ _] & _) E. unfold vec_at in E. specialize (W i). destruct (nth_error (w_vecs w) i) as [[u|]|]; try discriminate. injection E as ->.
  cbn in W. unfold list_at. destruct (nth_error (l_vecs lw) i) as [[[t xs]|]|]; try contradiction. eauto.
Qed.

Lemma not_allowed env dbg w lw o : related w lw -> sstep env dbg w o <> SPanic -> allowed lw o.
Proof.
  intros R. pose proof (fun i v => vec_at_list w lw i v R) as K.
  destruct o as [t|t n|t x|t xs cap|i x|i xs|i n|i|i|i j|i|i]; cbn [sstep allowed]; try exact (fun _ => I).
  - destruct ((cap <? lenN xs) || (isize_max - (e_align t - 1) <? cap * e_size t)) eqn:E; [contradiction|]. intros _. split; lia.
  - destruct (vec_at w i) as [v|] eqn:E; [|contradiction]. intros _. destruct (K i v E) as (t & xs & H & _). eauto.
  - destruct (vec_at w i) as [v|] eqn:E; [|contradiction]. destruct (K i v E) as (t & ys & H & H'). destruct (e_copy (s_ty v)) eqn:C; [|contradiction]. intros _.
    exists t, ys. split; [assumption|]. destruct H' as (<- & _). exact C.
  - destruct (vec_at w i) as [v|] eqn:E; [|contradiction]. intros _. destruct (K i v E) as (t & xs & H & _). eauto.
  - destruct (vec_at w i) as [v|] eqn:E; [|contradiction]. intros _. destruct (K i v E) as (t & xs & H & _). eauto.
  - destruct (vec_at w i) as [v|] eqn:E; [|contradiction]. intros _. destruct (K i v E) as (t & xs & H & _). eauto.
  - destruct (Nat.eqb_spec i j) as [|Hij]; [contradiction|]. destruct (vec_at w i) as [v|] eqn:E; [|contradiction]. destruct (vec_at w j) as [u|] eqn:E'; [|contradiction].
    destruct (e_copy (s_ty v)) eqn:C; [|contradiction]. destruct (ety_eqb (s_ty v) (s_ty u)) eqn:C'; [|contradiction]. intros _. split; [assumption|].
    apply ety_eqb_eq in C'. destruct (K i v E) as (t & xs & H & H'). destruct (K j u E') as (t' & ys & G & G'). destruct H' as (<- & _). destruct G' as (<- & _). rewrite <- C' in G. exists (s_ty v), xs, ys. auto.
  - destruct (vec_at w i) as [v|] eqn:E; [|contradiction]. intros _. destruct (K i v E) as (t & xs & H & _). eauto.
  - destruct (vec_at w i) as [v|] eqn:E; [|contradiction]. intros _. destruct (K i v E) as (t & xs & H & _). eauto.
Qed.

Lemma run_ok env dbg ops : forall w lw, related w lw -> Forall (fun o => Forall sized (types_of o)) ops ->
  (exists rs w' lw', srun env dbg w ops = SDone (rs, w') /\ calls lw ops rs lw' /\ related w' lw') \/
  (exists pre o post rs w' lw', ops = pre ++ o :: post /\ calls lw pre rs lw' /\ srun env dbg w pre = SDone (rs, w') /\ related w' lw' /\ ~ allowed lw' o /\ srun env dbg w ops = SPanic).
Proof.
  induction ops as [|o ops IH]; intros w lw R Hs; [left; exists [], w, lw; split; [reflexivity|]; split; [constructor|assumption]|].
  inversion Hs as [|? ? H1 H2]. subst. cbn [srun].
  assert (D : sstep env dbg w o = SPanic \/ sstep env dbg w o <> SPanic) by (destruct (sstep env dbg w o) as [? | |]; [right|left|right]; congruence).
  destruct D as [D|D].
  - right. exists [], o, ops, [], w, lw. split; [reflexivity|]. split; [constructor|]. split; [reflexivity|]. split; [assumption|]. rewrite D. split; [|reflexivity].
    intros A. destruct (step_ok env dbg w lw o R H1 A) as (r & w1 & lw1 & E & _). congruence.
  - destruct (step_ok env dbg w lw o R H1 (not_allowed _ _ _ _ _ R D)) as (r & w1 & lw1 & E & C & R1). rewrite E. cbn [sbind].
    destruct (IH w1 lw1 R1 H2) as [(rs & w2 & lw2 & E2 & C2 & R2)|(pre & o' & post & rs & w2 & lw2 & Eo & C2 & Er & R2 & N & E2)]; rewrite E2; cbn [sbind].
    + left. exists (r :: rs), w2, lw2. split; [reflexivity|]. split; [econstructor; eassumption|assumption].
    + right. exists (o :: pre), o', post, (r :: rs), w2, lw2. split; [now rewrite Eo|]. split; [econstructor; eassumption|]. cbn [srun]. rewrite E. cbn [sbind]. rewrite Er. cbn [sbind]. auto.
Qed.

(** ** No element is lost or used twice *)

Definition movable (lw : lists) : Prop := forall i t xs, list_at lw i t xs -> e_copy t = false.
Definition items_of (v : option (ety * list item)) : list item := match v with Some (_, xs) => xs | None => [] end.
Lemma held_items lw : held lw = flat_map items_of (l_vecs lw).
Proof. reflexivity. Qed.

Lemma held_put (ls : list (option (ety * list item))) i a b : nth_error ls i = Some a ->
  Permutation (items_of a ++ flat_map items_of (set_at ls i b)) (items_of b ++ flat_map items_of ls).
Proof.
  revert i. induction ls as [|c ls IH]; intros [|i] H; cbn in H; try discriminate.
  - injection H as ->. cbn [set_at flat_map]. rewrite !app_assoc. apply Permutation_app_tail, Permutation_app_comm.
  - cbn [set_at flat_map]. specialize (IH i H). rewrite (app_assoc (items_of a)), (Permutation_app_comm (items_of a)), <- app_assoc, IH.
    rewrite !app_assoc. apply Permutation_app_tail, Permutation_app_comm.
Qed.

Lemma in_set_at {A} (l : list A) i x j y : nth_error (set_at l i x) j = Some y -> y = x \/ nth_error l j = Some y.
Proof. rewrite set_at_nth. destruct (Nat.eqb i j); [|auto]. destruct (nth_error l j); [|discriminate]. intros H. left. congruence. Qed.

Lemma in_end {A} (l : list A) x j y : nth_error (l ++ [x]) j = Some y -> y = x \/ nth_error l j = Some y.
Proof.
  destruct (Nat.lt_ge_cases j (length l)) as [L|L]; [rewrite nth_error_app1 by assumption; auto|]. rewrite nth_error_app2 by assumption.
  destruct (j - length l)%nat as [|k]; cbn [nth_error]; [intros H; left; congruence|destruct k; discriminate].
Qed.

Lemma movable_add lw v : movable lw -> (forall t xs, v = Some (t, xs) -> e_copy t = false) -> movable (add lw v).
Proof. intros M Hv i t xs H. apply in_end in H. destruct H as [H|H]; [eapply Hv; now rewrite <- H|exact (M i t xs H)]. Qed.
Lemma movable_put lw i v : movable lw -> (forall t xs, v = Some (t, xs) -> e_copy t = false) -> movable (put lw i v).
Proof. intros M Hv j t xs H. apply in_set_at in H. destruct H as [H|H]; [eapply Hv; now rewrite <- H|exact (M j t xs H)]. Qed.
Lemma movable_gone lw t xs : movable lw -> movable (gone lw t xs).
Proof. intros M i t' ys H. exact (M i t' ys H). Qed.

Lemma gone_items lw t xs : e_copy t = false -> map snd (l_gone (gone lw t xs)) = map snd (l_gone lw) ++ xs.
Proof. intros H. unfold gone. cbn [l_gone]. rewrite H, map_app, map_map. cbn [snd]. now rewrite map_id. Qed.

Lemma held_add lw v : held (add lw v) = held lw ++ items_of v.
Proof. rewrite !held_items. unfold add. cbn [l_vecs]. rewrite flat_map_app. cbn [flat_map]. now rewrite app_nil_r. Qed.

Ltac perm := rewrite ?app_nil_r, <- ?app_assoc; auto using Permutation_app_comm.

Lemma call_conserves lw o r lw' : call lw o r lw' -> movable lw -> Forall (fun t => e_copy t = false) (types_of o) ->
  movable lw' /\ Permutation (given o ++ held lw ++ map snd (l_gone lw)) (held lw' ++ map snd (l_gone lw') ++ returned r).
Proof.
  intros C M Ht. destruct C; cbn [types_of given returned app] in *;
    try (inversion Ht as [|? ? Hc _]; subst);
    try match goal with H : e_copy ?t = true, H' : list_at _ _ ?t _ |- _ => exfalso; specialize (M _ _ _ H'); congruence end;
    try match goal with H' : list_at _ _ ?t _ |- _ => pose proof (M _ _ _ H') as Hc end.
  - split; [apply movable_add; [assumption|intros ? ? E; now injection E as <- _]|]. rewrite held_add. cbn [items_of add l_gone]. perm.
  - split; [apply movable_add; [assumption|intros ? ? E; now injection E as <- _]|]. rewrite held_add. cbn [items_of add l_gone]. perm.
  - split; [apply movable_add; [assumption|discriminate]|]. rewrite held_add. cbn [items_of add l_gone]. perm.
  - split; [apply movable_add; [assumption|intros ? ? E; now injection E as <- _]|]. rewrite held_add. cbn [items_of add l_gone app]. rewrite !app_nil_r.
    rewrite <- app_assoc. cbn [app]. apply Permutation_middle.
  - split; [apply movable_gone, movable_add; [assumption|discriminate]|]. rewrite gone_items by assumption. unfold gone. unfold held at 2. cbn [l_vecs]. fold (held (add w None)).
    rewrite held_add. cbn [items_of add l_gone]. rewrite !app_nil_r, app_assoc. apply Permutation_cons_append.
  - split; [apply movable_add; [assumption|intros ? ? E; now injection E as <- _]|]. rewrite held_add. cbn [items_of add l_gone app]. rewrite !app_nil_r.
    rewrite !app_assoc. apply Permutation_app_tail, Permutation_app_comm.
  - split; [apply movable_put; [assumption|intros ? ? E; injection E as <- _; assumption]|]. cbn [put l_gone]. rewrite app_nil_r. 
    pose proof (held_put _ _ _ (Some (t, xs ++ [x])) H) as P. cbn [items_of] in P. rewrite <- app_assoc in P. apply Permutation_app_inv_l in P.
    rewrite !held_items. unfold put. cbn [l_vecs]. rewrite P. reflexivity.
  - split; [now apply movable_gone|]. rewrite gone_items by assumption. unfold gone. unfold held at 2. cbn [l_vecs]. fold (held w).
    rewrite !app_nil_r, app_assoc. apply Permutation_cons_append.
  - split; [assumption|]. perm.
  - split; [assumption|]. perm.
  - assert (Mr : movable (put w i (Some (t, rest)))) by (apply movable_put; [assumption|intros ? ? E; injection E as <- _; assumption]). split; [exact Mr|].
    pose proof (held_put _ _ _ (Some (t, rest)) H) as P. cbn [items_of] in P. rewrite !held_items. cbn [put l_vecs l_gone].
    destruct H0 as [(-> & -> & ->)|(y & -> & ->)]; cbn [returned app] in *.
    + rewrite app_nil_r, P. reflexivity.
    + rewrite <- app_assoc in P. apply Permutation_app_inv_l in P. rewrite <- P, <- app_assoc. cbn [app]. rewrite app_assoc. apply Permutation_cons_append.
  - split; [apply movable_gone, movable_put; [assumption|intros ? ? E; injection E as <- _; assumption]|]. rewrite gone_items by assumption. unfold gone.
    pose proof (held_put _ _ _ (Some (t, [])) H) as P. cbn [items_of app] in P. rewrite !held_items. cbn [put l_vecs l_gone]. rewrite <- P.
    rewrite app_nil_r, <- !app_assoc. rewrite (Permutation_app_comm xs), <- app_assoc. reflexivity.
  - assert (Mr : movable (put w i None)) by (apply movable_put; [assumption|discriminate]). split; [exact Mr|].
    pose proof (held_put _ _ _ None H) as P. cbn [items_of app] in P. rewrite !held_items. cbn [put l_vecs l_gone]. rewrite <- P.
    rewrite <- !app_assoc. rewrite (Permutation_app_comm xs), <- app_assoc. reflexivity.
  - split; [apply movable_gone, movable_put; [assumption|discriminate]|]. rewrite gone_items by assumption. unfold gone.
    pose proof (held_put _ _ _ None H) as P. cbn [items_of app] in P. rewrite !held_items. cbn [put l_vecs l_gone]. rewrite <- P.
    rewrite app_nil_r, <- !app_assoc. rewrite (Permutation_app_comm xs), <- app_assoc. reflexivity.
Qed.

Lemma calls_conserve lw ops rs lw' : calls lw ops rs lw' -> movable lw -> Forall (fun o => Forall (fun t => e_copy t = false) (types_of o)) ops ->
  Permutation (flat_map given ops ++ held lw ++ map snd (l_gone lw)) (held lw' ++ map snd (l_gone lw') ++ flat_map returned rs).
Proof.
  induction 1 as [w|w o r w1 os rs w2 H H1 IH]; intros M Ht; [cbn [flat_map app]; now rewrite app_nil_r|].
  inversion Ht as [|? ? Ht1 Ht2]. subst. destruct (call_conserves _ _ _ _ H M Ht1) as (M1 & P1). specialize (IH M1 Ht2). cbn [flat_map].
  rewrite <- app_assoc. rewrite (Permutation_app_comm (given o)), <- app_assoc. rewrite (Permutation_app_comm _ (given o)), P1.
  rewrite !app_assoc. rewrite !app_assoc in IH. rewrite IH. rewrite <- !app_assoc. do 2 apply Permutation_app_head. apply Permutation_app_comm.
Qed.

(** ** Reserving *)

Lemma roomy_push env dbg h v t xs x : vrel h v t xs -> lenN xs < s_cap v ->
  exists v' h', svec_push env dbg h v x = SDone (true, v', h', []) /\ vrel h' v' t (xs ++ [x]) /\ h_count h' = h_count h /\ s_cap v' = s_cap v.
Proof.
  intros R Hc. pose proof R as (E & (Hs & _) & L & _). pose proof pow64 as (P1 & P2 & P3). pose proof (vrel_small _ _ _ _ R).
  unfold svec_push, sresize. rewrite E. replace (e_size t =? 0) with false by lia. rewrite L.
  replace (usize_max <? lenN xs + 1) with false by lia. replace (lenN xs + 1 <=? s_cap v) with true by lia. cbn [sbind negb].
  destruct (write_ok h v t xs [x] R) as (h2 & -> & _ & Hn & W); [change (lenN [x]) with 1; lia|]. cbn [sbind]. unfold uadd. rewrite L. replace (lenN xs + 1 <=? usize_max) with true by lia. cbn [sbind].
  eexists _, _. split; [reflexivity|]. split; [exact W|]. auto.
Qed.

Lemma roomy_slice env dbg h v t xs ys : vrel h v t xs -> lenN xs + lenN ys <= s_cap v ->
  exists v' h', svec_extend_from_slice env dbg h v ys = SDone (true, v', h') /\ h_count h' = h_count h.
Proof.
  intros R Hc. pose proof R as (E & (Hs & _) & L & _). pose proof pow64 as (P1 & P2 & P3). pose proof (vrel_small _ _ _ _ R).
  unfold svec_extend_from_slice, sresize. rewrite E. replace (e_size t =? 0) with false by lia. rewrite L.
  replace (usize_max <? lenN xs + lenN ys) with false by lia. replace (lenN xs + lenN ys <=? s_cap v) with true by lia. cbn [sbind negb].
  destruct (write_ok h v t xs ys R) as (h2 & -> & _ & Hn & W); [assumption|]. cbn [sbind]. unfold uadd. rewrite L. replace (lenN xs + lenN ys <=? usize_max) with true by lia. cbn [sbind].
  eexists _, _. split; [reflexivity|]. exact Hn.
Qed.

Lemma roomy_pushes env dbg ys : forall w i v t xs, vec_at w i = Some v -> vrel (w_heap w) v t xs -> lenN xs + lenN ys <= s_cap v ->
  exists w', srun env dbg w (map (PPush i) ys) = SDone (map (fun _ => RDone) ys, w') /\ h_count (w_heap w') = h_count (w_heap w).
Proof.
  induction ys as [|y ys IH]; intros w i v t xs Hv R Hc; [exists w; split; reflexivity|].
  rewrite lenN_cons in Hc. destruct (roomy_push env dbg _ v t xs y R) as (v' & h' & E & R' & Hn & Hc'); [lia|].
  cbn [map srun sstep]. rewrite Hv, E. cbn [sbind sreply_of].
  set (w1 := mksw h' (set_at (w_vecs w) i (Some v')) (w_log w ++ tag (s_ty v) [])).
  assert (Hv1 : vec_at w1 i = Some v').
  { unfold vec_at, w1. cbn [w_vecs]. rewrite set_at_nth, Nat.eqb_refl. unfold vec_at in Hv. destruct (nth_error (w_vecs w) i); [reflexivity|discriminate]. }
  destruct (IH w1 i v' t (xs ++ [y]) Hv1 R') as (w2 & E2 & Hn2); [rewrite lenN_app; change (lenN [y]) with 1; lia|].
  rewrite E2. cbn [sbind]. exists w2. split; [reflexivity|]. rewrite Hn2. exact Hn.
Qed.

(** ** When calls fail, and how memory grows *)

Definition too_large (t : ety) (cap : N) : Prop := isize_max - (e_align t - 1) < cap * e_size t.

Lemma sresize_cases env dbg h v t xs n ok v' h' : vrel h v t xs -> sresize env dbg h v (lenN xs) n = SDone (ok, v', h') ->
  (ok = true /\ v' = v /\ h_count h' = h_count h /\ lenN xs + n <= s_cap v) \/
  (ok = true /\ s_cap v < lenN xs + n /\ 1 <= s_cap v' /\ 2 * s_cap v <= s_cap v' /\ s_len v' = s_len v /\ h_count h' = S (h_count h)) \/
  (ok = false /\ env (h_count h) = false /\ h_count h' = S (h_count h) /\ s_cap v < lenN xs + n) \/
  (ok = false /\ h_count h' = h_count h /\ too_large t (N.max 8 (N.max (2 * s_cap v) (lenN xs + n)))).
Proof.
  intros R. pose proof R as (E & Hs & L & Hc & Hm & D). pose proof pow64 as (P1 & P2 & P3). pose proof Hs as (Hs1 & Ha & Hs3).
  pose proof (vrel_small _ _ _ _ R) as Hcap. unfold sresize. rewrite E. replace (e_size t =? 0) with false by lia. unfold too_large.
  destruct (usize_max <? lenN xs + n) eqn:E1.
  { intros H. injection H as <- <- <-. right. right. right. split; [reflexivity|]. split; [reflexivity|]. nia. }
  destruct (lenN xs + n <=? s_cap v) eqn:E2.
  { intros H. injection H as <- <- <-. left. repeat split. lia. }
  unfold udouble. replace (s_cap v * 2 <=? usize_max) with true by lia. cbn [sbind].
  set (cap := N.max (min_non_zero_cap t) (N.max (s_cap v * 2) (lenN xs + n))).
  assert (Hcap0 : 0 < cap) by (unfold cap, min_non_zero_cap; destruct (e_size t =? 1), (e_size t <=? 1024); lia).
  assert (Hcap1 : lenN xs + n <= cap) by (unfold cap; lia). assert (Hcap2 : 2 * s_cap v <= cap) by (unfold cap; lia).
  assert (Hcap3 : cap <= N.max 8 (N.max (2 * s_cap v) (lenN xs + n))) by (unfold cap, min_non_zero_cap; destruct (e_size t =? 1), (e_size t <=? 1024); lia).
  unfold layout_array. destruct (isize_max - (e_align t - 1) <? cap * e_size t) eqn:E3.
  { intros H. injection H as <- <- <-. right. right. right. split; [reflexivity|]. split; [reflexivity|]. nia. }
  unfold srealloc. rewrite E. destruct (s_data v) as [i|] eqn:Ed.
  - destruct D as (Hp & b & B1 & B2 & B3 & B4 & B5). replace (0 <? s_cap v) with true by lia.
    rewrite N.mod_small by nia. unfold grealloc. rewrite B1, B2, B3, !N.eqb_refl. cbn [andb negb orb].
    assert (0 < cap * e_size t) by nia. replace (cap * e_size t =? 0) with false by lia. replace (isize_max <? cap * e_size t) with false by lia. cbn [orb].
    destruct (env (h_count h)) eqn:Ee; cbn [sbind]; intros H1; injection H1 as <- <- <-; cbn [s_cap s_len h_count].
    + right. left. repeat split; lia.
    + right. right. left. repeat split; lia.
  - replace (0 <? s_cap v) with false by lia.
    destruct (galloc_ok env h t cap Hs Hcap0) as [(h1 & -> & Hb & He & Hn)| ->]; [lia| |]; cbn [sbind]; intros H1; injection H1 as <- <- <-; cbn [s_cap s_len h_count].
    + right. right. left. repeat split; lia.
    + right. left. repeat split; lia.
Qed.

Lemma push_resized env dbg h v t xs x ok v' h' l : vrel h v t xs -> svec_push env dbg h v x = SDone (ok, v', h', l) ->
  exists v1 h1, sresize env dbg h v (lenN xs) 1 = SDone (ok, v1, h1) /\ h_count h' = h_count h1 /\ s_cap v' = s_cap v1.
Proof.
  intros R. pose proof R as (E & (Hs & _) & L & _). pose proof pow64 as (P1 & P2 & P3). unfold svec_push. rewrite E. replace (e_size t =? 0) with false by lia.
  destruct (sresize_ok env dbg h v t xs 1 R) as (ok1 & v1 & h1 & Er & G1 & G2 & G3 & G4). rewrite L, Er. cbn [sbind]. destruct ok1; cbn [negb].
  - pose proof G1 as (_ & _ & L' & _). pose proof (vrel_small _ _ _ _ G1). destruct (write_ok h1 v1 t xs [x] G1) as (h2 & W1 & W2 & Hn & W4); [apply G3; reflexivity|].
    rewrite W1. cbn [sbind]. rewrite L'. unfold uadd. specialize (G3 eq_refl). replace (lenN xs + 1 <=? usize_max) with true by lia. cbn [sbind].
    intros H1. injection H1 as <- <- <- <-. exists v1, h1. auto.
  - intros H1. injection H1 as <- <- <- <-. exists v1, h1. auto.
Qed.

Lemma slice_resized env dbg h v t xs ys ok v' h' : vrel h v t xs -> svec_extend_from_slice env dbg h v ys = SDone (ok, v', h') ->
  exists v1 h1, sresize env dbg h v (lenN xs) (lenN ys) = SDone (ok, v1, h1) /\ h_count h' = h_count h1 /\ s_cap v' = s_cap v1.
Proof.
  intros R. pose proof R as (E & (Hs & _) & L & _). pose proof pow64 as (P1 & P2 & P3). unfold svec_extend_from_slice. rewrite E. replace (e_size t =? 0) with false by lia.
  destruct (sresize_ok env dbg h v t xs (lenN ys) R) as (ok1 & v1 & h1 & Er & G1 & G2 & G3 & G4). rewrite L, Er. cbn [sbind]. destruct ok1; cbn [negb].
  - pose proof G1 as (_ & _ & L' & _). pose proof (vrel_small _ _ _ _ G1). destruct (write_ok h1 v1 t xs ys G1) as (h2 & W1 & W2 & Hn & W4); [apply G3; reflexivity|].
    rewrite W1. cbn [sbind]. rewrite L'. unfold uadd. specialize (G3 eq_refl). replace (lenN xs + lenN ys <=? usize_max) with true by lia. cbn [sbind].
    intros H1. injection H1 as <- <- <-. exists v1, h1. auto.
  - intros H1. injection H1 as <- <- <-. exists v1, h1. auto.
Qed.

Definition thrifty (v : svec) (n k : N) : Prop :=
  (k = 0 /\ s_cap v = 0) \/ (1 <= k /\ 2 ^ (k - 1) <= s_cap v /\ (k = 1 \/ (2 <= k /\ 2 ^ (k - 2) <= n))).

Lemma thrifty_push env dbg h v t xs x ok v' h' l k : (forall n, env n = true) -> vrel h v t xs -> thrifty v (lenN xs) k ->
  svec_push env dbg h v x = SDone (ok, v', h', l) ->
  exists k', N.of_nat (h_count h') = N.of_nat (h_count h) + k' /\ thrifty v' (lenN (if ok then xs ++ [x] else xs)) (k + k').
Proof.
  intros He R T H. destruct (push_resized _ _ _ _ _ _ _ _ _ _ _ R H) as (v1 & h1 & Er & Hn & Hc).
  pose proof R as (_ & _ & _ & Hl & _). pose proof (sresize_ok env dbg h v t xs 1 R) as (ok1 & v2 & h2 & E2 & _ & _ & _ & G4).
  rewrite Er in E2. injection E2 as <- <- <-.
  unfold thrifty. rewrite Hn, Hc. destruct (sresize_cases _ _ _ _ _ _ _ _ _ _ R Er) as [(-> & -> & -> & _)|[(-> & A & B & C & _ & ->)|[(-> & F & _)|(-> & -> & _)]]].
  - exists 0. split; [lia|]. rewrite lenN_app, N.add_0_r. change (lenN [x]) with 1. unfold thrifty in T. lia.
  - exists 1. split; [lia|]. rewrite lenN_app. change (lenN [x]) with 1. right. split; [lia|]. destruct T as [(-> & T)|(T1 & T2 & T3)].
    + change (2 ^ (0 + 1 - 1)) with 1. split; [exact B|now left].
    + replace (k + 1 - 1) with (N.succ (k - 1)) by lia. rewrite N.pow_succ_r'. replace (k + 1 - 2) with (k - 1) by lia. split; [lia|]. right. split; lia.
  - rewrite He in F. discriminate.
  - exists 0. split; [lia|]. rewrite (G4 eq_refl), N.add_0_r. exact T.
Qed.

Lemma thrifty_pushes env dbg ys : (forall n, env n = true) -> forall w i v t xs k rs w', vec_at w i = Some v -> vrel (w_heap w) v t xs -> thrifty v (lenN xs) k ->
  srun env dbg w (map (PPush i) ys) = SDone (rs, w') ->
  exists k' v' (zs : list item), N.of_nat (h_count (w_heap w')) = N.of_nat (h_count (w_heap w)) + k' /\ lenN zs <= lenN xs + lenN ys /\ thrifty v' (lenN zs) (k + k').
Proof.
  intros He. induction ys as [|y ys IH]; intros w i v t xs k rs w' Hv R T E; cbn [map srun] in E.
  { injection E as <- <-. exists 0, v, xs. rewrite !N.add_0_r. change (lenN []) with 0. split; [lia|]. split; [lia|assumption]. }
  cbn [sstep] in E. rewrite Hv in E. destruct (push_ok env dbg _ v t xs y R) as (ok & v1 & h1 & E1 & R1 & _).
  destruct (thrifty_push _ _ _ _ _ _ _ _ _ _ _ _ He R T E1) as (k1 & Hn & T1). rewrite E1 in E. cbn [sbind] in E.
  match type of E with context [srun env dbg ?u _] => set (w1 := u) in E end.
  assert (Hv1 : vec_at w1 i = Some v1).
  { unfold vec_at, w1. cbn [w_vecs]. rewrite set_at_nth, Nat.eqb_refl. unfold vec_at in Hv. destruct (nth_error (w_vecs w) i); [reflexivity|discriminate]. }
  destruct (srun env dbg w1 (map (PPush i) ys)) as [(rs1, w2)| |] eqn:E2; try discriminate. cbn [sbind] in E. injection E as <- <-.
  destruct (IH w1 i v1 t _ _ _ _ Hv1 R1 T1 E2) as (k2 & v2 & zs & Hn2 & Hz & T2). exists (k1 + k2), v2, zs. split; [rewrite Hn2; cbn [w1 w_heap]; lia|].
  split; [|now rewrite N.add_assoc]. rewrite lenN_cons. destruct ok; [rewrite lenN_app in Hz; change (lenN [y]) with 1 in Hz|]; lia.
Qed.

Lemma reach env dbg ops rs w : Forall (fun o => Forall sized (types_of o)) ops -> srun env dbg sworld_empty ops = SDone (rs, w) ->
  exists lw, calls no_lists ops rs lw /\ related w lw.
Proof.
  intros Hs E. destruct (run_ok env dbg ops _ _ related_empty Hs) as [(rs' & w' & lw & E' & C & R)|(? & ? & ? & ? & ? & ? & _ & _ & _ & _ & _ & E')]; rewrite E in E'; [|discriminate].
  injection E' as <- <-. eauto.
Qed.

Lemma fails_why env dbg w lw o w' : related w lw -> Forall sized (types_of o) -> sstep env dbg w o = SDone (RFailed, w') ->
  (env (h_count (w_heap w)) = false /\ h_count (w_heap w') = S (h_count (w_heap w))) \/
  (h_count (w_heap w') = h_count (w_heap w) /\ exists t n, asks w o t n /\ isize_max - (e_align t - 1) < n * e_size t).
Proof.
  intros R Hs E. pose proof (fun i v => vec_at_list w lw i v R) as K.
  assert (Rs : forall v t xs n v1 h1, vrel (w_heap w) v t xs -> sresize env dbg (w_heap w) v (lenN xs) n = SDone (false, v1, h1) ->
    (env (h_count (w_heap w)) = false /\ h_count h1 = S (h_count (w_heap w))) \/
    (h_count h1 = h_count (w_heap w) /\ isize_max - (e_align (s_ty v) - 1) < N.max 8 (N.max (2 * svec_capacity v) (s_len v + n)) * e_size (s_ty v))).
  { intros v t xs n v1 h1 Rv Er. pose proof Rv as (Et & (Hs1 & _) & Hl & _).
    destruct (sresize_cases _ _ _ _ _ _ _ _ _ _ Rv Er) as [(A & _)|[(A & _)|[(_ & A & B & _)|(_ & A & B)]]]; try discriminate; [left; auto|right]. split; [assumption|].
    unfold svec_capacity. rewrite Et, Hl. replace (e_size t =? 0) with false by lia. exact B. }
  destruct o as [t|t n|t x|t xs cap|i x|i xs|i n|i|i|i j|i|i]; cbn [sstep types_of] in *; try discriminate.
  - inversion Hs as [|? ? Ht _]. unfold svec_with_capacity in E. destruct (sresize_ok env dbg (w_heap w) _ t [] n (svec_new_ok _ t Ht)) as (ok & v1 & h1 & Er & G1 & _ & _ & G4).
    change (lenN []) with 0 in Er. rewrite Er in E. cbn [sbind] in E. destruct ok; [discriminate|]. rewrite (G4 eq_refl) in *. unfold sfree, svec_new in E. cbn [s_ty s_cap] in E. rewrite Bool.orb_true_r in E. cbn [sbind] in E.
    injection E as <-. cbn [w_heap]. destruct (Rs _ t [] n _ _ (svec_new_ok _ t Ht) Er) as [A|(A & B)]; [left; exact A|right]. split; [exact A|]. exists t, (N.max 8 n).
    split; [constructor|]. destruct Ht as (Ht & _). unfold svec_capacity in B; cbn [svec_new s_ty s_len s_cap] in B. replace (e_size t =? 0) with false in B by lia. replace (N.max 8 n) with (N.max 8 (N.max (2 * 0) (0 + n))) by lia. exact B.
  - inversion Hs as [|? ? Ht _]. pose proof Ht as (Hs1 & Ha & Hs3). unfold sbox_new in E. replace (e_size t =? 0) with false in E by lia.
    destruct (galloc_ok env (w_heap w) t 1 Ht) as [(h' & E1 & Hb & He & Hn)|E1]; [lia|lia| |]; rewrite N.mul_1_l in E1; rewrite E1 in E; cbn [sbind] in E.
    + left. injection E as <-. auto.
    + exfalso. destruct (box_ok env (w_heap w) t x Ht) as [(v & h' & E2 & _)|(h' & E2 & _)]; unfold sbox_new in E2; replace (e_size t =? 0) with false in E2 by lia;
        rewrite E1 in E2; cbn [sbind] in E2; destruct (write_items _ _ _ _); try discriminate. 
  - destruct ((cap <? lenN xs) || _); [discriminate|]. destruct (svec_from_std _ _ _ _). discriminate.
  - destruct (vec_at w i) as [v|] eqn:Ev; [|discriminate]. destruct (K i v Ev) as (t & xs & _ & Rv).
    destruct (svec_push env dbg (w_heap w) v x) as [[[[ok v1] h1] l]| |] eqn:E1; cbn [sbind] in E; try discriminate. destruct ok; [discriminate|]. injection E as <-. cbn [w_heap].
    destruct (push_resized _ _ _ _ _ _ _ _ _ _ _ Rv E1) as (v2 & h2 & Er & -> & _). destruct (Rs _ _ _ _ _ _ Rv Er) as [A|(A & B)]; [left; exact A|right]. split; [exact A|].
    eexists _, _. split; [eapply asks_push; exact Ev|exact B].
  - destruct (vec_at w i) as [v|] eqn:Ev; [|discriminate]. destruct (K i v Ev) as (t & ys & _ & Rv). destruct (negb (e_copy (s_ty v))); [discriminate|].
    destruct (svec_extend_from_slice env dbg (w_heap w) v xs) as [[[ok v1] h1]| |] eqn:E1; cbn [sbind] in E; try discriminate. destruct ok; [discriminate|]. injection E as <-. cbn [w_heap].
    destruct (slice_resized _ _ _ _ _ _ _ _ _ _ Rv E1) as (v2 & h2 & Er & -> & _). destruct (Rs _ _ _ _ _ _ Rv Er) as [A|(A & B)]; [left; exact A|right]. split; [exact A|].
    eexists _, _. split; [eapply asks_slice; exact Ev|exact B].
  - destruct (vec_at w i) as [v|] eqn:Ev; [|discriminate]. destruct (K i v Ev) as (t & xs & _ & Rv). pose proof Rv as (Et & (Hs1 & _) & L & _). unfold svec_reserve in E.
    rewrite Et in E. replace (e_size t =? 0) with false in E by lia. rewrite L in E.
    destruct (sresize env dbg (w_heap w) v (lenN xs) n) as [[[ok v1] h1]| |] eqn:E1; cbn [sbind] in E; try discriminate. destruct ok; [discriminate|]. injection E as <-. cbn [w_heap].
    destruct (Rs _ _ _ _ _ _ Rv E1) as [A|(A & B)]; [left; exact A|right]. split; [exact A|]. eexists _, _. split; [eapply asks_reserve; exact Ev|exact B].
  - destruct (vec_at w i) as [v|]; [|discriminate]. destruct (svec_pop (w_heap w) v) as [(x & v')| |]; discriminate.
  - destruct (vec_at w i) as [v|]; [|discriminate]. destruct (svec_clear (w_heap w) v) as [(x & v')| |]; discriminate.
  - pose proof (fun A => not_allowed env dbg w lw (PExtend i j) R A) as A. assert (Al : allowed lw (PExtend i j)) by (apply A; cbn [sstep]; congruence). clear A.
    destruct Al as (Hij & t & xs & ys & Hi & Hj & Hc). pose proof R as (W & _).
    destruct (winv_at _ _ _ _ _ _ W Hi) as (v & Hv & Rv). destruct (winv_at _ _ _ _ _ _ W Hj) as (u & Hu & Ru).
    rewrite (proj2 (Nat.eqb_neq i j) Hij) in E. rewrite (vec_at_nth _ _ _ Hv), (vec_at_nth _ _ _ Hu) in E. pose proof Rv as (Et & (Hs1 & _) & _). pose proof Ru as (Eu & _ & Lu & _).
    rewrite Et, Eu, Hc, (proj2 (ety_eqb_eq t t) eq_refl) in E. cbn [negb orb] in E.
    unfold svec_extend in E. rewrite Et in E. replace (e_size t =? 0) with false in E by lia. rewrite (svec_items_ok _ u t ys Ru) in E. cbn [sbind] in E.
    destruct (svec_extend_from_slice env dbg (w_heap w) v ys) as [[[ok v1] h1]| |] eqn:E1; cbn [sbind] in E; try discriminate.
    destruct (svec_drop h1 u) as [(h2 & l2)| |] eqn:E2; cbn [sbind] in E; try discriminate. destruct ok; [discriminate|]. injection E as <-. cbn [w_heap].
    assert (Hd : h_count h2 = h_count h1).
    { unfold svec_drop in E2. destruct (svec_clear h1 u) as [(u1 & l1)| |]; cbn [sbind] in E2; try discriminate. destruct (sfree h1 u1) as [h3| |] eqn:E3; cbn [sbind] in E2; try discriminate. injection E2 as <- _.
      unfold sfree in E3. destruct (_ || _); [now injection E3 as <-|]. destruct (s_data u1); [|discriminate]. unfold gdealloc in E3. destruct (block_at h1 n) as [b|]; [|discriminate]. destruct (_ && _); [|discriminate]. now injection E3 as <-. }
    destruct (slice_resized _ _ _ _ _ _ _ _ _ _ Rv E1) as (v2 & h3 & Er & Hn & _). destruct (Rs _ _ _ _ _ _ Rv Er) as [(A & B)|(A & B)].
    + left. split; [exact A|]. now rewrite Hd, Hn.
    + right. split; [now rewrite Hd, Hn|]. eexists _, _. split; [eapply asks_extend; [exact (vec_at_nth _ _ _ Hv)|exact (vec_at_nth _ _ _ Hu)]|]. rewrite Lu. exact B.
  - destruct (vec_at w i) as [v|]; [|discriminate]. destruct (svec_into_std (w_heap w) v) as [[[x c] h']| |]; discriminate.
  - destruct (vec_at w i) as [v|]; [|discriminate]. destruct (svec_drop (w_heap w) v) as [(x & v')| |]; discriminate.
Qed.
