(** Lemmas about [FixedVec]. *)
From Coq Require Import Lia.
From Verif Require Import Base System FixedVec FixedVecSpec SystemFacts.

(** The elements are there. *)
Definition holds (n : nat) (v : fvec) (xs : list item) : Prop :=
  f_cells v = map Some xs ++ repeat None (n - length xs) /\ f_len v = length xs /\ length xs <= n.

Lemma holds_new n : holds n (fvec_new n) [].
Proof. split; [cbn; rewrite Nat.sub_0_r; reflexivity|]. split; [reflexivity|cbn; lia]. Qed.

Lemma holds_items n v xs : holds n v xs -> fvec_items v = SDone xs.
Proof.
  intros (E & L & H). unfold fvec_items. rewrite L, E, app_length, map_length. replace (Nat.ltb (length xs + length (repeat None (n - length xs))) (length xs)) with false.
  2:{ symmetry. apply Nat.ltb_ge. lia. }
  rewrite firstn_app, firstn_all2 by (rewrite map_length; lia). rewrite map_length, Nat.sub_diag. cbn [firstn]. rewrite app_nil_r, all_some_map. reflexivity.
Qed.

Lemma set_at_app {A} (l : list A) x y r : set_at (l ++ x :: r) (length l) y = l ++ y :: r.
Proof. induction l as [|a l IH]; [reflexivity|]. cbn. f_equal. exact IH. Qed.

Lemma holds_push n v xs x : holds n v xs ->
  (length xs < n /\ exists v', fvec_try_push n v x = SDone (true, v', []) /\ holds n v' (xs ++ [x])) \/
  (length xs = n /\ fvec_try_push n v x = SDone (false, v, [x])).
Proof.
  intros (E & L & H). unfold fvec_try_push. rewrite L. destruct (Nat.leb_spec n (length xs)) as [Hn|Hn].
  - right. split; [lia|reflexivity].
  - left. split; [exact Hn|]. rewrite E, app_length, map_length, repeat_length. replace (Nat.ltb (length xs) (length xs + (n - length xs))) with true.
    2:{ symmetry. apply Nat.ltb_lt. lia. }
    eexists. split; [reflexivity|]. split; [|split; [cbn [f_len]; rewrite app_length; cbn; lia|rewrite app_length; cbn; lia]].
    cbn [f_cells]. replace (n - length xs)%nat with (S (n - length (xs ++ [x]))) by (rewrite app_length; cbn; lia). cbn [repeat].
    pose proof (set_at_app (map Some xs) None (Some x) (repeat None (n - length (xs ++ [x])))) as S. rewrite map_length in S. rewrite S, map_app, <- app_assoc. reflexivity.
Qed.

Lemma holds_clear nd n v xs : holds n v xs -> exists v', fvec_clear nd v = SDone (v', destroyed nd xs).
Proof.
  intros R. pose proof R as (_ & L & _). unfold fvec_clear. rewrite L. destruct (Nat.eqb_spec (length xs) 0) as [E|E].
  - destruct xs; [|discriminate]. exists v. destruct nd; reflexivity.
  - rewrite (holds_items _ _ _ R). destruct nd; cbn [sbind destroyed]; eauto.
Qed.

Lemma holds_fails nd n v xs log : holds n v xs -> array_fails nd v log = SDone (None, log ++ destroyed nd xs).
Proof. intros R. destruct (holds_clear nd n v xs R) as (v' & E). unfold array_fails. rewrite E. reflexivity. Qed.

Lemma holds_inner n v xs : holds n v xs -> length xs = n -> fvec_into_inner n v = SDone xs.
Proof.
  intros (E & L & _) H. unfold fvec_into_inner. rewrite L, H, Nat.eqb_refl, E, H, Nat.sub_diag. cbn [negb repeat]. rewrite app_nil_r, all_some_map. reflexivity.
Qed.

Lemma array_loop_ok nd n outs : forall v xs, holds n v xs ->
  (no_error outs /\ length (xs ++ given_first outs) = n /\ array_loop nd n v outs [] = SDone (Some (xs ++ given_first outs), [])) \/
  ((~ no_error outs \/ length (xs ++ given_first outs) <> n) /\ exists log, array_loop nd n v outs [] = SDone (None, log) /\
     exists gone, log = destroyed nd gone /\ Permutation.Permutation gone (firstn (S n) (xs ++ given_first outs))).
Proof.
  induction outs as [|[x|] outs IH]; intros v xs R; pose proof R as (_ & L & Hn); cbn [array_loop given_first].
  - rewrite app_nil_r, L. destruct (Nat.eqb_spec (length xs) n) as [E|E]; cbn [negb].
    + left. rewrite (holds_inner _ _ _ R E). split; [intros []|]. auto.
    + right. split; [right; exact E|]. rewrite (holds_fails nd _ _ _ [] R). exists (destroyed nd xs). split; [reflexivity|]. exists xs. split; [reflexivity|].
      rewrite firstn_all2 by lia. reflexivity.
  - destruct (holds_push n v xs x R) as [(Hl & v' & E & R')|(Hl & E)]; rewrite E; cbn [sbind negb].
    + replace ([] ++ destroyed nd []) with (@nil item) by (destruct nd; reflexivity).
      replace (xs ++ x :: given_first outs) with ((xs ++ [x]) ++ given_first outs) by (rewrite <- app_assoc; reflexivity).
      destruct (IH v' _ R') as [(H1 & H2)|(H1 & H2)]; [left; split|right; split]; try assumption.
      * intros [D|D]; [discriminate|exact (H1 D)].
      * destruct H1 as [H1|H1]; [left; intros D; apply H1; intros I; apply D; right; exact I|right; exact H1].
    + right. split.
      { right. rewrite app_length. cbn [length]. lia. }
      rewrite (holds_fails nd _ _ _ _ R). eexists. split; [reflexivity|]. exists (x :: xs). split; [destruct nd; reflexivity|].
      rewrite firstn_app, firstn_all2 by lia. replace (S n - length xs)%nat with 1%nat by lia. cbn [firstn]. apply Permutation.Permutation_cons_append.
  - right. split; [left; intros H; apply H; left; reflexivity|]. rewrite (holds_fails nd _ _ _ [] R), app_nil_r. exists (destroyed nd xs). split; [reflexivity|]. exists xs.
    split; [reflexivity|]. rewrite firstn_all2 by lia. reflexivity.
Qed.

Lemma packed_loop_ok nd n outs : forall v xs, holds n v xs ->
  (exists ys rest, outs = map Some ys ++ rest /\ length (xs ++ ys) = n /\ packed_loop nd n v outs [] = SDone (Some (xs ++ ys, rest), [])) \/
  (length (xs ++ given_first outs) < n /\ packed_loop nd n v outs [] = SDone (None, destroyed nd (xs ++ given_first outs))).
Proof.
  induction outs as [|[x|] outs IH]; intros v xs R; pose proof R as (_ & L & Hn); cbn [packed_loop given_first]; rewrite L.
  all: destruct (Nat.leb_spec n (length xs)) as [Hl|Hl]; [left; exists []; eexists; split; [reflexivity|]; rewrite app_nil_r, (holds_inner _ _ _ R) by lia; split; [lia|reflexivity]|].
  - right. rewrite (holds_fails nd _ _ _ [] R), app_nil_r. split; [exact Hl|reflexivity].
  - destruct (holds_push n v xs x R) as [(_ & v' & E & R')|(Hl' & E)]; [|lia]. rewrite E. cbn [sbind negb].
    replace ([] ++ destroyed nd []) with (@nil item) by (destruct nd; reflexivity).
    replace (xs ++ x :: given_first outs) with ((xs ++ [x]) ++ given_first outs) by (rewrite <- app_assoc; reflexivity).
    destruct (IH v' _ R') as [(ys & rest & -> & H2 & H3)|H]; [left|right; exact H].
    exists (x :: ys), rest. split; [reflexivity|]. rewrite <- app_assoc in H2, H3. split; [exact H2|exact H3].
  - right. rewrite (holds_fails nd _ _ _ [] R), app_nil_r. split; [exact Hl|reflexivity].
Qed.
