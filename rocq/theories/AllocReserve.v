(** Reserved space stays reserved. *)
From Coq Require Import List NArith Bool Lia Arith.
From Verif Require Import Base BaseFacts Alloc AllocSpec AllocFacts AllocGrow AllocVec AllocMerge AllocRun.
Import ListNotations.
Open Scope N_scope.

Lemma get_put_ne : forall s vs h g x, h <> g -> get (mkw s (put vs h x)) g = get (mkw s vs) g.
Proof. intros s vs h g x D. unfold get. cbn [w_vecs]. now rewrite nth_put_ne. Qed.

Lemma get_snoc : forall w s x h v, get w h = Some v -> get (mkw s (w_vecs w ++ [x])) h = Some v.
Proof.
  intros w s x h v G. unfold get in *. cbn [w_vecs]. destruct (nth_error (w_vecs w) h) as [[v'|]|] eqn:E; try discriminate.
  rewrite nth_error_app1, E by (apply nth_error_Some; congruence). exact G.
Qed.

Ltac inv_out E := match type of E with
  | obind ?m _ = _ => destruct m as [?x|?z|?z] eqn:?; try discriminate; cbn [obind] in E
  end.

(** A call that does not act on a vector leaves the vector as it is. *)
Lemma step_get : forall w o r w' h v, step w o = Done (r, w') -> ~ acts_on h o -> get w h = Some v -> get w' h = Some v.
Proof.
  intros w o r w' h v E A G.
  destruct o; cbn [step acts_on] in *; try (destruct (get w h0) as [v0|]; [|discriminate]).
  - inv_out E. destruct x as (v', s'). injection E as _ <-. now apply get_snoc.
  - inv_out E. destruct x as (v', s'). injection E as _ <-. now apply get_snoc.
  - inv_out E. destruct x as (v', s'). injection E as _ <-. now apply get_snoc.
  - inv_out E. destruct x as ((ok, v'), s'). injection E as _ <-. rewrite get_put_ne by auto. exact G.
  - inv_out E. destruct x as ((ok, v'), s'). injection E as _ <-. rewrite get_put_ne by auto. exact G.
  - inv_out E. destruct x as ((ok, v'), s'). injection E as _ <-. rewrite get_put_ne by auto. exact G.
  - inv_out E. destruct x as (y, v'). injection E as _ <-. rewrite get_put_ne by auto. exact G.
  - injection E as _ <-. rewrite get_put_ne by auto. exact G.
  - destruct (Nat.eqb h0 g); [discriminate|]. destruct (get w h0) as [v0|]; [|discriminate]. destruct (get w g) as [o|]; [|discriminate].
    inv_out E. destruct x as ((ok, v'), s'). injection E as _ <-. rewrite !get_put_ne by tauto. exact G.
  - inv_out E. injection E as _ <-. rewrite get_put_ne by auto. exact G.
Qed.

Lemma run_get : forall ops w rs w' h v, run w ops = Done (rs, w') -> Forall (fun o => ~ acts_on h o) ops ->
  get w h = Some v -> get w' h = Some v.
Proof.
  induction ops as [|o t IH]; intros w rs w' h v E F G; cbn [run] in E.
  - injection E as _ <-. exact G.
  - inv_out E. destruct x as (r, w1). inv_out E. destruct x as (rs1, w2). injection E as _ <-.
    inversion F; subst. eapply IH; eauto. eapply step_get; eauto.
Qed.

(** What a successful reserve leaves in the vector. *)
Lemma reserve_cap : forall s rl q v n v' s', inv s rl -> vok s rl q v -> lenN (q_items q) + n < usz -> q_sz q <> 0 ->
  vec_reserve s v n = Done (true, v', s') -> a_haz s' = [] -> lenN (q_items q) + n <= v_cap v'.
Proof.
  intros s rl q v n v' s' I V L Z E Hz.
  pose proof (vec_reserve_spec s rl q v n I V L) as Sp. rewrite E in Sp. cbn [wp] in Sp.
  destruct Sp as [Sp|(rl' & C & R)]; [congruence|]. specialize (R eq_refl Z).
  pose proof (ch_inv _ _ _ _ _ _ _ C) as I'. pose proof (ch_vok _ _ _ _ _ _ _ C) as V'.
  unfold vec_reserve in E. rewrite (vk_sz _ _ _ _ V) in E. pose proof Z as Zb. apply N.eqb_neq in Zb. rewrite Zb in E.
  unfold resize, uplus in E. rewrite (vk_len _ _ _ _ V) in E. pose proof L as Lb. apply N.ltb_lt in Lb. rewrite Lb in E. cbn [obind] in E.
  destruct (N.leb_spec (lenN (q_items q) + n) (v_cap v)) as [Lc|Lc]; [injection E as <- <-; exact Lc|].
  rewrite (vk_sz _ _ _ _ V), Zb in E. destruct (v_region v) as [i|]; [|discriminate]. cbv zeta in E.
  match type of E with (if ?c then _ else _) = _ => destruct c; [discriminate|] end.
  match type of E with (if ?c then _ else _) = _ => destruct c; [discriminate|] end.
  assert (Fin : forall j, v_region v' = Some j -> v_cap v' = capacity (a_hdrs s' j) / q_sz q -> lenN (q_items q) + n <= v_cap v').
  { intros j Hj ->. unfold room in R. rewrite Hj in R. destruct (vk_some _ _ _ _ V' j Hj) as (J & _).
    rewrite (inv_cap _ _ _ I' J). apply N.div_le_lower_bound; [auto|]. lia. }
  match type of E with (if ?c then _ else _) = _ => destruct c end.
  - injection E as <- <-. eapply Fin; reflexivity.
  - inv_out E. destruct x as (r, s1). destruct r as [j|]; [|discriminate]. injection E as <- <-. eapply Fin; reflexivity.
Qed.

(** Extending within the vector's own record of its capacity cannot fail. *)
Lemma extend_in_cap : forall s rl q v (items : list bytes), inv s rl -> vok s rl q v ->
  Forall (fun x : bytes => lenN x = q_sz q) items -> lenN (q_items q) + lenN items < usz ->
  (q_sz q <> 0 -> lenN (q_items q) + lenN items <= v_cap v) ->
  a_haz s = [] ->
  exists s', vec_extend_from_slice s v (lenN items) (concat items) = Done (true, with_len v (lenN (q_items q) + lenN items), s').
Proof.
  intros s rl q v items I V F L C Hz.
  pose proof (extend_slice_spec s rl q v items I V F L) as Sp. apply N.ltb_lt in L.
  destruct (vec_extend_from_slice s v (lenN items) (concat items)) as [((ok, v'), s')|z|z] eqn:E; unfold vec_extend_from_slice in E;
    rewrite (vk_sz _ _ _ _ V) in E; destruct (N.eqb_spec (q_sz q) 0) as [Z|Z];
    unfold resize, uplus in E; rewrite (vk_len _ _ _ _ V), L in E; cbn [obind] in E; try discriminate;
    try (injection E as <- <- <-; eauto; fail);
    specialize (C Z); apply N.leb_le in C; rewrite C in E; cbn [obind negb] in E; rewrite (vk_len _ _ _ _ V) in E; 
    inv_out E; rewrite ?L in E; cbn [obind] in E; try discriminate.
  - injection E as <- <- <-. eauto.
  - injection E as <-. exfalso. unfold write_elems, write_data in Heqo.
    repeat match type of Heqo with (if ?c then _ else _) = _ => destruct c; try discriminate end.
  - injection E as <-. exfalso. cbn [wp] in Sp. unfold write_elems, write_data in Heqo.
    repeat match type of Heqo with (if ?c then _ else _) = _ => destruct c; try discriminate end; injection Heqo as <-; congruence.
Qed.

Lemma lists_kept : forall l o r l' h, list_step l o r = Some l' -> ~ acts_on h o -> forall q, lget l h = Some q -> lget l' h = Some q.
Proof.
  intros l o r l' h E A q G.
  assert (Sn : forall x, lget (l ++ [x]) h = Some q).
  { intros x. unfold lget in *. destruct (nth_error l h) as [[q'|]|] eqn:N; try discriminate.
    rewrite nth_error_app1, N by (apply nth_error_Some; congruence). exact G. }
  assert (Pn : forall l0 g x, g <> h -> lget (lput l0 g x) h = lget l0 h).
  { intros l0 g x D. unfold lget, lput. now rewrite nth_put_ne. }
  destruct o; destruct r; cbn [list_step acts_on] in *; try discriminate;
    try (injection E as <-; auto; fail);
    try (destruct (lget l h0) as [q0|]; [|discriminate]; try (injection E as <-; rewrite Pn; auto; fail)).
  - destruct (rev (q_items q0)) as [|y t]; destruct x as [x'|]; try discriminate.
    + injection E as <-. auto.
    + destruct (list_eq_dec _ _ _); [|discriminate]. injection E as <-. rewrite Pn; auto.
  - destruct (lget l g) as [p|]; [|discriminate]. injection E as <-. rewrite !Pn by tauto. auto.
  - injection E as <-. rewrite Pn by tauto. auto.
  - injection E as <-. rewrite Pn by tauto. auto.
Qed.

Lemma lists_kept_run : forall ops l rs l' h, list_run l ops rs = Some l' -> Forall (fun o => ~ acts_on h o) ops ->
  forall q, lget l h = Some q -> lget l' h = Some q.
Proof.
  induction ops as [|o t IH]; intros l [|r rs] l' h E F q G; cbn [list_run] in E; try discriminate.
  - injection E as <-. exact G.
  - destruct (list_step l o r) as [l1|] eqn:L; [|discriminate]. inversion F; subst.
    apply (IH l1 rs l' h E); auto. eapply lists_kept; eauto.
Qed.

Lemma reserved : forall w1 rl1 l1 h n q w2 ops rs w3,
  wok (w_alloc w1) rl1 (w_vecs w1) l1 -> lget l1 h = Some q -> lenN (q_items q) + n < usz ->
  step w1 (OReserve h n) = Done (RDone, w2) ->
  run w2 ops = Done (rs, w3) -> calls_ok l1 ops rs -> a_haz (w_alloc w3) = [] ->
  Forall (fun o => ~ acts_on h o) ops ->
  exists v, get w3 h = Some v
    /\ (q_sz q <> 0 -> (lenN (q_items q) + n) * q_sz q <= vec_capacity (w_alloc w3) v)
    /\ forall items : list bytes, Forall (fun x => lenN x = q_sz q) items -> lenN items <= n ->
       exists w4, step w3 (OExtendFromSlice h items) = Done (RDone, w4).
Proof.
  intros w1 rl1 l1 h n q w2 ops rs w3 K G L E R Ok Hz F.
  destruct (wok_get w1 _ rl1 l1 h q eq_refl K G) as (v & Gv & Nv & _ & V).
  assert (Hz2 : a_haz (w_alloc w2) = []).
  { destruct (a_haz (w_alloc w2)) eqn:H; [auto|]. exfalso. apply (run_dirty _ _ _ _ ltac:(rewrite H; discriminate) R Hz). }
  assert (Oc : call_ok l1 (OReserve h n)) by (cbn [call_ok]; eauto).
  pose proof (step_spec w1 rl1 l1 _ K Oc) as Sp. rewrite E in Sp. cbn [wp] in Sp.
  destruct Sp as [Sp|(rl2 & l2 & Ls & K2 & _ & _)]; [congruence|]. cbn [list_step] in Ls. injection Ls as <-.
  destruct (run_spec ops w2 rl2 l1 rs w3 K2 R Ok Hz) as (rl3 & l3 & Lr & K3 & _).
  pose proof (lists_kept_run _ _ _ _ h Lr F q G) as G3.
  destruct (wok_get w3 _ rl3 l3 h q eq_refl K3 G3) as (v3 & Gv3 & Nv3 & _ & V3).
  assert (Cap : q_sz q <> 0 -> lenN (q_items q) + n <= v_cap v3).
  { intros Z. cbn [step] in E. rewrite Gv in E. inv_out E. destruct x as ((ok, v2), s2). destruct ok; [|discriminate].
    injection E as <-. cbn [w_alloc] in *.
    assert (G2 : get (mkw s2 (put (w_vecs w1) h (Some v2))) h = Some v2).
    { unfold get. cbn [w_vecs]. now rewrite (nth_put_eq _ _ _ _ Nv). }
    rewrite (run_get _ _ _ _ _ _ R F G2) in Gv3. injection Gv3 as <-.
    apply (reserve_cap _ rl1 q v n v2 s2 (wk_inv _ _ _ _ K) V L Z Heqo Hz2). }
  exists v3. split; [auto|]. split.
  - intros Z. specialize (Cap Z). unfold vec_capacity. rewrite (vk_sz _ _ _ _ V3). pose proof Z as Zb. apply N.eqb_neq in Zb. rewrite Zb.
    pose proof (N.mul_le_mono_r _ _ (q_sz q) Cap) as M.
    destruct (v_region v3) as [i|] eqn:Ri.
    + destruct (vk_some _ _ _ _ V3 i Ri) as (A1 & _ & _ & _ & A5 & _). rewrite (inv_cap _ _ _ (wk_inv _ _ _ _ K3) A1).
      apply N.le_trans with (1 := M). lia.
    + destruct (vk_none _ _ _ _ V3 Z Ri) as (C0 & _). rewrite C0 in *. lia.
  - intros items Fi Li. cbn [step]. rewrite Gv3.
    destruct (extend_in_cap _ rl3 q v3 items (wk_inv _ _ _ _ K3) V3 Fi ltac:(lia) ltac:(intros Z; specialize (Cap Z); lia) Hz) as (s' & ->).
    cbn [obind]. eauto.
Qed.
