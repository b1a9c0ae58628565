(** Facts about slice references and binary search. *)
From Coq Require Import Lia.
From Verif Require Import Base BaseFacts Options Int IntFacts IOFacts Zc ZcSpec ZcFacts ZcValid ZcSwap
  ZcBuf ZcBufSpec ZcBufFacts ZcRefSpec.
Local Open Scope N_scope.

Lemma umul_fits u a b : a * b < 2 ^ u -> umul u a b = ZOk (a * b).
Proof. unfold umul. intros H. apply N.ltb_lt in H. now rewrite H. Qed.

Lemma elems_cons off sz n : elems off sz (S n) = off :: elems (off + sz) sz n.
Proof.
  unfold elems. rewrite <- cons_seq. cbn [map]. f_equal; [lia|].
  rewrite <- seq_shift, map_map. apply map_ext. intros i. lia.
Qed.
Lemma elems_snoc off sz n : elems off sz (S n) = elems off sz n ++ [off + sz * N.of_nat n].
Proof. unfold elems. rewrite seq_S, map_app. reflexivity. Qed.

Lemma iter_run_spec ub nb e o sz script : 0 < sz -> size_sane nb e o ->
  forall n off, off + sz * N.of_nat n < 2 ^ ub -> (n = 0%nat \/ off + sz * N.of_nat (n - 1) <= omax o) ->
  iter_run ub nb e o sz script (off, off + sz * N.of_nat n) = ZOk (deque script (elems off sz n)).
Proof.
  intros P SS. induction script as [|f script IH]; intros n off B F; [reflexivity|].
  destruct n as [|n].
  - cbn [iter_run]. replace (off + sz * N.of_nat 0) with off by lia.
    assert (X : (if f then iter_next ub nb e o sz (off, off) else iter_next_back ub nb e o sz (off, off)) = ZOk None)
      by (destruct f; unfold iter_next, iter_next_back; now rewrite N.eqb_refl).
    rewrite X. cbn [zbind]. specialize (IH 0%nat off). replace (off + sz * N.of_nat 0) with off in IH by lia.
    rewrite IH by (auto; lia). destruct f; reflexivity.
  - destruct F as [F|F]; [discriminate|]. replace (S n - 1)%nat with n in F by lia.
    assert (OB : off + sz * N.of_nat (S n) = off + sz + sz * N.of_nat n) by lia.
    assert (NE : (off =? off + sz * N.of_nat (S n)) = false) by (apply N.eqb_neq; lia).
    destruct f; cbn [iter_run].
    + unfold iter_next. rewrite NE. rewrite uadd_fits by lia. cbn [zbind].
      destruct (ref_new_fits nb e o off) as (r & R); [lia|]. rewrite R. cbn [zbind].
      rewrite OB. rewrite (IH n (off + sz)); [|lia|].
      * cbn [zbind]. rewrite (ref_new_offset nb e o off r SS R), elems_cons. reflexivity.
      * destruct n as [|n]; auto. right. replace (S n - 1)%nat with n by lia. lia.
    + unfold iter_next_back. rewrite NE.
      destruct (N.ltb_spec (off + sz * N.of_nat (S n)) sz); [lia|].
      replace (off + sz * N.of_nat (S n) - sz) with (off + sz * N.of_nat n) by lia.
      destruct (ref_new_fits nb e o (off + sz * N.of_nat n)) as (r & R); [lia|]. rewrite R. cbn [zbind].
      rewrite (IH n off); [|lia|].
      * cbn [zbind]. rewrite (ref_new_offset nb e o _ r SS R), elems_snoc. cbn [deque].
        rewrite rev_app_distr. cbn [rev app]. now rewrite rev_involutive.
      * destruct n as [|n]; auto. right. replace (S n - 1)%nat with n by lia. lia.
Qed.

(** ** Binary search *)

Lemma bs_loop_fuel probe fuel : forall size left right,
  left <= right -> size = right - left -> (N.to_nat (right - left) < fuel)%nat -> bs_loop fuel probe size left right <> None.
Proof.
  induction fuel as [|fuel IH]; intros size left right LR SZ L; [lia|]. cbn [bs_loop].
  destruct (N.ltb_spec left right) as [Q|Q]; [|discriminate].
  assert (D : size / 2 < size) by (apply N.div_lt; lia).
  destruct (probe (left + size / 2)) as [[]| | |]; try discriminate; apply IH; lia.
Qed.

Lemma bs_loop_found probe fuel : forall size left right r,
  left <= right -> size = right - left -> bs_loop fuel probe size left right = Some (ZOk r) ->
  match r with Found i => left <= i < right /\ probe i = ZOk Eq | Missing i => left <= i <= right end.
Proof.
  induction fuel as [|fuel IH]; intros size left right r LR SZ H; [discriminate|]. cbn [bs_loop] in H.
  destruct (N.ltb_spec left right) as [Q|Q].
  2: { inversion H; subst. lia. }
  assert (D : size / 2 < size) by (apply N.div_lt; lia).
  destruct (probe (left + size / 2)) as [[]| | |] eqn:P; try discriminate.
  - inversion H; subst r. split; auto. lia.
  - apply IH in H; [|lia|lia]. destruct r as [j|j]; intuition; lia.
  - apply IH in H; [|lia|lia]. destruct r as [j|j]; intuition; lia.
Qed.

Lemma bs_loop_answer probe c len fuel : sorted_cmp c len -> (forall i, i < len -> probe i = ZOk (c i)) ->
  forall size left right,
  left <= right -> right <= len -> size = right - left -> (N.to_nat (right - left) < fuel)%nat ->
  (forall j, j < left -> c j = Lt) -> (forall j, right <= j -> j < len -> c j = Gt) ->
  exists r, bs_loop fuel probe size left right = Some (ZOk r) /\ answer c len r.
Proof.
  intros S P. induction fuel as [|fuel IH]; intros size left right LR RL SZ F A B; [lia|]. cbn [bs_loop].
  destruct (N.ltb_spec left right) as [Q|Q].
  - assert (D : size / 2 < size) by (apply N.div_lt; lia).
    set (mid := left + size / 2) in *. rewrite P by lia.
    destruct (c mid) eqn:C.
    + eexists. split; [reflexivity|]. split; [lia|auto].
    + apply IH; try lia; auto. intros j J. apply (S j mid); auto; lia.
    + apply IH; try lia; auto. intros j J K. apply (S mid j); auto.
  - eexists. split; [reflexivity|]. split; [lia|]. split; [auto|]. intros j J K. apply B; lia.
Qed.

Lemma bs_loop_sound probe fuel : forall size left right r,
  left <= right -> size = right - left -> bs_loop fuel probe size left right = Some r ->
  match r with
  | ZOk (Found i) => left <= i < right /\ probe i = ZOk Eq
  | ZOk (Missing i) => left <= i <= right
  | ZErr => exists i, left <= i < right /\ probe i = ZErr
  | ZPanic => exists i, left <= i < right /\ probe i = ZPanic
  | ZUb => exists i, left <= i < right /\ probe i = ZUb
  end.
Proof.
  induction fuel as [|fuel IH]; intros size left right r LR SZ H; [discriminate|]. cbn [bs_loop] in H.
  destruct (N.ltb_spec left right) as [Q|Q].
  2: { inversion H; subst. lia. }
  assert (D : size / 2 < size) by (apply N.div_lt; lia).
  destruct (probe (left + size / 2)) as [[]| | |] eqn:P.
  - inversion H; subst r. split; auto. lia.
  - apply IH in H; [|lia|lia]. destruct r as [[j|j]| | |].
    + intuition; lia.
    + lia.
    + destruct H as (j & J & K). exists j. split; auto; lia.
    + destruct H as (j & J & K). exists j. split; auto; lia.
    + destruct H as (j & J & K). exists j. split; auto; lia.
  - apply IH in H; [|lia|lia]. destruct r as [[j|j]| | |].
    + intuition; lia.
    + lia.
    + destruct H as (j & J & K). exists j. split; auto; lia.
    + destruct H as (j & J & K). exists j. split; auto; lia.
    + destruct H as (j & J & K). exists j. split; auto; lia.
  - inversion H; subst r. eexists. split; [|exact P]. lia.
  - inversion H; subst r. eexists. split; [|exact P]. lia.
  - inversion H; subst r. eexists. split; [|exact P]. lia.
Qed.

(** ** The elements of a slice *)

Lemma holds_firstn l m k : holds l m -> holds (firstn k l) (firstn k m).
Proof.
  unfold holds. intros H. revert k. induction H as [|x y l m X H IH]; intros [|k]; cbn; constructor; auto.
Qed.
Lemma holds_skipn l m k : holds l m -> holds (skipn k l) (skipn k m).
Proof.
  unfold holds. intros H. revert k. induction H as [|x y l m X H IH]; intros [|k]; cbn; auto.
Qed.

Lemma array_element nb t n s i : zwf t -> valid_pattern nb (ZArray t n) s -> i < N.of_nat n ->
  valid_pattern nb t (slice_at s (size_of t * i) (size_of t)).
Proof.
  intros W (v & O & H) I. inversion O as [| | | | |? ? vs LV FV| | |]; subst.
  cbn [mem_of] in H.
  assert (G : forall vs, Forall (zok t) vs -> forall i v, nth_error vs i = Some v ->
    firstn (N.to_nat (size_of t)) (skipn (N.to_nat (size_of t * N.of_nat i)) (concat (map (mem_of nb t) vs))) = mem_of nb t v).
  { clear -W. intros vs F. induction F as [|w vs OK F IH]; intros [|i] v E; try discriminate; cbn [map concat].
    - inversion E; subst. rewrite N.mul_0_r. cbn [N.to_nat skipn].
      pose proof (mem_of_len nb t W v OK) as L. unfold lenN in L.
      rewrite firstn_app. replace (N.to_nat (size_of t) - length (mem_of nb t v))%nat with 0%nat by lia.
      rewrite firstn_O, app_nil_r. apply firstn_all2. lia.
    - pose proof (mem_of_len nb t W w OK) as L. unfold lenN in L.
      rewrite skipn_app.
      rewrite skipn_all2 by lia. cbn [app].
      replace (N.to_nat (size_of t * N.of_nat (S i)) - length (mem_of nb t w))%nat
        with (N.to_nat (size_of t * N.of_nat i)) by lia.
      now apply IH. }
  destruct (nth_error vs (N.to_nat i)) as [v|] eqn:E.
  2: { apply nth_error_None in E. lia. }
  exists v. split.
  - eapply Forall_forall; eauto. eapply nth_error_In; eauto.
  - rewrite <- (G vs FV _ v E). rewrite N2Nat.id. unfold slice_at. now apply holds_firstn, holds_skipn.
Qed.

Lemma slice_element ub nb b t off n s i :
  zwf t -> pk_ok t -> vpk_ok t -> bytes_ok (bdata b) = true -> lenN (bdata b) < 2 ^ ub ->
  load_slice ub nb b t off (N.of_nat n) = ZOk s -> i < N.of_nat n ->
  off + size_of t * i + size_of t <= lenN (bdata b) /\
  load_sized ub nb b t (off + size_of t * i) = ZOk (slice_at (bdata b) (off + size_of t * i) (size_of t)) /\
  slice_at s (size_of t * i) (size_of t) = slice_at (bdata b) (off + size_of t * i) (size_of t).
Proof.
  intros W P V B U L I.
  destruct (load_slice_cases ub nb b t off n W P V B U) as [(X & G1 & G2 & G3 & G4)|(X & _)]; [|congruence].
  rewrite X in L. inversion L; subst s; clear L.
  assert (M : size_of t * i + size_of t <= N.of_nat n * size_of t) by nia.
  assert (SS : slice_at (slice_at (bdata b) off (N.of_nat n * size_of t)) (size_of t * i) (size_of t) =
               slice_at (bdata b) (off + size_of t * i) (size_of t)).
  { unfold slice_at. rewrite skipn_firstn_comm, firstn_firstn, skipn_add. f_equal; [lia|f_equal; lia]. }
  split; [lia|]. split; auto.
  destruct (load_sized_cases ub nb b t (off + size_of t * i) W P V B) as [(Y & _)|(Y & N)]; [lia|auto|].
  exfalso. apply N. split.
  - split; [lia|]. rewrite N.add_assoc. apply N.divide_add_r; auto.
    apply N.divide_mul_l. now apply size_divide.
  - rewrite <- SS. eapply array_element; eauto.
Qed.
