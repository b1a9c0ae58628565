(** The skip loop that the wire and descriptive formats share. *)
From Verif Require Import Base Options Int Types BaseFacts IntFacts TypesFacts DecFacts StabFacts.
From Coq Require Import ZifyBool ZifyNat ZifyN.
Local Open Scope N_scope.

Definition shrinks {A} (d : dec A) : Prop :=
  forall bs v r, d bs = Ok (v, r) -> (length r <= length bs)%nat.

Lemma shrinks_bind {A B} (d : dec A) (k : A * bytes -> res (B * bytes)) :
  shrinks d -> (forall a, shrinks (fun r => k (a, r))) -> shrinks (fun bs => bind (d bs) k).
Proof.
  intros Hd Hk bs v r H. inv_bind H. destruct a as [a q]. apply Hd in H0. apply Hk in H. lia.
Qed.
Lemma shrinks_ret {A} (a : A) : shrinks (fun bs => Ok (a, bs)).
Proof. intros bs v r H. inversion H; subst. lia. Qed.
Lemma shrinks_err {A} : shrinks (fun _ => @Err (A * bytes)).
Proof. intros bs v r H. discriminate. Qed.
Lemma shrinks_panic {A} : shrinks (fun _ => @Panic (A * bytes)).
Proof. intros bs v r H. discriminate. Qed.
Lemma shrinks_read_byte : shrinks read_byte.
Proof. intros [|b bs] v r H; inversion H; subst. cbn. lia. Qed.
Lemma read_byte_strict bs v r : read_byte bs = Ok (v, r) -> length bs = S (length r).
Proof. destruct bs; intros H; inversion H; subst. reflexivity. Qed.
Lemma shrinks_read_bytes n : shrinks (read_bytes n).
Proof.
  intros bs v r. unfold read_bytes. destruct (take_opt n bs) as [[h t]|] eqn:E; [|discriminate].
  intros H; inversion H; subst. apply take_opt_some in E. destruct E as [-> _]. rewrite app_length. lia.
Qed.
Lemma shrinks_cont tb : shrinks (cont_decode tb).
Proof.
  intros bs v r. unfold cont_decode. intros H. inv_bind H. destruct a as [b q]. apply read_byte_strict in H0.
  destruct (_ =? 0).
  - inversion H; subst. lia.
  - apply cont_loop_sound in H. destruct H as [_ [pre [-> _]]]. rewrite app_length in H0. lia.
Qed.
Lemma shrinks_read_int p bo n : shrinks (read_int p bo n).
Proof.
  apply (shrinks_bind (read_bytes (N.of_nat n))); [apply shrinks_read_bytes|]. intros a. apply shrinks_ret.
Qed.
Lemma shrinks_usize p o : shrinks (decode_usize p o).
Proof.
  unfold decode_usize. destruct (length_value o); try apply shrinks_cont;
    (apply shrinks_bind; [apply shrinks_read_int|]; intros a; cbn beta iota;
     destruct (_ <? _); [apply shrinks_ret|apply shrinks_err]).
Qed.

Section Loop.
  Variable step : N -> dec N.

  Fixpoint gloop (fuel : nat) (n : N) (bs : bytes) : res (unit * bytes) :=
    if n =? 0 then Ok (tt, bs)
    else match fuel with
         | O => Err
         | S f => let* (m, r) := step n bs in gloop f m r
         end.

  Definition gskip (n : N) : dec unit := fun bs => gloop (length bs) n bs.

  Hypothesis Hstrict : forall n bs m r, step n bs = Ok (m, r) -> (length r < length bs)%nat.
  Hypothesis Hempty : forall n, step n [] = Err.

  Lemma gloop_fuel fuel : forall n bs, (length bs <= fuel)%nat -> gloop fuel n bs = gskip n bs.
  Proof.
    induction fuel as [|f IH]; intros n bs Hl.
    - destruct bs; [reflexivity|cbn in Hl; lia].
    - unfold gskip. destruct bs as [|b bs].
      + cbn. rewrite Hempty. destruct (n =? 0); reflexivity.
      + cbn [length gloop]. destruct (n =? 0); [reflexivity|].
        destruct (step n (b :: bs)) as [[m r]| |] eqn:E; cbn [bind]; try reflexivity.
        apply Hstrict in E. cbn [length] in E, Hl. rewrite IH by lia.
        assert (Hs : forall k q, (length q <= length bs)%nat -> (length bs <= f)%nat -> gskip k q = gloop (length bs) k q).
        { clear - IH Hstrict Hempty. intros k q Hq Hf.
          destruct (Nat.eq_dec (length bs) f) as [->|Hne]; [symmetry; apply IH; lia|].
          unfold gskip. revert k q Hq. assert (Hle : forall m k q, (length q <= m)%nat -> gloop m k q = gloop (length q) k q).
          { induction m as [m IHm] using lt_wf_ind. intros k q Hq. destruct m as [|m].
            - destruct q; [reflexivity|cbn in Hq; lia].
            - destruct q as [|c q].
              + cbn. rewrite Hempty. destruct (k =? 0); reflexivity.
              + cbn [length gloop]. destruct (k =? 0); [reflexivity|].
                destruct (step k (c :: q)) as [[m' r']| |] eqn:E'; cbn [bind]; try reflexivity.
                apply Hstrict in E'. cbn [length] in E', Hq.
                rewrite (IHm m) by lia. symmetry. apply IHm; lia. }
          intros k q Hq. symmetry. now apply Hle. }
        apply Hs; lia.
  Qed.

  Lemma gskip_0 bs : gskip 0 bs = Ok (tt, bs).
  Proof. unfold gskip. destruct (length bs); reflexivity. Qed.

  Lemma gskip_step n bs : n <> 0 -> gskip n bs = let* (m, r) := step n bs in gskip m r.
  Proof.
    intros Hn. destruct bs as [|b bs].
    - unfold gskip at 1. cbn. rewrite Hempty. rewrite (proj2 (N.eqb_neq n 0) Hn). reflexivity.
    - unfold gskip at 1. cbn [length gloop]. rewrite (proj2 (N.eqb_neq n 0) Hn).
      destruct (step n (b :: bs)) as [[m r]| |] eqn:E; cbn [bind]; try reflexivity.
      apply Hstrict in E. cbn [length] in E. apply gloop_fuel. lia.
  Qed.

  Lemma gskip_stab (Hst : forall n, n <> 0 -> stab True (fun _ => True) (step n)) n :
    stab True (fun _ => True) (gskip n).
  Proof.
    intros bs. remember (length bs) as l eqn:El. revert n bs El.
    induction l as [l IH] using lt_wf_ind. intros n bs El ext Hok.
    destruct (N.eq_dec n 0) as [->|Hn].
    - rewrite !gskip_0. repeat split. now exists [].
    - rewrite !gskip_step by assumption. specialize (Hst n Hn bs ext Hok).
      destruct (step n bs) as [[m r]| |] eqn:E; cbn [bind]; auto.
      + destruct Hst as (_ & [u ->] & Hx). rewrite Hx. cbn [bind].
        pose proof (Hstrict _ _ _ _ E) as Hlt.
        apply bytes_ok_split in Hok. destruct Hok as [_ Hok].
        specialize (IH (length r) ltac:(lia) m r eq_refl ext Hok).
        destruct (gskip m r) as [[w q]| |]; auto.
        destruct IH as (_ & [u' ->] & Hy). repeat split; auto. exists (u ++ u'). now rewrite app_assoc.
      + destruct Hst as [_ ->]. auto.
  Qed.
End Loop.
