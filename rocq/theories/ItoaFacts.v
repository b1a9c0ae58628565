(** Facts about the text of integers *)
From Verif Require Import Base BaseFacts JsonNumSpec NumText.
From Coq Require Import Lia ZifyBool ZifyNat ZifyN.
Local Open Scope N_scope.
Ltac Zify.zify_post_hook ::= Z.to_euclidean_division_equations.

(** ** Integers *)

Lemma size_nat_bound n : n < 2 ^ N.of_nat (N.size_nat n).
Proof.
  destruct n as [|q]; [cbn; lia|]. cbn [N.size_nat].
  induction q as [q IH|q IH|]; cbn [Pos.size_nat]; [| |cbn; lia];
    rewrite Nat2N.inj_succ, N.pow_succ_r'; lia.
Qed.

Lemma value_snoc ds d : value (ds ++ [d]) = 10 * value ds + (d - 48).
Proof. unfold value. now rewrite fold_left_app. Qed.

Lemma dec_go_text fuel : forall n acc, n < 2 ^ N.of_nat fuel ->
  exists ds, dec_go (S fuel) n acc = ds ++ acc /\ int_text n ds.
Proof.
  induction fuel as [|fuel IH]; intros n acc Hn.
  - change (2 ^ N.of_nat 0) with 1 in Hn. assert (n = 0) by lia. subst. exists [48]. split; [reflexivity|].
    split; [discriminate|]. split; [apply Forall_cons; [unfold digit; lia|apply Forall_nil]|]. now split.
  - rewrite Nat2N.inj_succ, N.pow_succ_r' in Hn.
    change (dec_go (S (S fuel)) n acc) with
      (if n <? 10 then (48 + n) :: acc else dec_go (S fuel) (n / 10) ((48 + n mod 10) :: acc)).
    destruct (n <? 10) eqn:E.
    + exists [48 + n]. split; [reflexivity|]. repeat split.
      * discriminate.
      * apply Forall_cons; [unfold digit; lia|apply Forall_nil].
      * cbn [hd]. intros H. now rewrite H.
      * unfold value. cbn [fold_left]. lia.
    + destruct (IH (n / 10) ((48 + n mod 10) :: acc)) as (ds & Hd & Hne & Hds & Hz & Hv); [lia|].
      exists (ds ++ [48 + n mod 10]). split; [rewrite Hd, <- app_assoc; reflexivity|].
      repeat split.
      * destruct ds; discriminate.
      * apply Forall_app. split; [assumption|]. apply Forall_cons; [unfold digit; lia|apply Forall_nil].
      * intros H. destruct ds as [|d ds]; [congruence|]. cbn [app hd] in H, Hz. specialize (Hz H).
        injection Hz as -> ->. cbn in Hv. lia.
      * rewrite value_snoc, Hv. lia.
Qed.

Lemma itoa_text n : int_text n (itoa n).
Proof.
  destruct (dec_go_text (N.size_nat n) n [] (size_nat_bound n)) as (ds & H & Ht).
  rewrite app_nil_r in H. unfold itoa. now rewrite H.
Qed.

Lemma itoa_z_text z : exists neg n s, itoa_z z = sign neg ++ s /\ int_text n s /\ z = z_of neg n.
Proof.
  destruct z as [|q|q].
  - exists false, 0, [48]. split; [reflexivity|]. split; [exact (itoa_text 0)|reflexivity].
  - exists false, (Npos q), (itoa (Npos q)). split; [reflexivity|]. split; [apply itoa_text|reflexivity].
  - exists true, (Npos q), (itoa (Npos q)). split; [reflexivity|]. split; [apply itoa_text|reflexivity].
Qed.

