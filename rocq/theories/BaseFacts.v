(** Lemmas about [Base]. *)
From Verif Require Import Base.
From Coq Require Import ZifyBool ZifyNat ZifyN.

Lemma bind_ok {A B} (r : res A) (f : A -> res B) b :
  bind r f = Ok b -> exists a, r = Ok a /\ f a = Ok b.
Proof. destruct r; cbn; intros H; try discriminate; eauto. Qed.

(** Invert a hypothesis [bind r f = Ok b]. *)
Ltac inv_bind H :=
  let a := fresh "a" in let H1 := fresh H in
  apply bind_ok in H; destruct H as [a [H1 H]].

Lemma bind_assoc {A B C} (r : res A) (f : A -> res B) (g : B -> res C) :
  bind (bind r f) g = bind r (fun a => bind (f a) g).
Proof. destruct r; reflexivity. Qed.

Lemma bind_ext {A B} (r : res A) (f g : A -> res B) :
  (forall a, r = Ok a -> f a = g a) -> bind r f = bind r g.
Proof. destruct r; cbn; auto. Qed.

Lemma iter_nat_add {S} (f : S -> res S) n m s :
  iter_nat (n + m) f s = bind (iter_nat n f s) (iter_nat m f).
Proof.
  revert s; induction n as [|n IH]; intros s; cbn; [reflexivity|].
  rewrite bind_assoc. apply bind_ext. intros a _. apply IH.
Qed.

Lemma iter_pos_nat {S} (f : S -> res S) p s :
  iter_pos p f s = iter_nat (Pos.to_nat p) f s.
Proof.
  revert s; induction p as [p IH|p IH|]; intros s; cbn [iter_pos].
  - rewrite Pos2Nat.inj_xI. replace (2 * Pos.to_nat p) with (Pos.to_nat p + Pos.to_nat p) by lia.
    cbn [iter_nat]. apply bind_ext. intros a _.
    rewrite iter_nat_add, IH. apply bind_ext. intros; apply IH.
  - rewrite Pos2Nat.inj_xO. replace (2 * Pos.to_nat p) with (Pos.to_nat p + Pos.to_nat p) by lia.
    rewrite iter_nat_add, IH. apply bind_ext. intros; apply IH.
  - change (Pos.to_nat 1) with 1. cbn. destruct (f s); reflexivity.
Qed.

Lemma iterN_nat {S} (f : S -> res S) n s : iterN n f s = iter_nat (N.to_nat n) f s.
Proof. destruct n; cbn; [reflexivity|apply iter_pos_nat]. Qed.

Lemma iterN_of_nat {S} (f : S -> res S) n s : iterN (N.of_nat n) f s = iter_nat n f s.
Proof. rewrite iterN_nat, Nat2N.id. reflexivity. Qed.

(** An invariant of the state is an invariant of the loop. *)
Lemma iter_nat_inv {S} (P : S -> Prop) (f : S -> res S) n s s' :
  (forall a b, P a -> f a = Ok b -> P b) -> P s -> iter_nat n f s = Ok s' -> P s'.
Proof.
  intros Hf. revert s; induction n as [|n IH]; cbn; intros s Hs H.
  - congruence.
  - inv_bind H. eauto.
Qed.

Lemma iter_nat_no_panic {S} (f : S -> res S) n s :
  (forall a, f a <> Panic) -> iter_nat n f s <> Panic.
Proof.
  intros Hf. revert s; induction n as [|n IH]; cbn; intros s; [discriminate|].
  specialize (Hf s). destruct (f s); cbn; congruence || auto.
Qed.

Lemma concat_res_app {A} (f : A -> res bytes) l1 l2 :
  concat_res f (l1 ++ l2) =
  bind (concat_res f l1) (fun a => bind (concat_res f l2) (fun b => Ok (a ++ b))).
Proof.
  induction l1 as [|x l1 IH]; cbn.
  - destruct (concat_res f l2); reflexivity.
  - destruct (f x); cbn; try reflexivity. rewrite IH.
    destruct (concat_res f l1); cbn; try reflexivity.
    destruct (concat_res f l2); cbn; try reflexivity. now rewrite app_assoc.
Qed.

Lemma take_opt_spec n bs :
  take_opt n bs =
  if N.leb n (lenN bs) then Some (firstn (N.to_nat n) bs, skipn (N.to_nat n) bs) else None.
Proof.
  revert n; induction bs as [|b r IH]; intros n.
  - destruct n; cbn; reflexivity.
  - destruct n as [|p]; [reflexivity|].
    cbn [take_opt]. rewrite IH. unfold lenN; cbn [length].
    destruct (N.leb_spec (N.pred (N.pos p)) (N.of_nat (length r)));
      destruct (N.leb_spec (N.pos p) (N.of_nat (S (length r)))); try lia; [|reflexivity].
    replace (N.to_nat (N.pos p)) with (S (N.to_nat (N.pred (N.pos p)))) by lia.
    reflexivity.
Qed.

Lemma take_opt_app h t : take_opt (lenN h) (h ++ t) = Some (h, t).
Proof.
  rewrite take_opt_spec. unfold lenN. rewrite app_length.
  destruct (N.leb_spec (N.of_nat (length h)) (N.of_nat (length h + length t))); [|lia].
  rewrite Nat2N.id.
  rewrite firstn_app, skipn_app, firstn_all, skipn_all, Nat.sub_diag. cbn.
  now rewrite app_nil_r.
Qed.

Lemma take_opt_some n bs h t : take_opt n bs = Some (h, t) -> bs = h ++ t /\ lenN h = n.
Proof.
  rewrite take_opt_spec. destruct (N.leb_spec n (lenN bs)); [|discriminate].
  intros E; inversion E; subst. split; [now rewrite firstn_skipn|].
  unfold lenN in *. rewrite firstn_length. lia.
Qed.

Lemma take_opt_none n bs : take_opt n bs = None -> (lenN bs < n)%N.
Proof. rewrite take_opt_spec. destruct (N.leb_spec n (lenN bs)); [discriminate|auto]. Qed.

Lemma lenN_app {A} (a b : list A) : lenN (a ++ b) = (lenN a + lenN b)%N.
Proof. unfold lenN. rewrite app_length. lia. Qed.

Lemma lenN_cons {A} (a : A) b : lenN (a :: b) = (1 + lenN b)%N.
Proof. unfold lenN. cbn [length]. lia. Qed.

Lemma bytes_ok_app a b : bytes_ok (a ++ b) = bytes_ok a && bytes_ok b.
Proof. apply forallb_app. Qed.

Lemma bytes_ok_cons b bs : bytes_ok (b :: bs) = byte_ok b && bytes_ok bs.
Proof. reflexivity. Qed.
