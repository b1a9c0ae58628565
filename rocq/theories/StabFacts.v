(** Combinators for decoders that are type-safe on arbitrary input and whose answer does not depend
    on what follows the bytes they use, panics included. *)
From Verif Require Import Base Options Int Types BaseFacts IntFacts TypesFacts DecFacts.
From Coq Require Import ZifyBool ZifyNat ZifyN.
Local Open Scope N_scope.

Definition stab {A} (pan : Prop) (P : A -> Prop) (d : dec A) : Prop :=
  forall bs ext, bytes_ok bs = true ->
    match d bs with
    | Ok (v, r) => P v /\ (exists u, bs = u ++ r) /\ d (bs ++ ext) = Ok (v, r ++ ext)
    | Err => True
    | Panic => pan /\ d (bs ++ ext) = Panic
    end.

Lemma stab_sound {A} pan (P : A -> Prop) d : stab pan P d -> soundx pan P d.
Proof.
  intros H bs Hok. specialize (H bs [] Hok). destruct (d bs) as [[v r]| |]; auto; intuition.
Qed.

(** A strict prefix of a good message is an error. *)
Lemma stab_prefix {A} pan (P : A -> Prop) d bs v pre ext : stab pan P d ->
  bytes_ok bs = true -> d bs = Ok (v, []) -> bs = pre ++ ext -> ext <> [] -> d pre = Err.
Proof.
  intros H Hok Hd -> Hne. rewrite bytes_ok_app in Hok. apply andb_true_iff in Hok.
  specialize (H pre ext (proj1 Hok)). destruct (d pre) as [[w r]| |]; auto.
  - destruct H as (_ & _ & H). rewrite H in Hd. inversion Hd. apply app_eq_nil in H2. intuition.
  - destruct H as [_ H]. congruence.
Qed.

Section Stab.
Context {pan : Prop}.
Local Notation stab := (stab pan).

Lemma stab_of {A} (P : A -> Prop) d : soundx False P d -> extends d -> stab P d.
Proof.
  intros Hs He bs ext Hok. specialize (Hs bs Hok). destruct (d bs) as [[v r]| |] eqn:E; auto; [|contradiction].
  destruct Hs as [Hp Hu]. repeat split; auto.
Qed.

Lemma stab_bind {A B} (P : A -> Prop) (Q : B -> Prop) (d : dec A) (k : A * bytes -> res (B * bytes)) :
  stab P d -> (forall a, P a -> stab Q (fun r => k (a, r))) ->
  stab Q (fun bs => bind (d bs) k).
Proof.
  intros Hd Hk bs ext Hok. specialize (Hd bs ext Hok). destruct (d bs) as [[a r]| |]; cbn; auto.
  - destruct Hd as (Ha & [u ->] & He). apply bytes_ok_split in Hok. destruct Hok as [_ Hr].
    specialize (Hk a Ha r ext Hr). cbn in Hk. rewrite He. cbn. destruct (k (a, r)) as [[b r']| |]; auto.
    destruct Hk as (Hb & [u' ->] & Hx). repeat split; auto. exists (u ++ u'). now rewrite app_assoc.
  - destruct Hd as [Hp ->]. auto.
Qed.

Lemma stab_ret {A} (P : A -> Prop) a : P a -> stab P (fun bs => Ok (a, bs)).
Proof. intros H bs ext _. repeat split; auto. now exists []. Qed.

Lemma stab_err {A} (P : A -> Prop) : stab P (fun _ => Err).
Proof. intros bs ext _. exact I. Qed.

Lemma stab_panic {A} (P : A -> Prop) : pan -> stab P (fun _ => Panic).
Proof. intros H bs ext _. auto. Qed.

Lemma stab_weaken {A} (P Q : A -> Prop) d : (forall a, P a -> Q a) -> stab P d -> stab Q d.
Proof.
  intros H Hd bs ext Hok. specialize (Hd bs ext Hok). destruct (d bs) as [[a r]| |]; auto.
  destruct Hd; auto.
Qed.

Lemma stab_res {A B} (x : res B) (k : B -> bytes -> res (A * bytes)) Q :
  x <> Panic -> (forall b, x = Ok b -> stab Q (k b)) -> stab Q (fun bs => bind x (fun b => k b bs)).
Proof.
  intros Hx Hk bs ext Hok. destruct x as [b| |]; cbn; auto; [|congruence]. now apply (Hk b eq_refl bs).
Qed.

Lemma stab_read_byte : stab (fun b => b < 256) read_byte.
Proof. apply stab_of; [apply sound_read_byte|apply read_byte_ext]. Qed.

Lemma stab_read_bytes n : stab (fun h => bytes_ok h = true /\ lenN h = n) (read_bytes n).
Proof. apply stab_of; [apply sound_read_bytes|apply read_bytes_ext]. Qed.

Lemma stab_usize p o : stab (fun n => n < 2 ^ usize_bits p) (decode_usize p o).
Proof. apply stab_of; [apply sound_usize|apply decode_usize_ext]. Qed.

Lemma stab_iter {S} (I : N -> S -> Prop) (f : S * bytes -> res (S * bytes)) :
  (forall k s, I k s -> stab (I (k + 1)) (fun bs => f (s, bs))) ->
  forall n k s, I k s -> stab (I (k + n)) (fun bs => iterN n f (s, bs)).
Proof.
  intros Hf n k s Hs bs ext Hok. rewrite !iterN_nat.
  rewrite <- (N2Nat.id n), Nat2N.id.
  generalize (N.to_nat n) as m. clear n. intros m. revert k s Hs bs Hok.
  induction m as [|m IH]; intros k s Hs bs Hok.
  - rewrite N.add_0_r. repeat split; auto. now exists [].
  - cbn [iter_nat].
    pose proof (Hf k s Hs bs ext Hok) as H. cbn beta in H.
    destruct (f (s, bs)) as [[s' r]| |]; cbn [bind]; auto.
    + destruct H as (Hs' & [u ->] & He). rewrite He. cbn [bind].
      apply bytes_ok_split in Hok. destruct Hok as [_ Hok].
      specialize (IH (k + 1) s' Hs' r Hok).
      destruct (iter_nat m f (s', r)) as [[s'' r'']| |]; auto.
      destruct IH as (Hi & [u' ->] & Hx). repeat split.
      * replace (k + N.of_nat (Datatypes.S m)) with (k + 1 + N.of_nat m) by lia. exact Hi.
      * exists (u ++ u'). now rewrite app_assoc.
      * exact Hx.
    + destruct H as [Hp ->]. auto.
Qed.

Lemma stab_iter_inv {S} (I : S -> Prop) (f : S * bytes -> res (S * bytes)) :
  (forall s, I s -> stab I (fun bs => f (s, bs))) ->
  forall n s, I s -> stab I (fun bs => iterN n f (s, bs)).
Proof.
  intros Hf n s Hs. apply (stab_iter (fun _ => I) f (fun _ => Hf) n 0 s Hs).
Qed.

Lemma stab_count (P : val -> Prop) d n : stab P d ->
  stab (fun vs => Forall P vs /\ lenN vs = n) (dec_count n d).
Proof.
  intros Hd. unfold dec_count.
  apply (stab_bind (fun acc => Forall P acc /\ lenN acc = n)).
  - apply (stab_weaken (fun acc => Forall P acc /\ lenN acc = 0 + n)); [auto|].
    apply (stab_iter (fun k acc => Forall P acc /\ lenN acc = k)
            (fun s : list val * bytes => let* (v, r) := d (snd s) in Ok (v :: fst s, r))).
    + intros k s [Hs Hl]. cbn [snd fst]. apply (stab_bind P); [assumption|].
      intros a Ha. apply stab_ret. split; [now constructor|]. rewrite lenN_cons. lia.
    + split; [constructor|reflexivity].
  - intros acc [Ha Hl]. apply stab_ret. split.
    + now apply Forall_rev.
    + now rewrite lenN_rev.
Qed.

Lemma stab_list (Ps : list (val -> bool)) ds :
  Forall2 (fun P d => stab (fun v => P v = true) d) Ps ds ->
  stab (fun vs => all2 Ps vs = true) (dec_list ds).
Proof.
  induction 1 as [|P d Ps ds H _ IH]; cbn [dec_list].
  - now apply stab_ret.
  - apply (stab_bind (fun v => P v = true)); [assumption|]. intros v Hv.
    apply (stab_bind (fun vs => all2 Ps vs = true)); [assumption|]. intros vs Hvs.
    apply stab_ret. cbn. now rewrite Hv, Hvs.
Qed.

Lemma stab_set p (P : val -> bool) d n :
  stab (fun v => P v = true) d -> n < 2 ^ usize_bits p ->
  stab (fun vs => forallb P vs && len_ok p vs && distinct vs = true)
    (fun bs => iterN n (set_step d) ([], bs)).
Proof.
  intros Hd Hn. apply (stab_weaken (fun vs => Forall (fun v => P v = true) vs /\ NoDup vs /\ lenN vs <= 0 + n)).
  - intros vs (H1 & H2 & H3). rewrite !andb_true_iff. split; [split|].
    + rewrite forallb_forall. now rewrite Forall_forall in H1.
    + unfold len_ok. lia.
    + now apply distinct_NoDup.
  - apply (stab_iter (fun k vs => Forall (fun v => P v = true) vs /\ NoDup vs /\ lenN vs <= k) (set_step d)).
    + intros k s (H1 & H2 & H3). unfold set_step. cbn [fst snd].
      apply (stab_bind (fun v => P v = true)); [assumption|]. intros v Hv. apply stab_ret.
      destruct (set_insert_inv (fun v => P v = true) v s Hv H1 H2) as (H4 & H5 & H6).
      repeat split; auto. lia.
    + repeat split; [constructor|constructor|cbn; lia].
Qed.

Lemma stab_map p (Pk Pv : val -> bool) dk dv n :
  stab (fun v => Pk v = true) dk -> stab (fun v => Pv v = true) dv -> n < 2 ^ usize_bits p ->
  stab (fun kvs => forallb (fun kv => Pk (fst kv) && Pv (snd kv)) kvs && len_ok p kvs
                    && distinct (map fst kvs) = true)
    (fun bs => iterN n (map_step dk dv) ([], bs)).
Proof.
  intros Hk Hv Hn.
  apply (stab_weaken (fun kvs => Forall (fun kv => Pk (fst kv) && Pv (snd kv) = true) kvs
                                  /\ NoDup (map fst kvs) /\ lenN kvs <= 0 + n)).
  - intros vs (H1 & H2 & H3). rewrite !andb_true_iff. split; [split|].
    + rewrite forallb_forall. now rewrite Forall_forall in H1.
    + unfold len_ok. lia.
    + now apply distinct_NoDup.
  - apply (stab_iter (fun m kvs => Forall (fun kv => Pk (fst kv) && Pv (snd kv) = true) kvs
                                  /\ NoDup (map fst kvs) /\ lenN kvs <= m) (map_step dk dv)).
    + intros m s (H1 & H2 & H3). unfold map_step. cbn [fst snd].
      apply (stab_bind (fun v => Pk v = true)); [assumption|]. intros k Hkk.
      apply (stab_bind (fun v => Pv v = true)); [assumption|]. intros v Hvv. apply stab_ret.
      destruct (map_insert_inv (fun kv => Pk (fst kv) && Pv (snd kv) = true) k v s) as (H4 & H5 & H6); auto.
      * cbn. now rewrite Hkk, Hvv.
      * repeat split; auto. lia.
    + repeat split; [constructor|constructor|cbn; lia].
Qed.

Lemma stab_field (Ps : list (val -> bool)) (Qk : val -> Prop) dk names ds skip :
  stab Qk dk -> stab (fun _ => True) skip ->
  Forall2 (fun P d => stab (fun v => P v = true) d) Ps ds ->
  forall s, slots_ok Ps s -> stab (slots_ok Ps) (fun bs => dec_field dk names ds skip (s, bs)).
Proof.
  intros Hk Hsk Hds s Hs. unfold dec_field. cbn [fst snd].
  apply (stab_bind Qk); [assumption|]. intros k _. cbn beta iota.
  destruct (find_name k names) as [i|].
  - destruct (nth_error ds i) as [d|] eqn:Ed; [|apply stab_err].
    assert (HP : exists P, nth_error Ps i = Some P /\ stab (fun v => P v = true) d).
    { clear - Hds Ed. revert i Ed. induction Hds as [|P d' Ps ds H _ IH]; intros [|i] Ed; try discriminate.
      - cbn in Ed. inversion Ed; subst. exists P. auto.
      - cbn in Ed. apply IH in Ed. exact Ed. }
    destruct HP as [P [HP Hd]].
    apply (stab_bind (fun v => P v = true)); [assumption|]. intros v Hv. apply stab_ret.
    now apply (set_slot_ok Ps s i P v).
  - apply (stab_bind (fun _ : unit => True)); [assumption|]. intros u _. now apply stab_ret.
Qed.
End Stab.
