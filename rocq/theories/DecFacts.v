(** Combinators for two facts about decoders: they are safe on arbitrary input, and
    their answer does not depend on what follows the bytes they use. *)
From Verif Require Import Base Options Int Types BaseFacts IntFacts TypesFacts.
From Coq Require Import ZifyBool ZifyNat ZifyN.
Local Open Scope N_scope.

(** On any byte string, a value that [d] returns satisfies [P] and leaves a suffix of the
    input, and [d] panics only if [pan] holds. *)
Definition soundx {A} (pan : Prop) (P : A -> Prop) (d : dec A) : Prop :=
  forall bs, bytes_ok bs = true ->
    match d bs with
    | Ok (v, r) => P v /\ exists u, bs = u ++ r
    | Err => True
    | Panic => pan
    end.

Section Sound.
Context {pan : Prop}.
Local Notation sound := (soundx pan).

Lemma sound_bind {A B} (P : A -> Prop) (Q : B -> Prop) (d : dec A) (k : A * bytes -> res (B * bytes)) :
  sound P d -> (forall a, P a -> sound Q (fun r => k (a, r))) ->
  sound Q (fun bs => bind (d bs) k).
Proof.
  intros Hd Hk bs Hok. specialize (Hd bs Hok). destruct (d bs) as [[a r]| |]; cbn; auto.
  destruct Hd as [Ha [u ->]]. apply bytes_ok_split in Hok. destruct Hok as [_ Hr].
  specialize (Hk a Ha r Hr). cbn in Hk. destruct (k (a, r)) as [[b r']| |]; auto.
  destruct Hk as [Hb [u' ->]]. split; [assumption|]. exists (u ++ u'). now rewrite app_assoc.
Qed.

Lemma sound_ret {A} (P : A -> Prop) a : P a -> sound P (fun bs => Ok (a, bs)).
Proof. intros H bs _. split; [assumption|]. now exists []. Qed.

Lemma sound_err {A} (P : A -> Prop) : sound P (fun _ => Err).
Proof. intros bs _. exact I. Qed.

Lemma sound_weaken {A} (P Q : A -> Prop) d : (forall a, P a -> Q a) -> sound P d -> sound Q d.
Proof.
  intros H Hd bs Hok. specialize (Hd bs Hok). destruct (d bs) as [[a r]| |]; auto.
  destruct Hd; auto.
Qed.

Lemma sound_res {A B} (P : B -> Prop) (x : res B) (k : B -> bytes -> res (A * bytes)) Q :
  x <> Panic -> (forall b, x = Ok b -> sound Q (k b)) -> sound Q (fun bs => bind x (fun b => k b bs)).
Proof.
  intros Hx Hk bs Hok. destruct x as [b| |]; cbn; auto; [now apply Hk|congruence].
Qed.

Lemma sound_read_byte : sound (fun b => b < 256) read_byte.
Proof.
  intros [|b r] Hok; cbn; [exact I|]. cbn in Hok. apply andb_true_iff in Hok.
  destruct Hok as [Hb _]. split; [unfold byte_ok in Hb; lia|]. now exists [b].
Qed.

Lemma sound_read_bytes n : sound (fun h => bytes_ok h = true /\ lenN h = n) (read_bytes n).
Proof.
  intros bs Hok. unfold read_bytes. destruct (take_opt n bs) as [[h t]|] eqn:E; [|exact I].
  apply take_opt_some in E. destruct E as [-> Hl]. apply bytes_ok_split in Hok.
  split; [intuition|]. now exists h.
Qed.

Lemma sound_unsigned p o w : sound (fun n => n < 2 ^ bits w) (decode_unsigned p o w).
Proof.
  intros bs Hok. pose proof (decode_unsigned_no_panic p o w bs).
  destruct (decode_unsigned p o w bs) as [[v r]| |] eqn:E; [|auto|congruence].
  apply decode_unsigned_sound in E; [|assumption]. destruct E as [Hv [u [E _]]]. eauto.
Qed.

Lemma sound_signed p o w : sound (fun n => in_s (bits w) n) (decode_signed p o w).
Proof.
  intros bs Hok. pose proof (decode_signed_no_panic p o w bs).
  destruct (decode_signed p o w bs) as [[v r]| |] eqn:E; [|auto|congruence].
  apply decode_signed_sound in E; [|assumption]. destruct E as [Hv [u [E _]]]. eauto.
Qed.

Lemma sound_usize p o : sound (fun n => n < 2 ^ usize_bits p) (decode_usize p o).
Proof.
  intros bs Hok. pose proof (decode_usize_no_panic p o bs).
  destruct (decode_usize p o bs) as [[v r]| |] eqn:E; [|auto|congruence].
  apply decode_usize_sound in E; [|assumption]. destruct E as [Hv [u [E _]]]. eauto.
Qed.

Lemma sound_iter {S} (I : N -> S -> Prop) (f : S * bytes -> res (S * bytes)) :
  (forall k s, I k s -> sound (I (k + 1)) (fun bs => f (s, bs))) ->
  forall n k s, I k s -> sound (I (k + n)) (fun bs => iterN n f (s, bs)).
Proof.
  intros Hf n k s Hs bs Hok. rewrite iterN_nat.
  rewrite <- (N2Nat.id n), Nat2N.id.
  generalize (N.to_nat n) as m. clear n. intros m. revert k s Hs bs Hok.
  induction m as [|m IH]; intros k s Hs bs Hok.
  - rewrite N.add_0_r. split; [assumption|]. now exists [].
  - cbn [iter_nat].
    pose proof (Hf k s Hs bs Hok) as H. cbn beta in H.
    destruct (f (s, bs)) as [[s' r]| |]; cbn [bind]; auto.
    destruct H as [Hs' [u ->]]. apply bytes_ok_split in Hok. destruct Hok as [_ Hok].
    specialize (IH (k + 1) s' Hs' r Hok).
    destruct (iter_nat m f (s', r)) as [[s'' r'']| |]; auto.
    destruct IH as [Hi [u' ->]]. split.
    + replace (k + N.of_nat (Datatypes.S m)) with (k + 1 + N.of_nat m) by lia. exact Hi.
    + exists (u ++ u'). now rewrite app_assoc.
Qed.

Lemma sound_iter_inv {S} (I : S -> Prop) (f : S * bytes -> res (S * bytes)) :
  (forall s, I s -> sound I (fun bs => f (s, bs))) ->
  forall n s, I s -> sound I (fun bs => iterN n f (s, bs)).
Proof.
  intros Hf n s Hs. apply (sound_iter (fun _ => I) f (fun _ => Hf) n 0 s Hs).
Qed.

Lemma sound_count (P : val -> Prop) d n : sound P d ->
  sound (fun vs => Forall P vs /\ lenN vs = n) (dec_count n d).
Proof.
  intros Hd. unfold dec_count.
  apply (sound_bind (fun acc => Forall P acc /\ lenN acc = n)).
  - apply (sound_weaken (fun acc => Forall P acc /\ lenN acc = 0 + n)); [auto|].
    apply (sound_iter (fun k acc => Forall P acc /\ lenN acc = k)
            (fun s : list val * bytes => let* (v, r) := d (snd s) in Ok (v :: fst s, r))).
    + intros k s [Hs Hl]. cbn [snd fst]. apply (sound_bind P); [assumption|].
      intros a Ha. apply sound_ret. split; [now constructor|]. rewrite lenN_cons. lia.
    + split; [constructor|reflexivity].
  - intros acc [Ha Hl]. apply sound_ret. split.
    + now apply Forall_rev.
    + now rewrite lenN_rev.
Qed.

Lemma sound_list (Ps : list (val -> bool)) ds :
  Forall2 (fun P d => sound (fun v => P v = true) d) Ps ds ->
  sound (fun vs => all2 Ps vs = true) (dec_list ds).
Proof.
  induction 1 as [|P d Ps ds H _ IH]; cbn [dec_list].
  - now apply sound_ret.
  - apply (sound_bind (fun v => P v = true)); [assumption|]. intros v Hv.
    apply (sound_bind (fun vs => all2 Ps vs = true)); [assumption|]. intros vs Hvs.
    apply sound_ret. cbn. now rewrite Hv, Hvs.
Qed.

End Sound.

(** ** Decoders whose answer does not depend on the following bytes *)

Lemma ext_bind {A B} (d : dec A) (k : A * bytes -> res (B * bytes)) :
  extends d -> (forall a, extends (fun r => k (a, r))) ->
  extends (fun bs => bind (d bs) k).
Proof.
  intros Hd Hf bs v rest ext H. inv_bind H. destruct a as [a r].
  rewrite (Hd _ _ _ ext H0). cbn. apply (Hf a). exact H.
Qed.

Lemma ext_iter {S} (f : S * bytes -> res (S * bytes)) :
  (forall s, extends (fun bs => f (s, bs))) ->
  forall n s, extends (fun bs => iterN n f (s, bs)).
Proof.
  intros Hf n s bs v rest ext. rewrite !iterN_nat. generalize (N.to_nat n) as m. clear n.
  intros m. revert s bs v rest.
  induction m as [|m IH]; intros s bs v rest H.
  - cbn in *. now inversion H.
  - cbn [iter_nat] in *. inv_bind H. destruct a as [s' r].
    rewrite (Hf s bs s' r ext H0). cbn [bind]. now apply (IH s').
Qed.

Lemma ext_count d n : extends d -> extends (dec_count n d).
Proof.
  intros Hd. unfold dec_count. apply ext_bind.
  - apply (ext_iter (fun s : list val * bytes => let* (v, r) := d (snd s) in Ok (v :: fst s, r))).
    intros s. cbn [snd fst]. apply ext_bind; [assumption|]. intros a. apply extends_ret.
  - intros a. apply extends_ret.
Qed.

Lemma ext_list ds : Forall extends ds -> extends (dec_list ds).
Proof.
  induction 1 as [|d ds H _ IH]; cbn [dec_list]; [apply extends_ret|].
  apply ext_bind; [assumption|]. intros v. apply ext_bind; [assumption|]. intros vs. apply extends_ret.
Qed.

Lemma Forall_firstn {A} (P : A -> Prop) n l : Forall P l -> Forall P (firstn n l).
Proof.
  revert n; induction l as [|x l IH]; intros n H; destruct n; cbn; auto.
  inversion H; subst. constructor; auto.
Qed.

Lemma Forall_map_in {A B} (P : B -> Prop) (f : A -> B) l :
  (forall x, In x l -> P (f x)) -> Forall P (map f l).
Proof.
  induction l as [|x l IH]; cbn; intros H; constructor.
  - apply H. now left.
  - apply IH. intros y Hy. apply H. now right.
Qed.

Lemma Forall2_map_in {A B C} (R : B -> C -> Prop) (f : A -> B) (g : A -> C) l :
  (forall x, In x l -> R (f x) (g x)) -> Forall2 R (map f l) (map g l).
Proof.
  induction l as [|x l IH]; cbn; intros H; constructor.
  - apply H. now left.
  - apply IH. intros y Hy. apply H. now right.
Qed.

(** ** Sets, maps and structs *)

Lemma set_insert_dom v s : In v (set_insert v s) /\ (forall x, In x (set_insert v s) -> x = v \/ In x s).
Proof.
  unfold set_insert. destruct (existsb (val_eqb v) s) eqn:E.
  - apply existsb_val in E. split; auto.
  - split; [apply in_or_app; right; now left|]. intros x Hx. apply in_app_or in Hx.
    destruct Hx as [Hx|[Hx|[]]]; auto.
Qed.

Lemma NoDup_snoc {A} (l : list A) x : NoDup l -> ~ In x l -> NoDup (l ++ [x]).
Proof.
  intros H Hx. induction H as [|y l Hy Hl IH]; cbn.
  - constructor; [auto|constructor].
  - constructor.
    + intros Hin. apply in_app_or in Hin. destruct Hin as [Hin|[->|[]]]; [contradiction|].
      apply Hx. now left.
    + apply IH. intros Hin. apply Hx. now right.
Qed.

Lemma set_insert_inv (P : val -> Prop) v s : P v -> Forall P s -> NoDup s ->
  Forall P (set_insert v s) /\ NoDup (set_insert v s) /\ lenN (set_insert v s) <= lenN s + 1.
Proof.
  intros Hv Hs Hd. unfold set_insert. destruct (existsb (val_eqb v) s) eqn:E.
  - repeat split; auto. lia.
  - repeat split.
    + apply Forall_app. split; [assumption|]. now constructor.
    + apply NoDup_snoc; [assumption|]. intros Hin. apply existsb_val in Hin. congruence.
    + rewrite lenN_app. cbn. lia.
Qed.

Lemma map_insert_keys k v m : forall x, In x (map fst (map_insert k v m)) -> x = k \/ In x (map fst m).
Proof.
  induction m as [|[k' v'] m IH]; cbn; intros x.
  - intros [H|[]]; auto.
  - destruct (val_eqb k k') eqn:E; cbn.
    + intros [H|H]; auto.
    + intros [H|H]; auto. destruct (IH x H); auto.
Qed.

Lemma map_insert_inv (P : val * val -> Prop) k v m :
  P (k, v) -> Forall P m -> NoDup (map fst m) ->
  Forall P (map_insert k v m) /\ NoDup (map fst (map_insert k v m)) /\
  lenN (map_insert k v m) <= lenN m + 1.
Proof.
  intros Hp. induction m as [|[k' v'] m IH]; cbn [map_insert]; intros Hm Hd.
  - repeat split; [now constructor|repeat constructor; intros []|cbn; lia].
  - inversion Hm; subst. cbn [map fst] in Hd. inversion Hd; subst.
    destruct (val_eqb k k') eqn:E.
    + apply val_eqb_eq in E. subst k'. repeat split; [now constructor| |rewrite !lenN_cons; lia].
      cbn. now constructor.
    + destruct (IH H2 H4) as [H5 [H6 H7]]. repeat split; [now constructor| |rewrite !lenN_cons; lia].
      cbn. constructor; [|assumption]. intros Hin. apply map_insert_keys in Hin.
      apply val_eqb_neq in E. destruct Hin; [congruence|contradiction].
Qed.

Section Sound2.
Context {pan : Prop}.
Local Notation sound := (soundx pan).

Lemma sound_set p (P : val -> bool) d n :
  sound (fun v => P v = true) d -> n < 2 ^ usize_bits p ->
  sound (fun vs => forallb P vs && len_ok p vs && distinct vs = true)
    (fun bs => iterN n (set_step d) ([], bs)).
Proof.
  intros Hd Hn. apply (sound_weaken (fun vs => Forall (fun v => P v = true) vs /\ NoDup vs /\ lenN vs <= 0 + n)).
  - intros vs (H1 & H2 & H3). rewrite !andb_true_iff. split; [split|].
    + rewrite forallb_forall. now rewrite Forall_forall in H1.
    + unfold len_ok. lia.
    + now apply distinct_NoDup.
  - apply (sound_iter (fun k vs => Forall (fun v => P v = true) vs /\ NoDup vs /\ lenN vs <= k) (set_step d)).
    + intros k s (H1 & H2 & H3). unfold set_step. cbn [fst snd].
      apply (sound_bind (fun v => P v = true)); [assumption|]. intros v Hv. apply sound_ret.
      destruct (set_insert_inv (fun v => P v = true) v s Hv H1 H2) as (H4 & H5 & H6).
      repeat split; auto. lia.
    + repeat split; [constructor|constructor|cbn; lia].
Qed.

Lemma sound_map p (Pk Pv : val -> bool) dk dv n :
  sound (fun v => Pk v = true) dk -> sound (fun v => Pv v = true) dv -> n < 2 ^ usize_bits p ->
  sound (fun kvs => forallb (fun kv => Pk (fst kv) && Pv (snd kv)) kvs && len_ok p kvs
                    && distinct (map fst kvs) = true)
    (fun bs => iterN n (map_step dk dv) ([], bs)).
Proof.
  intros Hk Hv Hn.
  apply (sound_weaken (fun kvs => Forall (fun kv => Pk (fst kv) && Pv (snd kv) = true) kvs
                                  /\ NoDup (map fst kvs) /\ lenN kvs <= 0 + n)).
  - intros vs (H1 & H2 & H3). rewrite !andb_true_iff. split; [split|].
    + rewrite forallb_forall. now rewrite Forall_forall in H1.
    + unfold len_ok. lia.
    + now apply distinct_NoDup.
  - apply (sound_iter (fun m kvs => Forall (fun kv => Pk (fst kv) && Pv (snd kv) = true) kvs
                                  /\ NoDup (map fst kvs) /\ lenN kvs <= m) (map_step dk dv)).
    + intros m s (H1 & H2 & H3). unfold map_step. cbn [fst snd].
      apply (sound_bind (fun v => Pk v = true)); [assumption|]. intros k Hkk.
      apply (sound_bind (fun v => Pv v = true)); [assumption|]. intros v Hvv. apply sound_ret.
      destruct (map_insert_inv (fun kv => Pk (fst kv) && Pv (snd kv) = true) k v s) as (H4 & H5 & H6); auto.
      * cbn. now rewrite Hkk, Hvv.
      * repeat split; auto. lia.
    + repeat split; [constructor|constructor|cbn; lia].
Qed.

End Sound2.

(** Slots hold values of the fields' types. *)
Definition slots_ok (Ps : list (val -> bool)) (s : slots) : Prop :=
  Forall2 (fun P x => match x with Some v => P v = true | None => True end) Ps s.

Lemma set_slot_ok Ps s i P v : slots_ok Ps s -> nth_error Ps i = Some P -> P v = true ->
  slots_ok Ps (set_slot i v s).
Proof.
  intros H. revert i. induction H as [|P' x Ps s Hx Hr IH]; intros i Hi Hv; [destruct i; discriminate|].
  destruct i as [|i]; cbn in *.
  - inversion Hi; subst. constructor; assumption.
  - constructor; [assumption|]. now apply IH.
Qed.

Lemma slots_ok_none Ps : slots_ok Ps (map (fun _ => None) Ps).
Proof. induction Ps; constructor; auto. Qed.

Lemma fill_ok fs Ps s vs : slots_ok Ps s -> length fs = length Ps ->
  (forall f P d, In (f, P) (combine fs Ps) -> fdefault f = Some d -> P d = true) ->
  fill fs s = Ok vs -> all2 Ps vs = true.
Proof.
  revert Ps s vs; induction fs as [|f fs IH]; intros Ps s vs Hs Hl Hd Hf; cbn in Hl.
  - destruct Ps; [|discriminate]. inversion Hs; subst. cbn in Hf. inversion Hf. reflexivity.
  - destruct Ps as [|P Ps]; [discriminate|]. inversion Hs as [|? x ? s' Hx Hs']; subst. cbn in Hf.
    inv_bind Hf. inv_bind Hf. inversion Hf; subst. cbn. apply andb_true_iff. split.
    + destruct x as [v|]; [inversion Hf0; subst; assumption|].
      destruct (fdefault f) as [d|] eqn:E; [|discriminate]. inversion Hf0; subst.
      apply (Hd f P a); [now left|assumption].
    + apply (IH Ps s'); auto. intros g Q d Hin. apply (Hd g Q d). now right.
Qed.

Lemma fill_no_panic fs s : fill fs s <> Panic.
Proof.
  revert s; induction fs as [|f fs IH]; intros [|x s]; cbn; try discriminate.
  assert (H : match x with Some v => Ok v | None => match fdefault f with Some d => Ok d | None => Err end end <> Panic)
    by (destruct x; [discriminate|destruct (fdefault f); discriminate]).
  destruct (match x with Some v => Ok v | None => _ end); cbn; try congruence.
  specialize (IH s). destruct (fill fs s); cbn; congruence.
Qed.

Lemma sound_field {pan : Prop} (Ps : list (val -> bool)) (Qk : val -> Prop) dk names ds skip :
  soundx pan Qk dk -> soundx pan (fun _ => True) skip ->
  Forall2 (fun P d => soundx pan (fun v => P v = true) d) Ps ds ->
  forall s, slots_ok Ps s -> soundx pan (slots_ok Ps) (fun bs => dec_field dk names ds skip (s, bs)).
Proof.
  intros Hk Hsk Hds s Hs. unfold dec_field. cbn [fst snd].
  apply (sound_bind Qk); [assumption|]. intros k _. cbn beta iota.
  destruct (find_name k names) as [i|].
  - destruct (nth_error ds i) as [d|] eqn:Ed; [|apply sound_err].
    assert (HP : exists P, nth_error Ps i = Some P /\ soundx pan (fun v => P v = true) d).
    { clear - Hds Ed. revert i Ed. induction Hds as [|P d' Ps ds H _ IH]; intros [|i] Ed; try discriminate.
      - cbn in Ed. inversion Ed; subst. exists P. auto.
      - cbn in Ed. apply IH in Ed. exact Ed. }
    destruct HP as [P [HP Hd]].
    apply (sound_bind (fun v => P v = true)); [assumption|]. intros v Hv. apply sound_ret.
    now apply (set_slot_ok Ps s i P v).
  - apply (sound_bind (fun _ : unit => True)); [assumption|]. intros u _. now apply sound_ret.
Qed.

Lemma ext_field dk names ds skip : extends dk -> extends skip -> Forall extends ds ->
  forall s, extends (fun bs => dec_field dk names ds skip (s, bs)).
Proof.
  intros Hk Hsk Hds s. unfold dec_field. cbn [fst snd].
  apply ext_bind; [assumption|]. intros k. cbn beta iota.
  destruct (find_name k names) as [i|].
  - destruct (nth_error ds i) as [d|] eqn:Ed; [|apply extends_err].
    apply nth_error_In in Ed. rewrite Forall_forall in Hds.
    apply ext_bind; [now apply Hds|]. intros v. apply extends_ret.
  - apply ext_bind; [assumption|]. intros u. apply extends_ret.
Qed.

(** Without panics at all. *)
Notation sound := (soundx False).
