(** Strings over [System]. *)
From Verif Require Import Base Utf8 System SystemSpec SysString SysStringSpec BaseFacts Utf8Facts SystemFacts.
From Coq Require Import ZifyBool ZifyNat ZifyN.
Local Open Scope N_scope.

Definition bytes_of (x : thing) : bytes := match x with Text s => str_bytes s | Bytes xs => xs end.
Definition kind_of (x : thing) : kind := match x with Text _ => KString | Bytes _ => KBytes end.
Definition good (x : thing) : Prop := match x with Text s => chars s | Bytes _ => True end.
Definition under (x : option thing) : option (ety * list item) := option_map (fun x => (u8t, bytes_of x)) x.

Definition fits (ks : list kind) (ts : list (option thing)) : Prop :=
  length ks = length ts /\ forall i x, thing_at ts i x -> nth_error ks i = Some (kind_of x) /\ good x.

Definition trel (w : tworld) (ts : list (option thing)) : Prop :=
  exists lw, related (t_world w) lw /\ l_vecs lw = map under ts /\ fits (t_kinds w) ts.

Lemma trel_empty : trel tworld_empty [].
Proof. exists no_lists. split; [apply related_empty|]. split; [reflexivity|]. split; [reflexivity|]. intros [|i] x H; discriminate. Qed.

Lemma u8_sized : sized u8t.
Proof. repeat split; cbn; discriminate. Qed.

Lemma map_set_at {A B} (f : A -> B) l i x : map f (set_at l i x) = set_at (map f l) i (f x).
Proof. revert i. induction l as [|y l IH]; intros [|i]; cbn; try reflexivity. now rewrite IH. Qed.

Lemma str_app a b : str_bytes (a ++ b) = str_bytes a ++ str_bytes b.
Proof. unfold str_bytes. apply flat_map_app. Qed.

Lemma chars_ok s : forallb char_valid s = true <-> chars s.
Proof. unfold chars. rewrite Forall_forall, forallb_forall. reflexivity. Qed.

Lemma pieces_ok ps : forallb (forallb char_valid) ps = true <-> Forall chars ps.
Proof.
  rewrite Forall_forall, forallb_forall. split; intros H x I; apply chars_ok; now apply H.
Qed.

Lemma at_list lw ts i x : l_vecs lw = map under ts -> thing_at ts i x -> list_at lw i u8t (bytes_of x).
Proof. intros E H. unfold list_at. rewrite E, nth_error_map, H. reflexivity. Qed.

Lemma list_thing lw ts i t xs : l_vecs lw = map under ts -> list_at lw i t xs ->
  exists x, thing_at ts i x /\ t = u8t /\ xs = bytes_of x.
Proof.
  intros E H. unfold list_at in H. rewrite E, nth_error_map in H. unfold thing_at. destruct (nth_error ts i) as [[x|]|]; try discriminate.
  cbn in H. injection H as <- <-. exists x. auto.
Qed.

Lemma fits_add ks ts x : fits ks ts -> (forall y, x = Some y -> good y) ->
  forall k, (forall y, x = Some y -> k = kind_of y) -> fits (ks ++ [k]) (ts ++ [x]).
Proof.
  intros [L F] G k K. split; [rewrite !app_length; cbn; lia|]. intros i y H. unfold thing_at in H.
  destruct (Nat.ltb i (length ts)) eqn:E.
  - apply Nat.ltb_lt in E. rewrite nth_error_app1 in * by lia. apply F. exact H.
  - apply Nat.ltb_ge in E. rewrite nth_error_app2 in * by lia. rewrite L.
    destruct (i - length ts)%nat as [|j]; [|destruct j; discriminate]. cbn in *. injection H as ->.
    split; [rewrite (K y eq_refl); reflexivity|]. now apply G.
Qed.

Lemma fits_put ks ts i x k : fits ks ts -> (exists y, thing_at ts i y) ->
  (forall y, x = Some y -> good y /\ k = kind_of y) -> fits (set_at ks i k) (set_at ts i x).
Proof.
  intros [L F] (z & Hz) G. split; [rewrite !set_at_length; assumption|]. intros j y H. unfold thing_at in H. rewrite set_at_nth in H.
  rewrite set_at_nth. destruct (Nat.eqb_spec i j) as [<-|N].
  - destruct (F i z Hz) as [K _]. rewrite K. unfold thing_at in Hz. rewrite Hz in H. injection H as ->. destruct (G y eq_refl) as [G1 ->]. auto.
  - apply F. exact H.
Qed.

Lemma fits_same ks ts i x y : fits ks ts -> thing_at ts i y -> (forall z, x = Some z -> good z /\ kind_of z = kind_of y) ->
  fits ks (set_at ts i x).
Proof.
  intros F H G. destruct (proj2 F i y H) as [K _]. rewrite <- (set_at_same ks i (kind_of y) K).
  apply fits_put; [assumption|eauto|]. intros z E. destruct (G z E). auto.
Qed.

Lemma handle_ok w ts lw i x : related (t_world w) lw -> l_vecs lw = map under ts -> fits (t_kinds w) ts -> thing_at ts i x ->
  exists v, handle w i (kind_of x) = Some v /\ svec_items (w_heap (t_world w)) v = SDone (bytes_of x).
Proof.
  intros R E F H. pose proof (at_list lw ts i x E H) as L. destruct (winv_at _ _ _ _ _ _ (proj1 R) L) as (v & Hv & V).
  exists v. unfold handle. rewrite (proj1 (proj2 F i x H)). split; [|exact (svec_items_ok _ _ _ _ V)].
  destruct (kind_of x); cbn [kind_eqb]; now apply vec_at_nth.
Qed.

Lemma handle_thing w ts lw i k v : related (t_world w) lw -> l_vecs lw = map under ts -> fits (t_kinds w) ts ->
  handle w i k = Some v -> exists x, thing_at ts i x /\ kind_of x = k.
Proof.
  intros R E F H. unfold handle in H. destruct (nth_error (t_kinds w) i) as [k'|] eqn:K; [|discriminate].
  destruct (kind_eqb k k') eqn:B; [|discriminate]. destruct (vec_at_list _ _ _ _ R H) as (t & xs & L & _).
  destruct (list_thing _ _ _ _ _ E L) as (x & Hx & _). exists x. split; [assumption|].
  destruct (proj2 F i x Hx) as [K' _]. rewrite K in K'. injection K' as ->. destruct k, (kind_of x); cbn in B; congruence.
Qed.

Lemma slice_step env dbg sw lw i xs ys : related sw lw -> list_at lw i u8t xs ->
  exists r sw' lw', sstep env dbg sw (PExtendFromSlice i ys) = SDone (r, sw') /\ related sw' lw' /\
    ((r = RDone /\ l_vecs lw' = set_at (l_vecs lw) i (Some (u8t, xs ++ ys))) \/ (r = RFailed /\ l_vecs lw' = l_vecs lw)).
Proof.
  intros R L. destruct (step_ok env dbg sw lw (PExtendFromSlice i ys) R) as (r & sw' & lw' & E & C & R'); [constructor|exists u8t, xs; split; [exact L|reflexivity]|].
  exists r, sw', lw'. split; [exact E|]. split; [exact R'|]. inversion C as [| | | | | | | |? ? t zs ? L' ?|? ? t zs ? L' ?| | | | | | | |]; subst.
  - left. split; [reflexivity|]. unfold list_at in L, L'. rewrite L in L'. injection L' as <- <-. reflexivity.
  - right. split; reflexivity.
Qed.

Lemma drop_step env dbg sw lw i xs : related sw lw -> list_at lw i u8t xs ->
  exists sw' lw', sstep env dbg sw (PDrop i) = SDone (RDone, sw') /\ related sw' lw' /\ l_vecs lw' = set_at (l_vecs lw) i None.
Proof.
  intros R L. destruct (step_ok env dbg sw lw (PDrop i) R) as (r & sw' & lw' & E & C & R'); [constructor|exists u8t, xs; exact L|].
  inversion C; subst. exists sw', (gone (put lw i None) t xs0). auto.
Qed.

Lemma pieces_step env dbg i : forall ps sw lw xs, related sw lw -> list_at lw i u8t xs ->
  exists r sw' lw', write_pieces env dbg sw i ps = SDone (r, sw') /\ related sw' lw' /\
    ((r = RDone /\ l_vecs lw' = set_at (l_vecs lw) i (Some (u8t, xs ++ str_bytes (concat ps)))) \/
     (r = RFailed /\ exists ys, l_vecs lw' = set_at (l_vecs lw) i (Some (u8t, ys)))).
Proof.
  induction ps as [|s ps IH]; intros sw lw xs R L; cbn [write_pieces concat].
  - exists RDone, sw, lw. split; [reflexivity|]. split; [assumption|]. left. split; [reflexivity|]. cbn. rewrite app_nil_r. symmetry. now apply set_at_same.
  - unfold string_push_str. destruct (slice_step env dbg sw lw i xs (str_bytes s) R L) as (r & sw1 & lw1 & -> & R1 & [(-> & E1)|(-> & E1)]); cbn [sbind].
    + assert (L1 : list_at lw1 i u8t (xs ++ str_bytes s)).
      { unfold list_at. rewrite E1, set_at_nth, Nat.eqb_refl. unfold list_at in L. rewrite L. reflexivity. }
      destruct (IH sw1 lw1 _ R1 L1) as (r & sw2 & lw2 & E2 & R2 & H). exists r, sw2, lw2. split; [exact E2|]. split; [exact R2|].
      rewrite E1 in H. destruct H as [(-> & H)|(-> & ys & H)].
      * left. split; [reflexivity|]. rewrite set_at_twice in H. now rewrite str_app, app_assoc.
      * right. split; [reflexivity|]. rewrite set_at_twice in H. exists ys. exact H.
    + exists RFailed, sw1, lw1. split; [reflexivity|]. split; [assumption|]. right. split; [reflexivity|]. exists xs. rewrite E1. symmetry. now apply set_at_same.
Qed.

Lemma under_set ts lw i x : l_vecs lw = map under ts -> forall y, under x = y -> set_at (l_vecs lw) i y = map under (set_at ts i x).
Proof. intros E y <-. now rewrite map_set_at, E. Qed.

Lemma not_utf8 xs : utf8_valid xs = false -> forall s, chars s -> str_bytes s <> xs.
Proof. intros H s C E. pose proof (utf8_flat s C) as U. unfold str_bytes in E. rewrite E in U. congruence. Qed.

Lemma new_step env dbg sw lw : related sw lw ->
  exists sw' lw', sstep env dbg sw (PNew u8t) = SDone (RDone, sw') /\ related sw' lw' /\ l_vecs lw' = l_vecs lw ++ [Some (u8t, [])].
Proof.
  intros R. destruct (step_ok env dbg sw lw (PNew u8t) R) as (r & sw' & lw' & E & C & R'); [constructor; [apply u8_sized|constructor]|exact I|].
  inversion C; subst. eexists _, _. split; [exact E|]. split; [exact R'|reflexivity].
Qed.

Lemma tstep_ok env dbg w ts o : trel w ts -> tallowed ts o ->
  exists r w' ts', tstep env dbg w o = SDone (r, w') /\ tcall ts o r ts' /\ trel w' ts'.
Proof.
  intros (lw & R & E & F) A. destruct w as [sw ks]. cbn [t_world t_kinds] in *.
  destruct o as [|n|s cap|i c|i s'|i|i|i|i|i|ps| |i ys]; cbn [tstep t_world t_kinds tallowed] in *.
  - destruct (new_step env dbg sw lw R) as (sw' & lw' & -> & R' & E'). cbn [sbind strreply_of]. eexists _, _, _. split; [reflexivity|]. split; [apply tc_new|].
    exists lw'. split; [exact R'|]. split; [rewrite E', E, map_app; reflexivity|]. apply fits_add; [exact F| |]; intros y [= <-]; [constructor|reflexivity].
  - destruct (step_ok env dbg sw lw (PWithCapacity u8t n) R) as (r & sw' & lw' & -> & C & R'); [constructor; [apply u8_sized|constructor]|exact I|].
    cbn [sbind]. inversion C; subst; cbn [strreply_of]; eexists _, _, _; (split; [reflexivity|]).
    + split; [apply tc_with|]. eexists. split; [exact R'|]. split; [cbn [add l_vecs]; rewrite E, map_app; reflexivity|].
      apply fits_add; [exact F| |]; intros y [= <-]; [constructor|reflexivity].
    + split; [apply tc_with_fails|]. eexists. split; [exact R'|]. split; [cbn [add l_vecs]; rewrite E, map_app; reflexivity|].
      apply fits_add; [exact F| |]; intros y [=].
  - destruct A as (A1 & A2 & A3). rewrite (proj2 (chars_ok s) A1). cbn [negb].
    destruct (step_ok env dbg sw lw (PFromStd u8t (str_bytes s) cap) R) as (r & sw' & lw' & -> & C & R').
    { constructor; [apply u8_sized|constructor]. }
    { cbn. split; [exact A2|]. unfold isize_max in *. lia. }
    cbn [sbind]. inversion C; subst; cbn [strreply_of]; eexists _, _, _; (split; [reflexivity|]).
    split; [apply tc_from_std|]. eexists. split; [exact R'|]. split; [cbn [add l_vecs]; rewrite E, map_app; reflexivity|].
    apply fits_add; [exact F| |]; intros y [= <-]; [assumption|reflexivity].
  - destruct A as (Ac & s & A). destruct (handle_ok (mktw sw ks) ts lw i _ R E F A) as (v & Hv & _). cbn [kind_of] in Hv. rewrite Hv, Ac. cbn [negb].
    pose proof (proj2 (proj2 F i _ A)) as G. cbn [good] in G.
    destruct (slice_step env dbg sw lw i _ (utf8_enc c) R (at_list _ _ _ _ E A)) as (r & sw' & lw' & -> & R' & [(-> & E')|(-> & E')]); cbn [sbind strreply_of];
      eexists _, _, _; (split; [reflexivity|]).
    + split; [eapply tc_push; exact A|]. exists lw'. split; [exact R'|]. split.
      * rewrite E'. apply under_set; [exact E|]. cbn [under option_map bytes_of]. rewrite str_app. cbn. now rewrite app_nil_r.
      * eapply fits_same; [exact F|exact A|]. intros z [= <-]. split; [|reflexivity]. apply Forall_app. split; [exact G|]. constructor; [exact Ac|constructor].
    + split; [eapply tc_push_fails; exact A|]. exists lw'. split; [exact R'|]. split; [rewrite E'; exact E|exact F].
  - destruct A as (Ac & s & A). destruct (handle_ok (mktw sw ks) ts lw i _ R E F A) as (v & Hv & _). cbn [kind_of] in Hv. rewrite Hv, (proj2 (chars_ok s') Ac). cbn [negb].
    pose proof (proj2 (proj2 F i _ A)) as G. cbn [good] in G. unfold string_push_str.
    destruct (slice_step env dbg sw lw i _ (str_bytes s') R (at_list _ _ _ _ E A)) as (r & sw' & lw' & -> & R' & [(-> & E')|(-> & E')]); cbn [sbind strreply_of];
      eexists _, _, _; (split; [reflexivity|]).
    + split; [eapply tc_push_str; exact A|]. exists lw'. split; [exact R'|]. split.
      * rewrite E'. apply under_set; [exact E|]. cbn [under option_map bytes_of]. now rewrite str_app.
      * eapply fits_same; [exact F|exact A|]. intros z [= <-]. split; [|reflexivity]. apply Forall_app. split; [exact G|exact Ac].
    + split; [eapply tc_push_str_fails; exact A|]. exists lw'. split; [exact R'|]. split; [rewrite E'; exact E|exact F].
  - destruct A as (s & A). destruct (handle_ok (mktw sw ks) ts lw i _ R E F A) as (v & Hv & Hi). cbn [kind_of bytes_of t_world] in Hv, Hi. rewrite Hv, Hi. cbn [sbind].
    pose proof (proj2 (proj2 F i _ A)) as G. cbn [good] in G. unfold unchecked. unfold str_bytes at 1. rewrite (utf8_flat s G). cbn [sbind].
    eexists _, _, _. split; [reflexivity|]. split; [apply tc_as_str; exact A|]. exists lw. auto.
  - destruct A as (s & A). destruct (handle_ok (mktw sw ks) ts lw i _ R E F A) as (v & Hv & Hi). cbn [kind_of] in Hv. rewrite Hv.
    eexists _, _, _. split; [reflexivity|]. split; [apply tc_into_bytes; exact A|]. exists lw. split; [exact R|]. cbn [t_kinds]. split.
    + rewrite <- (under_set ts lw i (Some (Bytes (str_bytes s))) E _ eq_refl). symmetry. apply set_at_same. apply (at_list _ _ _ _ E A).
    + apply fits_put; [exact F|eauto|]. intros y [= <-]. split; [exact I|reflexivity].
  - destruct A as (xs & A). destruct (handle_ok (mktw sw ks) ts lw i _ R E F A) as (v & Hv & Hi). cbn [kind_of bytes_of t_world] in Hv, Hi. rewrite Hv, Hi. cbn [sbind].
    destruct (utf8_valid xs) eqn:U.
    + destruct (utf8_chars xs U) as (s & Hs & ->). eexists _, _, _. split; [reflexivity|]. split; [apply (tc_from_utf8 ts i s); assumption|].
      exists lw. split; [exact R|]. cbn [t_kinds]. split.
      * rewrite <- (under_set ts lw i (Some (Text s)) E _ eq_refl). symmetry. apply set_at_same. apply (at_list _ _ _ _ E A).
      * apply fits_put; [exact F|eauto|]. intros y [= <-]. split; [exact Hs|reflexivity].
    + eexists _, _, _. split; [reflexivity|]. split; [eapply tc_not_utf8; [exact A|now apply not_utf8]|]. exists lw. auto.
  - destruct A as (s & A). destruct (handle_ok (mktw sw ks) ts lw i _ R E F A) as (v & Hv & Hi). cbn [kind_of] in Hv. rewrite Hv.
    pose proof (at_list _ _ _ _ E A) as L. cbn [bytes_of] in L.
    destruct (step_ok env dbg sw lw (PIntoStd i) R) as (r & sw' & lw' & -> & C & R'); [constructor|eexists _, _; exact L|].
    cbn [sbind]. inversion C as [| | | | | | | | | | | | | | | |? ? t zs cap L' Hc|]; subst. unfold list_at in L, L'. rewrite L in L'. injection L' as <- <-.
    pose proof (proj2 (proj2 F i _ A)) as G. cbn [good] in G. unfold unchecked. unfold str_bytes at 1. rewrite (utf8_flat s G). cbn [sbind].
    eexists _, _, _. split; [reflexivity|]. split; [apply tc_into_std; assumption|]. eexists. split; [exact R'|]. split.
    + cbn [put l_vecs]. apply under_set; [exact E|reflexivity].
    + eapply fits_same; [exact F|exact A|]. intros z [=].
  - destruct A as (x & A). rewrite (proj1 (proj2 F i x A)). destruct (drop_step env dbg sw lw i _ R (at_list _ _ _ _ E A)) as (sw' & lw' & -> & R' & E').
    cbn [sbind strreply_of]. eexists _, _, _. split; [reflexivity|]. split; [eapply tc_drop; exact A|]. exists lw'. split; [exact R'|]. split.
    + rewrite E'. apply under_set; [exact E|reflexivity].
    + eapply fits_same; [exact F|exact A|]. intros z [=].
  - rewrite (proj2 (pieces_ok ps) A). cbn [negb].
    destruct (new_step env dbg sw lw R) as (sw1 & lw1 & -> & R1 & E1). cbn [sbind].
    assert (Lw : length (w_vecs sw) = length (l_vecs lw)) by (destruct R as [[W _ _ _] _]; exact W).
    assert (L1 : list_at lw1 (length (w_vecs sw)) u8t []).
    { unfold list_at. rewrite E1, Lw, nth_error_app2, Nat.sub_diag by lia. reflexivity. }
    destruct (pieces_step env dbg _ ps sw1 lw1 [] R1 L1) as (r & sw2 & lw2 & -> & R2 & [(-> & E2)|(-> & ys & E2)]); cbn [sbind].
    + eexists _, _, _. split; [reflexivity|]. split; [apply tc_collect|]. exists lw2. split; [exact R2|]. split.
      * rewrite E2, E1, Lw, set_at_end, E, map_app. reflexivity.
      * apply fits_add; [exact F| |]; intros y [= <-]; [|reflexivity]. cbn [good]. clear - A. induction A as [|s ps H _ IH]; [constructor|]. apply Forall_app. auto.
    + assert (L2 : list_at lw2 (length (w_vecs sw)) u8t ys).
      { unfold list_at. rewrite E2, set_at_nth, Nat.eqb_refl. unfold list_at in L1. rewrite L1. reflexivity. }
      destruct (drop_step env dbg sw2 lw2 _ _ R2 L2) as (sw3 & lw3 & -> & R3 & E3). cbn [sbind].
      eexists _, _, _. split; [reflexivity|]. split; [apply tc_collect_fails|]. exists lw3. split; [exact R3|]. split.
      * rewrite E3, E2, set_at_twice, E1, Lw, set_at_end, E, map_app. reflexivity.
      * apply fits_add; [exact F| |]; intros y [=].
  - destruct (new_step env dbg sw lw R) as (sw' & lw' & -> & R' & E'). cbn [sbind strreply_of]. eexists _, _, _. split; [reflexivity|]. split; [apply tc_new_bytes|].
    exists lw'. split; [exact R'|]. split; [rewrite E', E, map_app; reflexivity|]. apply fits_add; [exact F| |]; intros y [= <-]; [constructor|reflexivity].
  - destruct A as (xs & A). destruct (handle_ok (mktw sw ks) ts lw i _ R E F A) as (v & Hv & _). cbn [kind_of] in Hv. rewrite Hv.
    destruct (slice_step env dbg sw lw i _ ys R (at_list _ _ _ _ E A)) as (r & sw' & lw' & -> & R' & [(-> & E')|(-> & E')]); cbn [sbind strreply_of];
      eexists _, _, _; (split; [reflexivity|]).
    + split; [eapply tc_extend; exact A|]. exists lw'. split; [exact R'|]. split.
      * rewrite E'. apply under_set; [exact E|reflexivity].
      * eapply fits_same; [exact F|exact A|]. intros z [= <-]. split; [exact I|reflexivity].
    + split; [eapply tc_extend_fails; exact A|]. exists lw'. split; [exact R'|]. split; [rewrite E'; exact E|exact F].
Qed.

Lemma tnot_allowed env dbg w ts o : trel w ts -> tstep env dbg w o <> SPanic -> tallowed ts o.
Proof.
  intros (lw & R & E & F). destruct w as [sw ks].
  assert (K : forall i k, (handle (mktw sw ks) i k = None) \/ exists x, thing_at ts i x /\ kind_of x = k).
  { intros i k. destruct (handle (mktw sw ks) i k) eqn:H; [|auto]. right. exact (handle_thing (mktw sw ks) ts lw i k _ R E F H). }
  assert (KT : forall i, handle (mktw sw ks) i KString = None \/ exists s, thing_at ts i (Text s)).
  { intros i. destruct (K i KString) as [H|([s|xs] & H & Q)]; [auto|eauto|discriminate]. }
  assert (KB : forall i, handle (mktw sw ks) i KBytes = None \/ exists s, thing_at ts i (Bytes s)).
  { intros i. destruct (K i KBytes) as [H|([s|xs] & H & Q)]; [auto|discriminate|eauto]. }
  destruct o as [|n|s cap|i c|i s'|i|i|i|i|i|ps| |i ys]; cbn [tstep t_world t_kinds tallowed]; try exact (fun _ => I).
  - destruct (forallb char_valid s) eqn:C; [|contradiction]. cbn [negb sstep e_size e_align u8t]. intros H. apply chars_ok in C. split; [exact C|].
    match type of H with context [if ?b then _ else _] => destruct b eqn:D end; [contradiction|]. apply orb_false_iff in D as [D1 D2]. apply N.ltb_ge in D1, D2. rewrite N.mul_1_r in D2. split; [exact D1|]. apply (N.le_trans _ _ _ D2). apply N.le_sub_l.
  - destruct (KT i) as [->|H]; [contradiction|]. destruct (handle _ i KString); [|contradiction]. destruct (char_valid c); [auto|contradiction].
  - destruct (KT i) as [->|H]; [contradiction|]. destruct (handle _ i KString); [|contradiction]. destruct (forallb char_valid s') eqn:C; [|contradiction]. apply chars_ok in C. auto.
  - destruct (KT i) as [->|H]; [contradiction|]. auto.
  - destruct (KT i) as [->|H]; [contradiction|]. auto.
  - destruct (KB i) as [->|H]; [contradiction|]. auto.
  - destruct (KT i) as [->|H]; [contradiction|]. auto.
  - destruct (nth_error ks i); [|contradiction]. cbn [sstep]. destruct (vec_at sw i) as [v|] eqn:V; [|contradiction]. intros _.
    destruct (vec_at_list _ _ _ _ R V) as (t & xs & L & _). destruct (list_thing _ _ _ _ _ E L) as (x & Hx & _). eauto.
  - destruct (forallb (forallb char_valid) ps) eqn:C; [|contradiction]. intros _. now apply pieces_ok.
  - destruct (KB i) as [->|H]; [contradiction|]. auto.
Qed.

Lemma trun_ok env dbg ops : forall w ts, trel w ts ->
  (exists rs w' ts', trun env dbg w ops = SDone (rs, w') /\ tcalls ts ops rs ts' /\ trel w' ts') \/
  (exists pre o post rs ts', ops = pre ++ o :: post /\ tcalls ts pre rs ts' /\ ~ tallowed ts' o /\ trun env dbg w ops = SPanic).
Proof.
  induction ops as [|o ops IH]; intros w ts R; [left; exists [], w, ts; split; [reflexivity|]; split; [constructor|assumption]|]. cbn [trun].
  assert (D : tstep env dbg w o = SPanic \/ tstep env dbg w o <> SPanic) by (destruct (tstep env dbg w o) as [? | |]; [right|left|right]; congruence).
  destruct D as [D|D].
  - right. exists [], o, ops, [], ts. split; [reflexivity|]. split; [constructor|]. rewrite D. split; [|reflexivity].
    intros A. destruct (tstep_ok env dbg w ts o R A) as (r & w1 & ts1 & E & _). congruence.
  - destruct (tstep_ok env dbg w ts o R (tnot_allowed _ _ _ _ _ R D)) as (r & w1 & ts1 & -> & C & R1). cbn [sbind].
    destruct (IH w1 ts1 R1) as [(rs & w2 & ts2 & -> & C2 & R2)|(pre & o' & post & rs & ts2 & -> & C2 & N & ->)].
    + left. cbn [sbind]. eexists _, _, _. split; [reflexivity|]. split; [econstructor; eassumption|assumption].
    + right. exists (o :: pre), o', post, (r :: rs), ts2. split; [reflexivity|]. split; [econstructor; eassumption|]. split; [assumption|reflexivity].
Qed.

Lemma treach env dbg ops rs w : trun env dbg tworld_empty ops = SDone (rs, w) -> exists ts, tcalls [] ops rs ts /\ trel w ts.
Proof.
  intros E. destruct (trun_ok env dbg ops _ _ trel_empty) as [(rs' & w' & ts & E' & C & R)|(pre & o & post & rs' & ts & _ & _ & _ & E')]; [|congruence].
  rewrite E in E'. injection E' as <- <-. eauto.
Qed.

(** ** The order of strings is that of their characters. *)
Lemma enc_lt c d a b : char_valid c = true -> char_valid d = true -> c < d -> lex (utf8_enc c ++ a) (utf8_enc d ++ b) = Lt.
Proof.
  intros Hc Hd H. apply char_valid_iff in Hc, Hd. unfold utf8_enc.
  destruct (c <? 0x80) eqn:C1; [|destruct (c <? 0x800) eqn:C2; [|destruct (c <? 0x10000) eqn:C3]];
  (destruct (d <? 0x80) eqn:D1; [|destruct (d <? 0x800) eqn:D2; [|destruct (d <? 0x10000) eqn:D3]]);
  try (exfalso; lia); cbn [app lex];
  repeat (match goal with |- context [?x ?= ?y] => destruct (N.compare_spec x y) as [?|?|?] end; [|reflexivity|exfalso; lia]);
  exfalso; lia.
Qed.

Lemma lex_swap : forall a b, lex b a = CompOpp (lex a b).
Proof.
  induction a as [|x a IH]; intros [|y b]; cbn; try reflexivity. rewrite (N.compare_antisym x y).
  destruct (x ?= y); cbn; [apply IH|reflexivity|reflexivity].
Qed.

Lemma lex_app c : forall a b, lex (c ++ a) (c ++ b) = lex a b.
Proof. induction c as [|x c IH]; intros a b; cbn; [reflexivity|]. rewrite N.compare_refl. apply IH. Qed.

Lemma enc_ne c a : exists x r, utf8_enc c ++ a = x :: r.
Proof. pose proof (utf8_enc_length c) as H. destruct (utf8_enc c) as [|x r]; cbn in H; [lia|]. exists x, (r ++ a). reflexivity. Qed.

Lemma order s : forall s', chars s -> chars s' -> string_cmp (str_bytes s) (str_bytes s') = lex s s'.
Proof.
  unfold string_cmp, str_bytes. induction s as [|c s IH]; intros [|d s'] H H'; cbn [flat_map].
  - reflexivity.
  - destruct (enc_ne d (flat_map utf8_enc s')) as (x & r & ->). reflexivity.
  - destruct (enc_ne c (flat_map utf8_enc s)) as (x & r & ->). reflexivity.
  - inversion H; inversion H'; subst. cbn [lex]. destruct (N.compare_spec c d) as [<-|L|L].
    + rewrite lex_app. now apply IH.
    + now apply enc_lt.
    + rewrite lex_swap. now rewrite enc_lt.
Qed.

Lemma lex_eq : forall a b, lex a b = Eq <-> a = b.
Proof.
  induction a as [|x a IH]; intros [|y b]; cbn; try (split; [discriminate|discriminate]); [tauto|].
  destruct (N.compare_spec x y) as [<-|L|L].
  - rewrite IH. split; intros H; [now subst|now injection H].
  - split; [discriminate|]. intros [= -> _]. lia.
  - split; [discriminate|]. intros [= -> _]. lia.
Qed.

Lemma string_fails env dbg ops rs w o i s w' : trun env dbg tworld_empty ops = SDone (rs, w) ->
  (o = SPushStr i s \/ exists c, o = SPushChar i c /\ s = [c]) -> tstep env dbg w o = SDone (TFailed, w') ->
  (env (h_count (w_heap (t_world w))) = false /\ h_count (w_heap (t_world w')) = S (h_count (w_heap (t_world w)))) \/
  (h_count (w_heap (t_world w')) = h_count (w_heap (t_world w)) /\
     exists v, vec_at (t_world w) i = Some v /\ isize_max < N.max 8 (N.max (2 * svec_capacity v) (s_len v + lenN (str_bytes s)))).
Proof.
  intros E Ho E1. destruct (treach _ _ _ _ _ E) as (ts & _ & (lw & R & V & F)).
  assert (X : exists sw', sstep env dbg (t_world w) (PExtendFromSlice i (str_bytes s)) = SDone (RFailed, sw') /\ t_world w' = sw').
  { destruct Ho as [->|(c & -> & ->)]; cbn [tstep] in E1; destruct (handle w i KString); try discriminate.
    - destruct (forallb char_valid s); [|discriminate]. cbn [negb] in E1. unfold string_push_str in E1.
      destruct (sstep env dbg (t_world w) _) as [[r sw']| |]; try discriminate. cbn [sbind] in E1. exists sw'. destruct r; try discriminate. injection E1 as <-. auto.
    - destruct (char_valid c); [|discriminate]. cbn [negb] in E1. unfold str_bytes. cbn [flat_map]. rewrite app_nil_r.
      destruct (sstep env dbg (t_world w) _) as [[r sw']| |]; try discriminate. cbn [sbind] in E1. exists sw'. destruct r; try discriminate. injection E1 as <-. auto. }
  destruct X as (sw' & X & ->). destruct (fails_why env dbg (t_world w) lw (PExtendFromSlice i (str_bytes s)) sw' R (Forall_nil _) X) as [H|(H & t & n & As & L)]; [left; exact H|right].
  split; [exact H|]. inversion As as [| |? v ? Hv| |]; subst. exists v. split; [exact Hv|].
  destruct (vec_at_list _ _ _ _ R Hv) as (t' & xs & La & (Et & _)). destruct (list_thing _ _ _ _ _ V La) as (x & _ & -> & _).
  rewrite Et in L. cbn [e_size e_align u8t] in L. rewrite N.mul_1_r, N.sub_0_r in L. exact L.
Qed.
