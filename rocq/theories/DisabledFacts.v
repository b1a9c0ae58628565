(** Lemmas about [Disabled]. *)
From Coq Require Import Lia.
From Verif Require Import Base System SystemSpec Disabled DisabledSpec BaseFacts SystemFacts.
Local Open Scope N_scope.

Definition lists_of (w : dworld) : lists :=
  mkl (map (option_map (fun v => (d_ty v, @nil item))) (dw_vecs w)) (dw_log w).
Definition dempty (P : ety -> Prop) (o : option dvec) : Prop :=
  match o with Some v => d_len v = 0 /\ e_size (d_ty v) <> 0 /\ P (d_ty v) | None => True end.
Definition empties (P : ety -> Prop) (w : dworld) : Prop := Forall (dempty P) (dw_vecs w).

Lemma dvec_at_nth w i v : dvec_at w i = Some v <-> nth_error (dw_vecs w) i = Some (Some v).
Proof.
  unfold dvec_at. destruct (nth_error (dw_vecs w) i) as [[u|]|]; (split; intros E; [injection E as <-; reflexivity|]) || (split; discriminate).
  injection E as <-. reflexivity.
Qed.

Lemma at_empty (P : ety -> Prop) w i v : empties P w -> dvec_at w i = Some v -> d_len v = 0 /\ e_size (d_ty v) <> 0 /\ P (d_ty v).
Proof.
  intros H E. apply dvec_at_nth in E. apply nth_error_In in E. exact (proj1 (Forall_forall _ _) H _ E).
Qed.

Lemma at_list w i v : dvec_at w i = Some v -> list_at (lists_of w) i (d_ty v) [].
Proof. intros E. apply dvec_at_nth in E. unfold list_at, lists_of. cbn [l_vecs]. rewrite nth_error_map, E. reflexivity. Qed.

Lemma at_none w i t xs : dvec_at w i = None -> ~ list_at (lists_of w) i t xs.
Proof.
  unfold dvec_at, list_at, lists_of. cbn [l_vecs]. rewrite nth_error_map. destruct (nth_error (dw_vecs w) i) as [[u|]|]; cbn; congruence.
Qed.

Lemma list_of_at w i t xs : list_at (lists_of w) i t xs -> exists v, dvec_at w i = Some v /\ d_ty v = t /\ xs = [].
Proof.
  intros H. destruct (dvec_at w i) as [v|] eqn:E; [|destruct (at_none _ _ _ _ E H)].
  exists v. pose proof (at_list _ _ _ E) as H'. unfold list_at in *. rewrite H' in H. injection H as -> ->. auto.
Qed.

Lemma map_set_at {A B} (f : A -> B) l : forall i x, map f (set_at l i x) = set_at (map f l) i (f x).
Proof. induction l as [|y l IH]; intros [|i] x; cbn; [reflexivity..|]. f_equal. apply IH. Qed.

Lemma Forall_set_at {A} (P : A -> Prop) l : forall i x, P x -> Forall P l -> Forall P (set_at l i x).
Proof.
  induction l as [|y l IH]; intros [|i] x Hx H; cbn; [constructor..| |]; inversion H; subst; constructor; auto.
Qed.

Lemma set_same w i v : dvec_at w i = Some v -> set_at (dw_vecs w) i (Some v) = dw_vecs w.
Proof. intros E. apply dvec_at_nth in E. apply set_at_same, E. Qed.

Lemma len_same v : d_len v = 0 -> with_dlen v 0 = v.
Proof. destruct v. cbn. intros ->. reflexivity. Qed.

Lemma items_none v : d_len v = 0 -> e_size (d_ty v) <> 0 -> dvec_items v = SDone [].
Proof. intros E H. unfold dvec_items, dread. rewrite E. apply N.eqb_neq in H. rewrite H. reflexivity. Qed.

(** A call fails, which it may only do when the program cannot make it, or answers as above. *)
Lemma dstep_ok (P : ety -> Prop) dbg w o : (forall t, P t -> e_size t <> 0) -> empties P w -> Forall P (types_of o) ->
  (dstep dbg w o = SPanic /\ (takes_std o \/ ~ allowed (lists_of w) o)) \/
  (exists w', dstep dbg w o = SDone (answer o, w') /\ empties P w' /\ call (lists_of w) o (answer o) (lists_of w') /\ ~ takes_std o /\
     exists t, (P t \/ given o = []) /\ dw_log w' = dw_log w ++ (if e_copy t then [] else tag t (given o))).
Proof.
  intros HP HE HT.
  assert (noth : exists t : ety, e_copy t = true) by (exists (mke 1 1 true); reflexivity). destruct noth as (tc & Htc).
  assert (nolog : forall (log : list (ety * item)) o, given o = [] ->
     exists t, (P t \/ given o = []) /\ log = log ++ (if e_copy t then [] else tag t (given o))).
  { intros log o' Hg. exists tc. rewrite Htc, app_nil_r. auto. }
  assert (addv : forall x l, dempty P x -> empties P (mkdw (dw_vecs w ++ [x]) l)).
  { intros x l Hx. apply Forall_app. split; [exact HE|]. constructor; [exact Hx|constructor]. }
  assert (same : forall l, mkl (l_vecs (lists_of w)) l = mkl (map (option_map (fun v => (d_ty v, @nil item))) (dw_vecs w)) l) by reflexivity.
  destruct o as [t|t n|t x|t xs cap|i x|i xs|i n|i|i|i j|i|i]; cbn [dstep types_of] in *.
  - right. eexists. split; [reflexivity|]. inversion HT as [|? ? Ht _]; subst. split; [apply addv; cbn; auto|]. split.
    { unfold lists_of. cbn [dw_vecs dw_log]. rewrite map_app. apply call_new. }
    split; [exact (fun x => x)|]. apply nolog. reflexivity.
  - right. eexists. split; [reflexivity|]. split; [apply addv; exact I|]. split.
    { unfold lists_of. cbn [dw_vecs dw_log]. rewrite map_app. apply call_with_fails. }
    split; [exact (fun x => x)|]. apply nolog. reflexivity.
  - right. inversion HT as [|? ? Ht _]; subst. unfold dbox_new. eexists. split; [reflexivity|]. split; [apply addv; exact I|]. split.
    { unfold lists_of. cbn [dw_vecs dw_log]. rewrite map_app. unfold dropped. change (tag t (if e_copy t then [] else [x])) with (tag t (dropped t [x])).
      rewrite tag_dropped. apply (call_box_fails (lists_of w) t x). }
    split; [exact (fun x => x)|]. exists t. split; [left; exact Ht|]. cbn [dw_log given]. rewrite tag_dropped. reflexivity.
  - left. split; [reflexivity|]. left. exact I.
  - destruct (dvec_at w i) as [v|] eqn:Ev.
    2:{ left. split; [reflexivity|]. right. intros (t & xs & H). exact (at_none _ _ _ _ Ev H). }
    right. destruct (at_empty _ _ _ _ HE Ev) as (El & Es & Hp). unfold dvec_push. rewrite (proj2 (N.eqb_neq _ _) Es). cbn [dresize negb sbind].
    rewrite (set_same _ _ _ Ev). eexists. split; [reflexivity|]. split; [exact HE|]. split.
    { rewrite tag_dropped. apply (call_push_fails (lists_of w) i _ _ x (at_list _ _ _ Ev)). }
    split; [exact (fun x => x)|]. exists (d_ty v). split; [left; exact Hp|]. cbn [dw_log given]. rewrite tag_dropped. reflexivity.
  - destruct (dvec_at w i) as [v|] eqn:Ev.
    2:{ left. split; [reflexivity|]. right. intros (t & ys & H & _). exact (at_none _ _ _ _ Ev H). }
    destruct (e_copy (d_ty v)) eqn:Ec; cbn [negb].
    2:{ left. split; [reflexivity|]. right. intros (t & ys & H & Hc). destruct (list_of_at _ _ _ _ H) as (u & Eu & <- & _). congruence. }
    right. destruct (at_empty _ _ _ _ HE Ev) as (El & Es & Hp). unfold dvec_extend_from_slice. rewrite (proj2 (N.eqb_neq _ _) Es). cbn [dresize negb sbind].
    rewrite (set_same _ _ _ Ev). exists w. destruct w as [vs log]. split; [reflexivity|]. split; [exact HE|]. split.
    { exact (call_slice_fails (lists_of (mkdw vs log)) i _ _ xs (at_list _ _ _ Ev) Ec). }
    split; [exact (fun x => x)|]. apply nolog. reflexivity.
  - destruct (dvec_at w i) as [v|] eqn:Ev.
    2:{ left. split; [reflexivity|]. right. intros (t & ys & H). exact (at_none _ _ _ _ Ev H). }
    right. destruct (at_empty _ _ _ _ HE Ev) as (El & Es & Hp). unfold dvec_reserve. rewrite (proj2 (N.eqb_neq _ _) Es). cbn [dresize].
    exists w. split; [reflexivity|]. split; [exact HE|]. split; [exact (call_reserve_fails _ i _ _ n (at_list _ _ _ Ev))|].
    split; [exact (fun x => x)|]. apply nolog. reflexivity.
  - destruct (dvec_at w i) as [v|] eqn:Ev.
    2:{ left. split; [reflexivity|]. right. intros (t & ys & H). exact (at_none _ _ _ _ Ev H). }
    right. destruct (at_empty _ _ _ _ HE Ev) as (El & Es & Hp). unfold dvec_pop. rewrite El. cbn [N.eqb sbind].
    rewrite (set_same _ _ _ Ev). exists w. destruct w as [vs log]. split; [reflexivity|]. split; [exact HE|]. split.
    { pose proof (at_list _ _ _ Ev) as HL. pose proof (call_pop _ i _ _ None [] HL (or_introl (conj eq_refl (conj eq_refl eq_refl)))) as C.
      unfold put in C. rewrite (set_at_same _ _ _ HL) in C. exact C. }
    split; [exact (fun x => x)|]. apply nolog. reflexivity.
  - destruct (dvec_at w i) as [v|] eqn:Ev.
    2:{ left. split; [reflexivity|]. right. intros (t & ys & H). exact (at_none _ _ _ _ Ev H). }
    right. destruct (at_empty _ _ _ _ HE Ev) as (El & Es & Hp). unfold dvec_clear. rewrite (items_none _ El Es). cbn [sbind].
    rewrite (len_same _ El), (set_same _ _ _ Ev). exists w. destruct w as [vs log]. rewrite tag_dropped. split.
    { destruct (e_copy (d_ty v)); cbn [map]; rewrite app_nil_r; reflexivity. }
    split; [exact HE|]. split.
    { pose proof (at_list _ _ _ Ev) as HL. pose proof (call_clear _ i _ _ HL) as C.
      unfold put in C. rewrite (set_at_same _ _ _ HL) in C. unfold gone in C. cbn [map l_vecs l_gone lists_of dw_vecs dw_log] in C.
      destruct (e_copy (d_ty v)); rewrite app_nil_r in C; exact C. }
    split; [exact (fun x => x)|]. apply nolog. reflexivity.
  - destruct (Nat.eqb_spec i j) as [Eij|Eij]; [left; split; [reflexivity|]; right; intros (H & _); exact (H Eij)|].
    destruct (dvec_at w i) as [v|] eqn:Ev.
    2:{ left. split; [reflexivity|]. right. intros (_ & t & xs & ys & H & _). exact (at_none _ _ _ _ Ev H). }
    destruct (dvec_at w j) as [u|] eqn:Eu.
    2:{ left. split; [reflexivity|]. right. intros (_ & t & xs & ys & _ & H & _). exact (at_none _ _ _ _ Eu H). }
    destruct (e_copy (d_ty v)) eqn:Ec; cbn [negb orb].
    2:{ left. split; [reflexivity|]. right. intros (_ & t & xs & ys & H & _ & Hc). destruct (list_of_at _ _ _ _ H) as (v' & E & <- & _). congruence. }
    destruct (ety_eqb (d_ty v) (d_ty u)) eqn:Et; cbn [negb].
    2:{ left. split; [reflexivity|]. right. intros (_ & t & xs & ys & H & H2 & _). destruct (list_of_at _ _ _ _ H) as (v' & E & <- & _).
        destruct (list_of_at _ _ _ _ H2) as (u' & E' & Eq & _). rewrite Ev in E. rewrite Eu in E'. injection E as <-. injection E' as <-.
        symmetry in Eq. apply ety_eqb_eq in Eq. congruence. }
    apply ety_eqb_eq in Et.
    right. destruct (at_empty _ _ _ _ HE Ev) as (El & Es & Hp). destruct (at_empty _ _ _ _ HE Eu) as (El' & Es' & Hp').
    unfold dvec_extend. rewrite (items_none _ El' Es'). cbn [sbind]. unfold dvec_extend_from_slice. rewrite (proj2 (N.eqb_neq _ _) Es). cbn [dresize negb sbind].
    unfold dvec_drop, dvec_clear. rewrite (items_none _ El' Es'). cbn [sbind]. rewrite (set_same _ _ _ Ev).
    eexists. split; [reflexivity|]. split; [apply Forall_set_at; [exact I|exact HE]|]. split.
    { pose proof (at_list _ _ _ Eu) as HL. rewrite <- Et in HL. pose proof (call_extend_fails _ i j _ _ _ Eij (at_list _ _ _ Ev) HL Ec) as C.
      unfold lists_of at 2. cbn [dw_vecs dw_log]. rewrite map_set_at. exact C. }
    split; [exact (fun x => x)|]. apply nolog. reflexivity.
  - destruct (dvec_at w i) as [v|] eqn:Ev.
    2:{ left. split; [reflexivity|]. right. intros (t & ys & H). exact (at_none _ _ _ _ Ev H). }
    right. destruct (at_empty _ _ _ _ HE Ev) as (El & Es & Hp). unfold dvec_into_std, dvec_capacity. rewrite (items_none _ El Es), (proj2 (N.eqb_neq _ _) Es), El. cbn [N.ltb N.compare sbind].
    eexists. split; [reflexivity|]. split; [apply Forall_set_at; [exact I|exact HE]|]. split.
    { unfold lists_of at 2. cbn [dw_vecs dw_log]. rewrite map_set_at. apply (call_into_std _ i _ _ 0 (at_list _ _ _ Ev)). cbn. lia. }
    split; [exact (fun x => x)|]. apply nolog. reflexivity.
  - destruct (dvec_at w i) as [v|] eqn:Ev.
    2:{ left. split; [reflexivity|]. right. intros (t & ys & H). exact (at_none _ _ _ _ Ev H). }
    right. destruct (at_empty _ _ _ _ HE Ev) as (El & Es & Hp). unfold dvec_drop, dvec_clear. rewrite (items_none _ El Es). cbn [sbind].
    eexists. split; [reflexivity|]. split; [apply Forall_set_at; [exact I|exact HE]|]. split.
    { pose proof (call_drop _ i _ _ (at_list _ _ _ Ev)) as C. unfold gone, put in C. cbn [map l_vecs l_gone] in C.
      unfold lists_of at 2. cbn [dw_vecs dw_log]. rewrite map_set_at, tag_dropped. exact C. }
    split; [exact (fun x => x)|]. cbn [dw_log given]. rewrite tag_dropped. exists tc. rewrite Htc. split; [right; reflexivity|].
    destruct (e_copy (d_ty v)); reflexivity.
Qed.

(** A whole program *)
Lemma drun_ok (P : ety -> Prop) dbg ops : (forall t, P t -> e_size t <> 0) -> Forall (fun o => Forall P (types_of o)) ops -> forall w, empties P w ->
  (exists pre o post w1, ops = pre ++ o :: post /\ calls (lists_of w) pre (map answer pre) (lists_of w1) /\ drun dbg w ops = SPanic /\
     (takes_std o \/ ~ allowed (lists_of w1) o)) \/
  (exists w', drun dbg w ops = SDone (map answer ops, w') /\ empties P w' /\ calls (lists_of w) ops (map answer ops) (lists_of w') /\
     ((forall t, P t -> e_copy t = false) -> map snd (dw_log w') = map snd (dw_log w) ++ flat_map given ops)).
Proof.
  intros HP HT. induction HT as [|o ops Ho _ IH]; intros w HE.
  - right. exists w. split; [reflexivity|]. split; [exact HE|]. split; [constructor|]. intros _. cbn. rewrite app_nil_r. reflexivity.
  - destruct (dstep_ok P dbg w o HP HE Ho) as [(E & H)|(w1 & E & HE1 & C & _ & t & Ht & HL)]; cbn [drun]; rewrite E; cbn [sbind].
    { left. exists [], o, ops, w. split; [reflexivity|]. split; [constructor|]. auto. }
    destruct (IH w1 HE1) as [(pre & o' & post & w2 & -> & C2 & E2 & H)|(w2 & E2 & HE2 & C2 & HL2)]; rewrite E2; cbn [sbind].
    { left. exists (o :: pre), o', post, w2. split; [reflexivity|]. split; [cbn [map]; econstructor; eassumption|]. auto. }
    right. exists w2. split; [reflexivity|]. split; [exact HE2|]. split; [cbn [map]; econstructor; eassumption|].
    intros Hc. rewrite (HL2 Hc), HL, map_app, <- app_assoc. cbn [flat_map]. f_equal. f_equal.
    destruct Ht as [Ht|Hg]; [rewrite (Hc _ Ht)|rewrite Hg; destruct (e_copy t); reflexivity].
    unfold tag. rewrite map_map. cbn [snd]. apply map_id.
Qed.

(** [System] when all requests are refused *)
Definition as_system (o : option dvec) : option svec := option_map (fun v => svec_new (d_ty v)) o.

Lemma refused_resize dbg h t n : sized t -> n <> 0 -> exists h', sresize (fun _ => false) dbg h (svec_new t) 0 n = SDone (false, svec_new t, h').
Proof.
  intros (Hs & Ha & _) Hn. unfold sresize. cbn [s_ty s_cap svec_new]. rewrite (proj2 (N.eqb_neq _ _)) by lia. cbn [N.add].
  destruct (usize_max <? n); [eauto|]. rewrite (proj2 (N.leb_gt _ _)) by lia. change (udouble dbg 0) with (SDone 0). cbn [sbind].
  unfold layout_array. destruct (isize_max - (e_align t - 1) <? N.max (min_non_zero_cap t) (N.max 0 n) * e_size t) eqn:El; [eauto|].
  apply N.ltb_ge in El. unfold srealloc. cbn [s_cap s_ty svec_new]. change (0 <? 0) with false. unfold galloc.
  rewrite (proj2 (N.eqb_neq _ _)) by nia. rewrite (proj2 (N.ltb_ge _ _)) by lia. cbn [orb sbind]. eauto.
Qed.

Lemma refused_step dbg dw sw o : empties sized dw -> w_vecs sw = map as_system (dw_vecs dw) -> Forall sized (types_of o) -> demanding o ->
  (dstep dbg dw o = SPanic /\ sstep (fun _ => false) dbg sw o = SPanic) \/
  (exists r dw' sw', dstep dbg dw o = SDone (r, dw') /\ sstep (fun _ => false) dbg sw o = SDone (r, sw') /\
     empties sized dw' /\ w_vecs sw' = map as_system (dw_vecs dw') /\ (w_log sw = dw_log dw -> w_log sw' = dw_log dw')).
Proof.
  intros HE HV HT HD.
  assert (at_ : forall i, vec_at sw i = option_map (fun v => svec_new (d_ty v)) (dvec_at dw i)).
  { intros i. unfold vec_at, dvec_at. rewrite HV, nth_error_map. destruct (nth_error (dw_vecs dw) i) as [[v|]|]; reflexivity. }
  assert (addv : forall x l, dempty sized x -> empties sized (mkdw (dw_vecs dw ++ [x]) l)).
  { intros x l Hx. apply Forall_app. split; [exact HE|]. constructor; [exact Hx|constructor]. }
  assert (gone_ : forall i l, empties sized (mkdw (set_at (dw_vecs dw) i None) l)).
  { intros i l. apply Forall_set_at; [exact I|exact HE]. }
  assert (same : forall i v, dvec_at dw i = Some v -> set_at (w_vecs sw) i (Some (svec_new (d_ty v))) = map as_system (dw_vecs dw)).
  { intros i v E. rewrite HV. apply set_at_same. apply dvec_at_nth in E. rewrite nth_error_map, E. reflexivity. }
  assert (snone : forall h t, svec_items h (svec_new t) = SDone []).
  { intros h t. unfold svec_items. cbn [s_ty s_len svec_new]. destruct (e_size t =? 0); reflexivity. }
  destruct o as [t|t n|t x|t xs cap|i x|i xs|i n|i|i|i j|i|i]; cbn [dstep sstep demanding types_of] in *; try contradiction.
  all: try (rewrite at_; destruct (dvec_at dw i) as [v|] eqn:Ev; cbn [option_map]; [|left; split; reflexivity];
            destruct (at_empty _ _ _ _ HE Ev) as (El & Es & Hp); pose proof (proj2 (N.eqb_neq _ _) Es) as Eb).
  - right. inversion HT as [|? ? Ht _]; subst. do 3 eexists. split; [reflexivity|]. split; [reflexivity|]. split.
    { apply addv. destruct Ht as (H & H'). split; [reflexivity|]. split; [cbn; lia|]. split; assumption. }
    split; [|auto]. cbn [w_vecs dw_vecs]. rewrite map_app, HV. reflexivity.
  - right. inversion HT as [|? ? Ht _]; subst. unfold svec_with_capacity. destruct (refused_resize dbg (w_heap sw) t n Ht HD) as (h' & ->). cbn [sbind].
    unfold sfree. cbn [s_ty s_cap svec_new]. rewrite Bool.orb_true_r. cbn [sbind]. do 3 eexists. split; [reflexivity|]. split; [reflexivity|].
    split; [apply addv; exact I|]. split; [|auto]. cbn [w_vecs dw_vecs]. rewrite map_app, HV. reflexivity.
  - right. inversion HT as [|? ? Ht _]; subst. pose proof Ht as (Hs & Ha & Hm). unfold sbox_new, dbox_new. rewrite (proj2 (N.eqb_neq _ _)) by lia.
    unfold galloc. rewrite (proj2 (N.eqb_neq _ _)) by lia. rewrite (proj2 (N.ltb_ge _ _)) by lia. cbn [orb sbind]. do 3 eexists. split; [reflexivity|]. split; [reflexivity|].
    split; [apply addv; exact I|]. split; [|cbn; congruence]. cbn [w_vecs dw_vecs]. rewrite map_app, HV. reflexivity.
  - right. unfold svec_push, dvec_push. cbn [s_ty s_len svec_new]. rewrite Eb. cbn [dresize negb sbind].
    destruct (refused_resize dbg (w_heap sw) (d_ty v) 1 Hp) as (h' & ->); [discriminate|]. cbn [sbind negb]. do 3 eexists. split; [reflexivity|]. split; [reflexivity|].
    rewrite (set_same _ _ _ Ev). split; [exact HE|]. split; [exact (same _ _ Ev)|cbn; congruence].
  - cbn [s_ty svec_new]. destruct (e_copy (d_ty v)); cbn [negb]; [|left; split; reflexivity].
    right. unfold svec_extend_from_slice, dvec_extend_from_slice. cbn [s_ty s_len svec_new]. rewrite Eb. cbn [dresize negb sbind].
    destruct (refused_resize dbg (w_heap sw) (d_ty v) (lenN xs) Hp) as (h' & ->); [destruct xs; [congruence|unfold lenN; cbn [length]; lia]|].
    cbn [sbind negb]. do 3 eexists. split; [reflexivity|]. split; [reflexivity|].
    rewrite (set_same _ _ _ Ev). split; [exact HE|]. split; [exact (same _ _ Ev)|cbn; congruence].
  - right. unfold svec_reserve, dvec_reserve. cbn [s_ty s_len svec_new]. rewrite Eb. cbn [dresize].
    destruct (refused_resize dbg (w_heap sw) (d_ty v) n Hp HD) as (h' & ->). cbn [sbind]. do 3 eexists. split; [reflexivity|]. split; [reflexivity|].
    split; [exact HE|]. split; [exact (same _ _ Ev)|cbn; congruence].
  - right. unfold svec_pop, dvec_pop. cbn [s_len svec_new]. rewrite El. cbn [N.eqb sbind]. do 3 eexists. split; [reflexivity|]. split; [reflexivity|].
    rewrite (set_same _ _ _ Ev). split; [exact HE|]. split; [exact (same _ _ Ev)|cbn; congruence].
  - right. unfold svec_clear, dvec_clear. rewrite snone, (items_none _ El Es). cbn [sbind s_ty svec_new]. do 3 eexists. split; [reflexivity|]. split; [reflexivity|].
    rewrite (len_same _ El), (set_same _ _ _ Ev). split; [exact HE|]. split; [exact (same _ _ Ev)|cbn; congruence].
  - right. unfold svec_into_std, dvec_into_std, svec_capacity, dvec_capacity. rewrite snone, (items_none _ El Es). cbn [sbind s_ty s_cap s_len svec_new]. rewrite Eb, El.
    cbn [N.ltb N.compare N.eqb orb sbind]. do 3 eexists. split; [reflexivity|]. split; [reflexivity|].
    split; [apply gone_|]. split; [|auto]. cbn [w_vecs dw_vecs]. rewrite map_set_at, HV. reflexivity.
  - right. unfold svec_drop, svec_clear, dvec_drop, dvec_clear. rewrite snone, (items_none _ El Es). cbn [sbind s_ty svec_new].
    unfold sfree. cbn [s_ty s_cap with_slen svec_new]. rewrite Eb. cbn [orb N.eqb sbind]. do 3 eexists. split; [reflexivity|]. split; [reflexivity|].
    split; [apply gone_|]. split; [|cbn; congruence]. cbn [w_vecs dw_vecs]. rewrite map_set_at, HV. reflexivity.
Qed.

Lemma refused_run dbg ops : Forall (fun o => Forall sized (types_of o)) ops -> Forall demanding ops ->
  forall dw sw, empties sized dw -> w_vecs sw = map as_system (dw_vecs dw) ->
  replies (srun (fun _ => false) dbg sw ops) = replies (drun dbg dw ops) /\
  (w_log sw = dw_log dw -> forall rs sw' dw', srun (fun _ => false) dbg sw ops = SDone (rs, sw') -> drun dbg dw ops = SDone (rs, dw') -> w_log sw' = dw_log dw').
Proof.
  induction ops as [|o ops IH]; intros HT HD dw sw HE HV; inversion HT; subst; inversion HD; subst; cbn [srun drun].
  - split; [reflexivity|]. intros HL rs sw' dw' E1 E2. congruence.
  - destruct (refused_step dbg dw sw o HE HV) as [(E1 & E2)|(r & dw1 & sw1 & E1 & E2 & HE1 & HV1 & HL1)]; [assumption..| |]; rewrite E1, E2; cbn [sbind].
    + split; [reflexivity|]. intros _ rs sw' dw' E. discriminate.
    + destruct (IH ltac:(assumption) ltac:(assumption) dw1 sw1 HE1 HV1) as (Hr & Hl). split.
      * destruct (srun _ dbg sw1 ops) as [[rs1 sw2]| |]; destruct (drun dbg dw1 ops) as [[rs2 dw2]| |]; cbn [sbind replies] in *; congruence.
      * intros HL rs sw' dw' E3 E4. specialize (Hl (HL1 HL)).
        destruct (srun _ dbg sw1 ops) as [[rs1 sw2]| |]; try discriminate; destruct (drun dbg dw1 ops) as [[rs2 dw2]| |]; try discriminate.
        cbn [sbind replies] in *. injection E3 as <- <-. injection E4 as E4 <-. injection Hr as <-. exact (Hl _ _ _ eq_refl eq_refl).
Qed.

(** Types of size zero: a vector counts. *)
Lemma push_zero dbg t xs : e_size t = 0 -> forall n, n + lenN xs <= usize_max -> forall log,
  exists log', drun dbg (mkdw [Some (mkdv t n)] log) (map (PPush 0) xs) = SDone (map (fun _ => RDone) xs, mkdw [Some (mkdv t (n + lenN xs))] log').
Proof.
  intros Hz. induction xs as [|x xs IH]; intros n Hn log; cbn [map drun].
  - exists log. unfold lenN. cbn. rewrite N.add_0_r. reflexivity.
  - cbn [dstep dvec_at dw_vecs nth_error]. unfold dvec_push. cbn [d_ty d_len]. rewrite Hz. cbn [N.eqb]. unfold uadd.
    assert (Hl : lenN (x :: xs) = 1 + lenN xs) by (unfold lenN; cbn [length]; lia). rewrite Hl in *.
    rewrite (proj2 (N.leb_le _ _)) by lia. cbn [sbind set_at with_dlen d_ty dw_log dw_vecs].
    match goal with |- context [drun _ ?w (map _ xs)] => change w with (mkdw [Some (mkdv t (n + 1))] (log ++ tag t (dropped t [x]))) end.
    destruct (IH (n + 1) ltac:(lia) (log ++ tag t (dropped t [x]))) as (log' & E'). rewrite E'. cbn [sbind sreply_of]. exists log'. rewrite <- N.add_assoc. reflexivity.
Qed.
