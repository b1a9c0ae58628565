(** Facts about traced decoding. *)
From Verif Require Import Base Options Int Utf8 Types Storage Fmt FmtSpec Ctx CtxSpec Trace TraceSpec BaseFacts TypesFacts CtxFacts.
From Coq Require Import Lia.
Local Open Scope N_scope.

(** ** Logs *)

Definition obind (o : option (list step)) (f : list step -> option (list step)) : option (list step) :=
  match o with Some q => f q | None => None end.

Lemma true_path_app ty h1 h2 : forall q, true_path ty q (h1 ++ h2) = obind (true_path ty q h1) (fun q => true_path ty q h2).
Proof.
  induction h1 as [|[o x] h1 IH]; intros q; [reflexivity|].
  destruct o; cbn [app true_path]; try apply IH.
  - destruct q; [reflexivity|apply IH].
  - destruct ty; [|apply IH]. destruct q; [reflexivity|apply IH].
Qed.

(** The calls entered and left; the calls entered more, namely [q]. *)
Definition at_log (l : history) (q : list step) : Prop := forall q0, true_path false q0 l = Some (q0 ++ q).

Lemma at_nil : at_log [] [].
Proof. intros q0. cbn. now rewrite app_nil_r. Qed.

Lemma at_app l1 l2 q1 q2 : at_log l1 q1 -> at_log l2 q2 -> at_log (l1 ++ l2) (q1 ++ q2).
Proof. intros H1 H2 q0. rewrite true_path_app, H1. cbn [obind]. rewrite H2. now rewrite app_assoc. Qed.

Lemma at_app0 l1 l2 q : at_log l1 [] -> at_log l2 q -> at_log (l1 ++ l2) q.
Proof. intros H1 H2. exact (at_app l1 l2 [] q H1 H2). Qed.

Lemma at_enter s : of_type s = false -> at_log (call (Enter s)) [s].
Proof. intros E q0. cbn. now rewrite E. Qed.

Lemma at_within s l : of_type s = false -> at_log l [] -> at_log (call (Enter s) ++ l ++ call Leave) [].
Proof.
  intros E H q0. rewrite true_path_app, at_enter by exact E. cbn [obind]. rewrite true_path_app, H. cbn [obind call true_path].
  rewrite !app_nil_r, removelast_snoc. destruct (q0 ++ [s]) eqn:K; [destruct q0; discriminate|reflexivity].
Qed.

(** ** The monad *)

Lemma fst_tbind {A B} (m : traced A) (f : A -> traced B) : fst (tbind m f) = bind (fst m) (fun a => fst (f a)).
Proof. unfold tbind. destruct (fst m); reflexivity. Qed.

Lemma tbind_ok {A B} (m : traced A) (f : A -> traced B) a : fst m = Ok a -> tbind m f = (fst (f a), snd m ++ snd (f a)).
Proof. unfold tbind. now intros ->. Qed.

Lemma tbind_err {A B} (m : traced A) (f : A -> traced B) : fst m = Err -> tbind m f = (Err, snd m).
Proof. unfold tbind. now intros ->. Qed.

Lemma tbind_panic {A B} (m : traced A) (f : A -> traced B) : fst m = Panic -> tbind m f = (Panic, snd m).
Proof. unfold tbind. now intros ->. Qed.

Lemma tquiet {A B} (r : res A) (f : A -> traced B) :
  tbind (quiet r) f = match r with Ok a => f a | Err => quiet Err | Panic => quiet Panic end.
Proof. destruct r; cbn; try reflexivity. destruct (f a); reflexivity. Qed.

Lemma fst_within {A} s (m : traced A) : fst (within s m) = fst m.
Proof. unfold within. destruct (fst m); reflexivity. Qed.

(** ** Loops *)

Lemma iter_nat_app {T} (g : T -> res T) j k s : iter_nat (j + k) g s = bind (iter_nat j g s) (iter_nat k g).
Proof.
  revert s. induction j as [|j IH]; intros s; cbn [Nat.add iter_nat bind]; [reflexivity|].
  destruct (g s); cbn [bind]; auto.
Qed.

(** Nothing comes after a failing round; the rounds before succeed. *)
Lemma iter_stop {T} (g : T -> res T) k s sk j sj x : iter_nat k g s = Ok sk -> g sk = Err ->
  iter_nat j g s = Ok sj -> g sj = x -> x = Err -> j = k /\ sj = sk.
Proof.
  intros Hk Ek Hj Ej ->. destruct (Nat.lt_trichotomy j k) as [L|[->|L]]; [| |].
  - exfalso. replace k with (j + S (k - j - 1))%nat in Hk by lia. rewrite iter_nat_app, Hj in Hk. cbn [bind iter_nat] in Hk.
    rewrite Ej in Hk. discriminate.
  - split; congruence.
  - exfalso. replace j with (k + S (j - k - 1))%nat in Hj by lia. rewrite iter_nat_app, Hk in Hj. cbn [bind iter_nat] in Hj.
    rewrite Ek in Hj. discriminate.
Qed.

Lemma iter_all {T} (g : T -> res T) n s s' j sj : iter_nat n g s = Ok s' -> (j < n)%nat -> iter_nat j g s = Ok sj -> g sj <> Err.
Proof.
  intros Hn L Hj E. replace n with (j + S (n - j - 1))%nat in Hn by lia. rewrite iter_nat_app, Hj in Hn. cbn [bind iter_nat] in Hn.
  rewrite E in Hn. discriminate.
Qed.

Lemma titer_fst {T} n (f : T -> traced T) (g : T -> res T) : (forall s, fst (f s) = g s) -> forall s, fst (titer n f s) = iter_nat n g s.
Proof.
  intros H. induction n as [|n IH]; intros s; [reflexivity|]. cbn [titer iter_nat]. rewrite fst_tbind, H.
  destruct (g s); cbn [bind]; auto.
Qed.

Lemma titer_log {T} n (f : T -> traced T) : (forall s x, fst (f s) = Ok x -> at_log (snd (f s)) []) -> forall s,
  match fst (titer n f s) with
  | Ok _ => at_log (snd (titer n f s)) []
  | Err => exists k s' l, (k < n)%nat /\ iter_nat k (fun s => fst (f s)) s = Ok s' /\ fst (f s') = Err /\
             snd (titer n f s) = l ++ snd (f s') /\ at_log l []
  | Panic => True
  end.
Proof.
  intros H. induction n as [|n IH]; intros s; [apply at_nil|]. cbn [titer].
  destruct (fst (f s)) as [s1| |] eqn:E.
  - rewrite (tbind_ok _ _ s1 E). cbn [fst snd]. specialize (IH s1). destruct (fst (titer n f s1)) eqn:E1; auto.
    + apply at_app0; eauto.
    + destruct IH as (k & s' & l & L & I & E' & Hl & A). exists (S k), s', (snd (f s) ++ l). split; [lia|].
      split; [cbn [iter_nat]; rewrite E; exact I|]. split; [exact E'|]. split; [rewrite Hl, app_assoc; reflexivity|]. apply at_app0; eauto.
  - rewrite (tbind_err _ _ E). cbn [fst snd]. exists O, s, []. split; [lia|]. split; [reflexivity|]. split; [exact E|]. split; [reflexivity|apply at_nil].
  - rewrite (tbind_panic _ _ E). exact I.
Qed.

(** ** Elements *)

Definition cstep (d : dec val) (s : list val * bytes) : res (list val * bytes) :=
  let* (v, r) := d (snd s) in Ok (v :: fst s, r).

Lemma dec_count_iter k d r vs bs : dec_count k d r = Ok (vs, bs) <->
  exists acc, iter_nat (N.to_nat k) (cstep d) ([], r) = Ok (acc, bs) /\ vs = rev acc.
Proof.
  unfold dec_count. rewrite iterN_nat. change (fun s => let* (v, r) := d (snd s) in Ok (v :: fst s, r)) with (cstep d).
  destruct (iter_nat _ _ _) as [[acc r']| |]; cbn [bind].
  - split; [intros E; inversion E; subst; eauto|intros (a & E & ->); inversion E; reflexivity].
  - split; [discriminate|intros (? & ? & _); discriminate].
  - split; [discriminate|intros (? & ? & _); discriminate].
Qed.

Lemma cstep_err d s : cstep d s = Err <-> d (snd s) = Err.
Proof. unfold cstep. destruct (d (snd s)) as [[]| |]; cbn; split; congruence. Qed.

(** The rounds of a set, with their numbers, read what the rounds of a list read. *)
Definition sstep (d : dec val) (s : N * (list val * bytes)) : res (N * (list val * bytes)) :=
  let* (v, r) := d (snd (snd s)) in Ok (fst s + 1, (set_insert v (fst (snd s)), r)).

Lemma sstep_pos k d : forall i l r acc, match iter_nat k (sstep d) (i, (l, r)), iter_nat k (cstep d) (acc, r) with
  | Ok (i', (_, r')), Ok (_, r'') => i' = i + N.of_nat k /\ r' = r''
  | Err, Err | Panic, Panic => True
  | _, _ => False
  end.
Proof.
  induction k as [|k IH]; intros i l r acc; cbn [iter_nat]; [split; [lia|reflexivity]|].
  replace (sstep d (i, (l, r))) with (let* (v, r1) := d r in Ok (i + 1, (set_insert v l, r1))) by reflexivity.
  replace (cstep d (acc, r)) with (let* (v, r1) := d r in Ok (v :: acc, r1)) by reflexivity.
  destruct (d r) as [[v r1]| |]; cbn [bind]; auto.
  specialize (IH (i + 1) (set_insert v l) r1 (v :: acc)).
  destruct (iter_nat k (sstep d) _) as [[i' [? r']]| |], (iter_nat k (cstep d) _) as [[? r'']| |]; auto.
  destruct IH. split; [lia|assumption].
Qed.

Lemma sstep_set k d : forall i l r,
  iter_nat k (fun s => let* (v, r) := d (snd s) in Ok (set_insert v (fst s), r)) (l, r) =
  let* x := iter_nat k (sstep d) (i, (l, r)) in Ok (snd x).
Proof.
  induction k as [|k IH]; intros i l r; cbn [iter_nat bind]; [reflexivity|].
  unfold sstep at 1. cbn [fst snd]. destruct (d r) as [[v r1]| |]; cbn [bind]; auto.
Qed.

(** ** Tuples *)

Lemma tlist_fst (ds : list (bytes -> traced (val * bytes))) (es : list (dec val)) :
  Forall2 (fun d e => forall bs, fst (d bs) = e bs) ds es -> forall bs, fst (tlist ds bs) = dec_list es bs.
Proof.
  intros H. induction H as [|d e ds es Hd _ IH]; intros bs; cbn [tlist dec_list]; [reflexivity|].
  rewrite fst_tbind, Hd. unfold dec in e. destruct (e bs) as [[v r]| |]; cbn [bind]; auto.
  rewrite fst_tbind. cbn [snd fst]. rewrite IH. destruct (dec_list es r) as [[vs r']| |]; reflexivity.
Qed.

Lemma tlist_log (ds : list (bytes -> traced (val * bytes))) :
  Forall (fun d => forall bs x, fst (d bs) = Ok x -> at_log (snd (d bs)) []) ds -> forall bs,
  match fst (tlist ds bs) with
  | Ok _ => at_log (snd (tlist ds bs)) []
  | Err => exists k d x l, nth_error ds k = Some d /\ fst (tlist (firstn k ds) bs) = Ok x /\ fst (d (snd x)) = Err /\
             snd (tlist ds bs) = l ++ snd (d (snd x)) /\ at_log l []
  | Panic => True
  end.
Proof.
  intros H. induction H as [|d ds Hd _ IH]; intros bs; cbn [tlist]; [apply at_nil|].
  destruct (fst (d bs)) as [[v r]| |] eqn:E.
  - rewrite (tbind_ok _ _ _ E). cbn [fst snd]. specialize (IH r). destruct (fst (tlist ds r)) as [[vs r']| |] eqn:E1.
    + rewrite (tbind_ok _ _ _ E1). cbn [fst snd quiet]. rewrite app_nil_r. apply at_app0; eauto.
    + rewrite (tbind_err _ _ E1). cbn [fst snd]. destruct IH as (k & e & x & l & N & F & E' & Hl & A).
      exists (S k), e, (v :: fst x, snd x), (snd (d bs) ++ l). split; [exact N|].
      split; [cbn [firstn tlist]; rewrite (tbind_ok _ _ _ E); cbn [fst snd]; rewrite (tbind_ok _ _ _ F); reflexivity|].
      split; [exact E'|]. split; [rewrite Hl, app_assoc; reflexivity|]. apply at_app0; eauto.
    + rewrite (tbind_panic _ _ E1). exact I.
  - rewrite (tbind_err _ _ E). cbn [fst snd]. exists O, d, ([], bs), []. split; [reflexivity|]. split; [reflexivity|].
    split; [exact E|]. split; [reflexivity|apply at_nil].
  - rewrite (tbind_panic _ _ E). exact I.
Qed.

Lemma dec_list_all (es : list (dec val)) : forall bs x k e vs bs', dec_list es bs = Ok x -> nth_error es k = Some e ->
  dec_list (firstn k es) bs = Ok (vs, bs') -> e bs' <> Err.
Proof.
  induction es as [|d es IH]; intros bs x k e vs bs' H Hn Hf E; [destruct k; discriminate|].
  destruct k as [|k]; cbn [nth_error firstn dec_list] in *.
  - inversion Hn; inversion Hf; subst. rewrite E in H. discriminate.
  - unfold dec in *. destruct (d bs) as [[v r]| |]; cbn [bind] in H, Hf; try discriminate.
    destruct (dec_list es r) as [y| |] eqn:E1; cbn [bind] in H; try discriminate.
    destruct (dec_list (firstn k es) r) as [[vs' r']| |] eqn:E2; cbn [bind] in Hf; try discriminate. inversion Hf; subst.
    exact (IH r y k e vs' bs' E1 Hn E2 E).
Qed.

Lemma numbered_nth {A B} (f : nat -> A -> B) l : forall i k, nth_error (numbered f i l) k = option_map (f (i + k)%nat) (nth_error l k).
Proof.
  induction l as [|x l IH]; intros i k; [destruct k; reflexivity|]. destruct k; cbn [numbered nth_error].
  - cbn. now rewrite Nat.add_0_r.
  - rewrite IH. now rewrite Nat.add_succ_comm.
Qed.

(** ** The same result *)

Lemma Forall_firstn' {A} (P : A -> Prop) l : Forall P l -> forall k, Forall P (firstn k l).
Proof. induction 1; intros [|k]; cbn [firstn]; constructor; auto. Qed.

Lemma numbered_map_snd {A B C} (g : A -> B) (h : nat -> B -> C) l : forall i, numbered h i (map g l) = numbered (fun i x => h i (g x)) i l.
Proof. induction l as [|x l IH]; intros i; [reflexivity|]. cbn [map numbered]. now rewrite IH. Qed.

Lemma rounds_fst F p o lbl t (H : forall bs, fst (tdec F p o lbl t bs) = gdec F p o t bs) n r :
  fst (titer n (fun s => tbind (tdec F p o lbl t (snd s)) (fun y => quiet (Ok (fst y :: fst s, snd y)))) ([], r)) =
  iter_nat n (cstep (gdec F p o t)) ([], r).
Proof.
  apply titer_fst. intros s. rewrite fst_tbind, H. unfold cstep. destruct (gdec F p o t (snd s)) as [[]| |]; reflexivity.
Qed.

Lemma tlist_map F p o lbl ts : Forall (fun t => forall bs, fst (tdec F p o lbl t bs) = gdec F p o t bs) ts ->
  forall bs, fst (tlist (map (tdec F p o lbl) ts) bs) = dec_list (map (gdec F p o) ts) bs.
Proof.
  intros H. apply tlist_fst. induction H as [|t ts Ht _ IH]; cbn [map]; constructor; auto.
Qed.

Theorem tdec_fst F p o lbl t : forall bs, fst (tdec F p o lbl t bs) = gdec F p o t bs.
Proof.
  induction t using ty_ind'; intros bs; cbn [tdec gdec]; try reflexivity; try (now rewrite ?IHt).
  - rewrite tquiet. destruct (f_opt_dec F bs) as [[[] r]| |]; cbn [bind fst snd]; try reflexivity.
    rewrite fst_tbind, IHt. unfold dec in *. destruct (gdec F p o t r) as [[]| |]; reflexivity.
  - rewrite tquiet. destruct (f_seq_dec F bs) as [[n r]| |]; cbn [bind fst snd]; try reflexivity.
    rewrite fst_tbind, rounds_fst by exact IHt. unfold dec_count. rewrite iterN_nat.
    change (fun s => let* (v, r) := gdec F p o t (snd s) in Ok (v :: fst s, r)) with (cstep (gdec F p o t)).
    destruct (iter_nat _ _ _) as [[]| |]; reflexivity.
  - rewrite tquiet. destruct (f_seq_dec F bs) as [[m r]| |]; cbn [bind fst snd]; try reflexivity.
    rewrite fst_tbind, rounds_fst by exact IHt. unfold dec_count. rewrite iterN_nat.
    change (fun s => let* (v, r) := gdec F p o t (snd s) in Ok (v :: fst s, r)) with (cstep (gdec F p o t)).
    destruct (iter_nat _ _ _) as [[]| |]; try reflexivity. cbn [bind fst snd]. destruct (m =? n); reflexivity.
  - rewrite tquiet. destruct (f_seq_dec F bs) as [[n r]| |]; cbn [bind fst snd]; try reflexivity.
    rewrite fst_tbind, (titer_fst _ _ (sstep (gdec F p o t))).
    + rewrite iterN_nat, (sstep_set _ _ 0). destruct (iter_nat _ _ _) as [[i []]| |]; reflexivity.
    + intros s. rewrite fst_tbind, fst_within, IHt. unfold sstep. destruct (gdec F p o t (snd (snd s))) as [[]| |]; reflexivity.
  - rewrite tquiet. destruct (f_seq_dec F bs) as [[m r]| |]; cbn [bind fst snd]; try reflexivity.
    destruct (m <? lenN ts).
    + rewrite fst_tbind, !firstn_map, tlist_map by (apply Forall_firstn'; assumption). destruct (dec_list _ r) as [[]| |]; reflexivity.
    + rewrite fst_tbind, tlist_map by assumption. destruct (dec_list _ r) as [[vs r']| |]; try reflexivity.
      cbn [bind fst snd]. rewrite tquiet. destruct (f_skip_rest F (m - lenN ts) r') as [[]| |]; reflexivity.
  - rewrite tquiet. destruct (f_map_dec F bs) as [[n r]| |]; cbn [bind fst snd]; try reflexivity.
    rewrite fst_tbind, (titer_fst _ _ (fun s => let* (k, r) := gdec F p o t1 (snd s) in
                                               let* (v, r') := gdec F p o t2 r in Ok (map_insert k v (fst s), r'))).
    + rewrite iterN_nat. destruct (iter_nat _ _ _) as [[]| |]; reflexivity.
    + intros s. rewrite fst_tbind, IHt1. unfold dec in *. destruct (gdec F p o t1 (snd s)) as [[k r1]| |]; try reflexivity.
      cbn [bind fst snd]. rewrite fst_tbind, IHt2. destruct (gdec F p o t2 r1) as [[]| |]; reflexivity.
  - rewrite tquiet. destruct (f_map_dec F bs) as [[n r]| |]; cbn [bind fst snd]; try reflexivity.
    rewrite iterN_nat, fst_tbind. rewrite (titer_fst _ _ (dec_field match fs with [] => fun bs => let* (_, r) := f_skip F bs in Ok (VUnit, r) | _ => gdec F p o t end
      (map (fun ft => fname (fst ft)) fs) (map (fun ft => gdec F p o (snd ft)) fs) (f_skip F))).
    + destruct (iter_nat _ _ _) as [[s r']| |]; try reflexivity. cbn [bind fst snd]. rewrite tquiet. destruct (fill _ s); reflexivity.
    + intros s. unfold tfield, dec_field. rewrite fst_tbind.
      assert (K : fst (match fs with [] => fun bs => tbind (quiet (f_skip F bs)) (fun x => quiet (Ok (VUnit, snd x))) | _ => tdec F p o lbl t end (snd s)) =
                  match fs with [] => fun bs => let* (_, r) := f_skip F bs in Ok (VUnit, r) | _ => gdec F p o t end (snd s)).
      { destruct fs; [|apply IHt]. rewrite tquiet. destruct (f_skip F (snd s)) as [[]| |]; reflexivity. }
      rewrite K. unfold dec in *.
      match goal with |- bind ?x _ = _ => destruct x as [[k r1]| |] end; try reflexivity. cbn [bind fst snd].
      destruct (find_name k _) as [i|].
      * rewrite numbered_map_snd, numbered_nth, nth_error_map. destruct (nth_error fs i) as [[f u]|] eqn:En; try reflexivity.
        cbn [option_map fst snd]. rewrite fst_tbind, fst_within.
        rewrite Forall_forall in H. rewrite (H (f, u)) by (eapply nth_error_In; eassumption). cbn [fst snd].
        destruct (gdec F p o u r1) as [[]| |]; reflexivity.
      * rewrite tquiet. destruct (f_skip F r1) as [[]| |]; reflexivity.
  - rewrite fst_tbind, IHt. unfold dec in *. destruct (gdec F p o t bs) as [[k r]| |]; try reflexivity. cbn [bind fst snd].
    destruct (find_name k tags); reflexivity.
  - rewrite tquiet. destruct (f_var_dec F bs) as [[u r0]| |]; cbn [bind fst snd]; try reflexivity.
    rewrite fst_tbind, IHt. unfold dec in *. destruct (gdec F p o t r0) as [[k r]| |]; try reflexivity. cbn [bind fst snd].
    destruct (find_name k _) as [i|]; try reflexivity.
    rewrite numbered_map_snd, numbered_nth, nth_error_map. destruct (nth_error vs i) as [[c w]|] eqn:En; try reflexivity.
    cbn [option_map fst snd]. rewrite fst_tbind. rewrite Forall_forall in H.
    assert (E : forall s, fst ((if f then tdec F p o lbl w else fun bs => within s (tdec F p o lbl w bs)) r) = gdec F p o w r).
    { intros s. destruct f; [|rewrite fst_within]; apply (H (c, w)); eapply nth_error_In; eassumption. }
    rewrite E. destruct (gdec F p o w r) as [[]| |]; reflexivity.
Qed.

(** ** Where the calls lead *)

Definition settled {A} (m : traced A) : Prop := forall x, fst m = Ok x -> at_log (snd m) [].
Definition errs {A} (P : list step -> Prop) (m : traced A) : Prop := fst m = Err -> exists q, at_log (snd m) q /\ P q.

Lemma settled_quiet {A} (r : res A) : settled (quiet r).
Proof. intros x _. apply at_nil. Qed.

Lemma settled_bind {A B} (m : traced A) (f : A -> traced B) : settled m -> (forall a, settled (f a)) -> settled (tbind m f).
Proof.
  intros Hm Hf x E. destruct (fst m) as [a| |] eqn:Em.
  - rewrite (tbind_ok _ _ a Em) in *. cbn [fst snd] in *. apply at_app0; [eapply Hm|eapply Hf]; eassumption.
  - rewrite (tbind_err _ _ Em) in E. discriminate.
  - rewrite (tbind_panic _ _ Em) in E. discriminate.
Qed.

Lemma settled_within {A} s (m : traced A) : of_type s = false -> settled m -> settled (within s m).
Proof.
  intros Hs Hm x E. unfold within in *. destruct (fst m) eqn:Em; try discriminate. cbn [snd].
  apply at_within; [exact Hs|]. eapply Hm; eassumption.
Qed.

Lemma settled_titer {T} n (f : T -> traced T) : (forall s, settled (f s)) -> forall s, settled (titer n f s).
Proof. intros H. induction n as [|n IH]; intros s; cbn [titer]; [apply settled_quiet|]. apply settled_bind; auto. Qed.

Lemma settled_tlist (ds : list (bytes -> traced (val * bytes))) : Forall (fun d => forall bs, settled (d bs)) ds -> forall bs, settled (tlist ds bs).
Proof.
  intros H. induction H as [|d ds Hd _ IH]; intros bs; cbn [tlist]; [apply settled_quiet|].
  apply settled_bind; [apply Hd|intros x]. apply settled_bind; [apply IH|intros y]. apply settled_quiet.
Qed.

Lemma settled_tdec F p o lbl t : forall bs, settled (tdec F p o lbl t bs).
Proof.
  induction t using ty_ind'; intros bs; cbn [tdec]; try apply settled_quiet; try apply IHt.
  - apply settled_bind; [apply settled_quiet|intros x]. destruct (fst x); [|apply settled_quiet].
    apply settled_bind; [apply IHt|intros y; apply settled_quiet].
  - apply settled_bind; [apply settled_quiet|intros x]. apply settled_bind; [|intros y; apply settled_quiet].
    apply settled_titer. intros s. apply settled_bind; [apply IHt|intros y; apply settled_quiet].
  - apply settled_bind; [apply settled_quiet|intros x]. apply settled_bind; [|intros y; destruct (fst x =? n); apply settled_quiet].
    apply settled_titer. intros s. apply settled_bind; [apply IHt|intros y; apply settled_quiet].
  - apply settled_bind; [apply settled_quiet|intros x]. apply settled_bind; [|intros y; apply settled_quiet].
    apply settled_titer. intros s. apply settled_bind; [apply settled_within; [reflexivity|apply IHt]|intros y; apply settled_quiet].
  - apply settled_bind; [apply settled_quiet|intros x]. assert (H' : Forall (fun d => forall bs, settled (d bs)) (map (tdec F p o lbl) ts)).
    { apply Forall_map. exact H. }
    destruct (fst x <? lenN ts).
    + apply settled_bind; [|intros y; apply settled_quiet]. apply settled_tlist, Forall_firstn', H'.
    + apply settled_bind; [apply settled_tlist, H'|intros y]. apply settled_bind; [apply settled_quiet|intros z; apply settled_quiet].
  - apply settled_bind; [apply settled_quiet|intros x]. apply settled_bind; [|intros y; apply settled_quiet].
    apply settled_titer. intros s. apply settled_bind; [apply IHt1|intros k]. apply settled_bind; [apply IHt2|intros v; apply settled_quiet].
  - apply settled_bind; [apply settled_quiet|intros x]. apply settled_bind.
    2:{ intros z. apply settled_bind; [apply settled_quiet|intros vs; apply settled_quiet]. }
    apply settled_titer. intros s. unfold tfield. apply settled_bind.
    + destruct fs; [|apply IHt]. apply settled_bind; [apply settled_quiet|intros y; apply settled_quiet].
    + intros y. destruct (find_name (fst y) _) as [i|].
      * rewrite numbered_map_snd, numbered_nth. destruct (nth_error fs i) as [[f u]|] eqn:En; [|apply settled_quiet].
        cbn [option_map fst snd]. apply settled_bind; [|intros z; apply settled_quiet]. apply settled_within; [reflexivity|].
        rewrite Forall_forall in H. apply (H (f, u)). eapply nth_error_In; eassumption.
      * apply settled_bind; [apply settled_quiet|intros z; apply settled_quiet].
  - apply settled_bind; [apply IHt|intros x]. destruct (find_name (fst x) tags); apply settled_quiet.
  - apply settled_bind; [apply settled_quiet|intros x]. apply settled_bind; [apply IHt|intros k].
    destruct (find_name (fst k) _) as [i|]; [|apply settled_quiet].
    rewrite numbered_map_snd, numbered_nth. destruct (nth_error vs i) as [[c w]|] eqn:En; [|apply settled_quiet].
    cbn [option_map fst snd]. apply settled_bind; [|intros y; apply settled_quiet]. rewrite Forall_forall in H.
    assert (K : forall bs, settled (tdec F p o lbl w bs)) by (apply (H (c, w)); eapply nth_error_In; eassumption).
    destruct f; [apply K|]. apply settled_within; [reflexivity|apply K].
Qed.

Lemma errs_quiet {A} (P : list step -> Prop) (r : res A) : (r = Err -> P []) -> errs P (quiet r).
Proof. intros H E. exists []. split; [apply at_nil|]. exact (H E). Qed.

Lemma errs_bind {A B} (P : list step -> Prop) (m : traced A) (f : A -> traced B) :
  settled m -> errs P m -> (forall a, fst m = Ok a -> errs P (f a)) -> errs P (tbind m f).
Proof.
  intros Hc Hm Hf E. destruct (fst m) as [a| |] eqn:Em.
  - rewrite (tbind_ok _ _ a Em) in *. cbn [fst snd] in *. destruct (Hf a eq_refl E) as (q & A1 & A2). exists q.
    split; [|exact A2]. apply at_app0; [eapply Hc; exact Em|exact A1].
  - rewrite (tbind_err _ _ Em). cbn [snd]. apply Hm, Em.
  - rewrite (tbind_panic _ _ Em) in E. discriminate.
Qed.

Lemma errs_within {A} (P : list step -> Prop) s (m : traced A) : of_type s = false -> errs (fun q => P ([s] ++ q)) m -> errs P (within s m).
Proof.
  intros Hs Hm E. rewrite fst_within in E. destruct (Hm E) as (q & A1 & A2). exists ([s] ++ q). split; [|exact A2].
  unfold within. rewrite E. cbn [snd]. apply at_app; [now apply at_enter|exact A1].
Qed.

Lemma errs_titer {T} (P : list step -> Prop) n (f : T -> traced T) s : (forall s, settled (f s)) ->
  (forall k s', (k < n)%nat -> iter_nat k (fun s => fst (f s)) s = Ok s' -> errs P (f s')) -> errs P (titer n f s).
Proof.
  intros Hc. revert s. induction n as [|n IH]; intros s H; cbn [titer]; [intros E; discriminate|].
  apply errs_bind; [apply Hc|apply (H O s); [lia|reflexivity]|intros s1 E1]. apply IH. intros k s' L I. apply (H (S k) s'); [lia|].
  cbn [iter_nat]. rewrite E1. exact I.
Qed.

Lemma errs_tlist (P : list step -> Prop) (ds : list (bytes -> traced (val * bytes))) :
  Forall (fun d => forall bs, settled (d bs)) ds -> forall bs,
  (forall k d x, nth_error ds k = Some d -> fst (tlist (firstn k ds) bs) = Ok x -> errs P (d (snd x))) -> errs P (tlist ds bs).
Proof.
  intros H. induction H as [|d ds Hd Hds IH]; intros bs K; cbn [tlist]; [intros E; discriminate|].
  apply errs_bind; [apply Hd|apply (K O d ([], bs)); reflexivity|intros x E1].
  apply errs_bind; [apply settled_tlist, Hds| |intros y _ E; discriminate]. apply IH. intros k d' y N E2.
  apply (K (S k) d' (fst x :: fst y, snd y)); [exact N|]. cbn [firstn tlist]. rewrite (tbind_ok _ _ _ E1). cbn [fst].
  rewrite (tbind_ok _ _ _ E2). reflexivity.
Qed.

Lemma errs_mono {A} (P Q : list step -> Prop) (m : traced A) : (forall q, P q -> Q q) -> errs P m -> errs Q m.
Proof. intros H K E. destruct (K E) as (q & A1 & A2). eauto. Qed.

Lemma errs_child {A} F p o lbl t bs u s bs' (m : traced A) : child F p o lbl t bs u s bs' -> errs (fails F p o lbl u bs') m ->
  errs (fun q => fails F p o lbl t bs (s ++ q)) m.
Proof. intros H. apply errs_mono. intros q. apply fails_in. exact H. Qed.

Lemma iter_nat_ext {T} (f g : T -> res T) : (forall s, f s = g s) -> forall n s, iter_nat n f s = iter_nat n g s.
Proof. intros H n. induction n as [|n IH]; intros s; cbn [iter_nat]; [reflexivity|]. rewrite H. destruct (g s); cbn [bind]; auto. Qed.

Lemma dec_count_all d n r z k vs bs' : iter_nat n (cstep d) ([], r) = Ok z -> (N.to_nat k < n)%nat ->
  dec_count k d r = Ok (vs, bs') -> d bs' <> Err.
Proof.
  intros H L D E. apply dec_count_iter in D. destruct D as (acc & I & _).
  apply (iter_all _ _ _ _ _ _ H L I). apply cstep_err. exact E.
Qed.

Lemma errs_cut F p o lbl t bs P : (gdec F p o t bs = Err -> errs P (tdec F p o lbl t bs)) -> errs P (tdec F p o lbl t bs).
Proof. intros H E. apply H; [|exact E]. now rewrite <- (tdec_fst F p o lbl). Qed.

Lemma errs_tdec F p o lbl t : forall bs, errs (fails F p o lbl t bs) (tdec F p o lbl t bs).
Proof.
  induction t using ty_ind'; intros bs; apply errs_cut; intros G;
    pose proof (fails_here F p o lbl _ bs G) as Here; cbn [tdec];
    try (apply errs_quiet; intros _; apply Here; intros u s bs' C; inversion C; fail).
  - (* TOpt *)
    apply errs_bind; [apply settled_quiet| |intros [some r] E].
    { apply errs_quiet. intros E. apply Here. intros u s bs' C. inversion C; congruence. }
    cbn [fst quiet snd] in *. destruct some; [|intros K; discriminate].
    apply errs_bind; [apply settled_tdec| |intros y _ K; discriminate].
    apply (errs_child F p o lbl _ bs t [] r); [now constructor|apply IHt].
  - (* TBox *) apply (errs_child F p o lbl _ bs t [] bs); [constructor|apply IHt].
  - (* TVec *)
    apply errs_bind; [apply settled_quiet| |intros [n r] E].
    { apply errs_quiet. intros E. apply Here. intros u s bs' C. inversion C; congruence. }
    cbn [fst quiet snd] in *. apply errs_bind; [| |intros y _ K; discriminate].
    { apply settled_titer. intros s. apply settled_bind; [apply settled_tdec|intros y; apply settled_quiet]. }
    apply errs_titer. { intros s. apply settled_bind; [apply settled_tdec|intros y; apply settled_quiet]. }
    intros k s' L I. apply errs_bind; [apply settled_tdec| |intros y _ K; discriminate].
    rewrite (iter_nat_ext _ (cstep (gdec F p o t))) in I.
    2:{ intros s. rewrite fst_tbind, tdec_fst. unfold cstep. destruct (gdec F p o t (snd s)) as [[]| |]; reflexivity. }
    apply (errs_child F p o lbl _ bs t [] (snd s')); [|apply IHt].
    apply (in_vec F p o lbl t bs n r (N.of_nat k) (rev (fst s')) (snd s')); [exact E|lia|].
    apply dec_count_iter. exists (fst s'). rewrite Nat2N.id, I. destruct s'; auto.
  - (* TArray *)
    apply errs_bind; [apply settled_quiet| |intros [m r] E].
    { apply errs_quiet. intros E. apply Here. intros u s bs' C. inversion C; congruence. }
    assert (R : forall s, fst (tbind (tdec F p o lbl t (snd s)) (fun y => quiet (Ok (fst y :: fst s, snd y)))) = cstep (gdec F p o t) s).
    { intros s. rewrite fst_tbind, tdec_fst. unfold cstep. destruct (gdec F p o t (snd s)) as [[]| |]; reflexivity. }
    cbn [fst quiet snd] in *. apply errs_bind.
    { apply settled_titer. intros s. apply settled_bind; [apply settled_tdec|intros y; apply settled_quiet]. }
    + apply errs_titer. { intros s. apply settled_bind; [apply settled_tdec|intros y; apply settled_quiet]. }
      intros k s' L I. apply errs_bind; [apply settled_tdec| |intros y _ K; discriminate].
      rewrite (iter_nat_ext _ _ R) in I.
      apply (errs_child F p o lbl _ bs t [] (snd s')); [|apply IHt].
      apply (in_array F p o lbl t bs n m r (N.of_nat k) (rev (fst s')) (snd s')); [exact E|lia|lia|].
      apply dec_count_iter. exists (fst s'). rewrite Nat2N.id, I. destruct s'; auto.
    + intros z Hz. rewrite (titer_fst _ _ _ R) in Hz. destruct (m =? n); [intros K; discriminate|]. apply errs_quiet. intros _. apply Here.
      intros u s bs' C. inversion C; subst.
      match goal with H : f_seq_dec F bs = Ok (?m', ?r') |- _ => assert (m' = m /\ r' = r) as [-> ->] by (split; congruence) end.
      eapply dec_count_all; [exact Hz| |eassumption]. lia.
  - (* TSet *)
    apply errs_bind; [apply settled_quiet| |intros [n r] E].
    { apply errs_quiet. intros E. apply Here. intros u s bs' C. inversion C; congruence. }
    assert (Cs : forall s, settled (tbind (within (AtIndex (fst s)) (tdec F p o lbl t (snd (snd s)))) (fun y =>
                           quiet (Ok (fst s + 1, (set_insert (fst y) (fst (snd s)), snd y)))))).
    { intros s. apply settled_bind; [apply settled_within; [reflexivity|apply settled_tdec]|intros y; apply settled_quiet]. }
    cbn [fst quiet snd] in *. apply errs_bind; [apply settled_titer, Cs| |intros y _ K; discriminate].
    apply errs_titer; [exact Cs|]. intros k [i [l r']] L I. cbn [fst snd].
    apply errs_bind; [apply settled_within; [reflexivity|apply settled_tdec]| |intros y _ K; discriminate].
    rewrite (iter_nat_ext _ (sstep (gdec F p o t))) in I.
    2:{ intros s. rewrite fst_tbind, fst_within, tdec_fst. unfold sstep. destruct (gdec F p o t (snd (snd s))) as [[]| |]; reflexivity. }
    pose proof (sstep_pos k (gdec F p o t) 0 [] r []) as S. rewrite I in S.
    destruct (iter_nat k (cstep (gdec F p o t)) ([], r)) as [[acc r'']| |] eqn:I'; try contradiction. destruct S as [-> ->].
    apply errs_within; [reflexivity|]. apply (errs_child F p o lbl (TSet t) bs t [AtIndex (0 + N.of_nat k)] r''); [|apply IHt].
    rewrite N.add_0_l. apply (in_set F p o lbl t bs n r (N.of_nat k) (rev acc) r''); [exact E|lia|].
    apply dec_count_iter. exists acc. rewrite Nat2N.id. auto.
  - (* TTup *)
    apply errs_bind; [apply settled_quiet| |intros [m r] E].
    { apply errs_quiet. intros E. apply Here. intros u s bs' C. inversion C; congruence. }
    assert (Cs : forall k, Forall (fun d => forall bs, settled (d bs)) (map (tdec F p o lbl) (firstn k ts))).
    { intros k. apply Forall_map. rewrite Forall_forall. intros u _. apply settled_tdec. }
    assert (Call : Forall (fun d => forall bs, settled (d bs)) (map (tdec F p o lbl) ts)).
    { apply Forall_map. rewrite Forall_forall. intros u _. apply settled_tdec. }
    assert (T : forall l r, fst (tlist (map (tdec F p o lbl) l) r) = dec_list (map (gdec F p o) l) r).
    { intros l. apply tlist_map. rewrite Forall_forall. intros u _ b. apply tdec_fst. }
    assert (D : forall k d x, (k < N.to_nat m)%nat -> nth_error (map (tdec F p o lbl) ts) k = Some d ->
                fst (tlist (firstn k (map (tdec F p o lbl) ts)) r) = Ok x -> errs (fails F p o lbl (TTup ts) bs) (d (snd x))).
    { intros k d [vs bs'] L N Hx. rewrite nth_error_map in N. destruct (nth_error ts k) as [u|] eqn:Eu; [|discriminate].
      cbn [option_map] in N. inversion N; subst d. cbn [snd]. rewrite firstn_map, T in Hx.
      apply (errs_child F p o lbl (TTup ts) bs u [] bs'); [eapply in_tuple; eassumption|].
      rewrite Forall_forall in H. apply H. eapply nth_error_In; eassumption. }
    cbn [fst quiet snd] in *. destruct (m <? lenN ts) eqn:Lm.
    + apply N.ltb_lt in Lm. unfold lenN in Lm. rewrite firstn_map. apply errs_bind; [apply settled_tlist, Cs| |].
      * apply errs_tlist; [apply Cs|]. intros k d x Hn Hx. rewrite <- firstn_map in Hn, Hx.
        assert (L : (k < N.to_nat m)%nat).
        { apply Nat.nle_gt. intros L. assert (K : (length (firstn (N.to_nat m) (map (tdec F p o lbl) ts)) <= k)%nat) by (rewrite firstn_length; lia).
          apply nth_error_None in K. congruence. }
        apply (D k d x L).
        -- rewrite <- (firstn_skipn (N.to_nat m) (map (tdec F p o lbl) ts)). rewrite nth_error_app1; [exact Hn|].
           apply nth_error_Some. congruence.
        -- rewrite firstn_firstn in Hx. replace (Nat.min k (N.to_nat m)) with k in Hx by lia. exact Hx.
      * intros z Hz. apply errs_quiet. intros _. apply Here. intros u s bs' C. inversion C; subst.
        match goal with H : f_seq_dec F bs = Ok (?m', ?r') |- _ => assert (m' = m /\ r' = r) as [-> ->] by (split; congruence) end.
        rewrite T in Hz. eapply (dec_list_all _ _ _ k (gdec F p o u)); [exact Hz| |].
        -- rewrite nth_error_map. match goal with K : nth_error ts k = Some u |- _ => rename K into Hu end.
           rewrite <- (firstn_skipn (N.to_nat m) ts) in Hu. rewrite nth_error_app1 in Hu by (rewrite firstn_length; lia). rewrite Hu. reflexivity.
        -- rewrite firstn_map, firstn_firstn. replace (Nat.min k (N.to_nat m)) with k by lia. eassumption.
    + apply N.ltb_ge in Lm. unfold lenN in Lm. apply errs_bind; [apply settled_tlist, Call| |].
      * apply errs_tlist; [apply Call|]. intros k d x Hn Hx. apply (D k d x); [|exact Hn|exact Hx].
        assert (k < length (map (tdec F p o lbl) ts))%nat by (apply nth_error_Some; congruence). rewrite map_length in *. lia.
      * intros z Hz. apply errs_bind; [apply settled_quiet| |intros y _ K; discriminate]. apply errs_quiet. intros _. apply Here.
        intros u s bs' C. inversion C; subst.
        match goal with H : f_seq_dec F bs = Ok (?m', ?r') |- _ => assert (m' = m /\ r' = r) as [-> ->] by (split; congruence) end.
        rewrite T in Hz. eapply (dec_list_all _ _ _ k (gdec F p o u)); [exact Hz| |].
        -- rewrite nth_error_map. match goal with K : nth_error ts k = Some u |- _ => rewrite K end. reflexivity.
        -- rewrite firstn_map. eassumption.
  - (* TMap *)
    apply errs_bind; [apply settled_quiet| |intros [n r] E].
    { apply errs_quiet. intros E. apply Here. intros u s bs' C. inversion C; congruence. }
    cbn [fst quiet snd] in *. set (g := fun s => let* (k, r) := gdec F p o t1 (snd s) in
                                                 let* (v, r') := gdec F p o t2 r in Ok (map_insert k v (fst s), r')).
    assert (Cs : forall s, settled (tbind (tdec F p o lbl t1 (snd s)) (fun k => tbind (tdec F p o lbl t2 (snd k)) (fun v =>
                           quiet (Ok (map_insert (fst k) (fst v) (fst s), snd v)))))).
    { intros s. apply settled_bind; [apply settled_tdec|intros k]. apply settled_bind; [apply settled_tdec|intros v; apply settled_quiet]. }
    apply errs_bind; [apply settled_titer, Cs| |intros y _ K; discriminate].
    apply errs_titer; [exact Cs|]. intros k [kvs r1] L I. cbn [fst snd].
    rewrite (iter_nat_ext _ g) in I.
    2:{ intros s. rewrite fst_tbind, tdec_fst. unfold g. unfold dec in *. destruct (gdec F p o t1 (snd s)) as [[k' r']| |]; try reflexivity.
        cbn [bind fst snd]. rewrite fst_tbind, tdec_fst. destruct (gdec F p o t2 r') as [[]| |]; reflexivity. }
    assert (I' : iterN (N.of_nat k) g ([], r) = Ok (kvs, r1)) by (rewrite iterN_nat, Nat2N.id; exact I).
    apply errs_bind; [apply settled_tdec| |intros [key bs'] Ek; apply errs_bind; [apply settled_tdec| |intros v _ K; discriminate]].
    + apply (errs_child F p o lbl (TMap t1 t2) bs t1 [] r1); [|apply IHt1].
      apply (in_key F p o lbl t1 t2 bs n r (N.of_nat k) kvs r1); [exact E|lia|exact I'].
    + cbn [fst snd]. rewrite tdec_fst in Ek.
      apply (errs_child F p o lbl (TMap t1 t2) bs t2 [] bs'); [|apply IHt2].
      apply (in_value F p o lbl t1 t2 bs n r (N.of_nat k) kvs r1 key bs'); [exact E|lia|exact I'|exact Ek].
  - (* TStruct *)
    apply errs_bind; [apply settled_quiet| |intros [n r] E].
    { apply errs_quiet. intros E. apply Here. intros u s bs' C. inversion C; congruence. }
    cbn [fst quiet snd] in *.
    destruct fs as [|ft0 fs0].
    { assert (Nc : forall u s bs', child F p o lbl (TStruct t []) bs u s bs' -> gdec F p o u bs' <> Err) by (intros u s bs' C; inversion C; congruence).
      cbn [map numbered].
      assert (Cs : forall s, settled (tfield (fun bs => tbind (quiet (f_skip F bs)) (fun x => quiet (Ok (VUnit, snd x)))) [] [] (f_skip F) s)).
      { intros s. unfold tfield. apply settled_bind; [apply settled_bind; [apply settled_quiet|intros y; apply settled_quiet]|intros y].
        cbn [find_name]. apply settled_bind; [apply settled_quiet|intros z; apply settled_quiet]. }
      apply errs_bind; [apply settled_titer, Cs| |].
      - apply errs_titer; [exact Cs|]. intros k s' _ _. unfold tfield.
        apply errs_bind; [apply settled_bind; [apply settled_quiet|intros y; apply settled_quiet]| |].
        + apply errs_bind; [apply settled_quiet|apply errs_quiet; intros _; apply Here, Nc|intros y _ K; discriminate].
        + intros y _. cbn [find_name]. apply errs_bind; [apply settled_quiet|apply errs_quiet; intros _; apply Here, Nc|intros z _ K; discriminate].
      - intros z _. apply errs_bind; [apply settled_quiet|apply errs_quiet; intros _; apply Here, Nc|intros y _ K; discriminate]. }
    set (fs := ft0 :: fs0) in *. assert (Nfs : fs <> []) by discriminate. clearbody fs. clear ft0 fs0.
    set (names := map (fun ft => fname (fst ft)) fs). set (ds := map (fun ft => gdec F p o (snd ft)) fs).
    set (lds := numbered _ 0 _).
    replace (match fs with [] => fun bs => tbind (quiet (f_skip F bs)) (fun x => quiet (Ok (VUnit, snd x))) | _ => tdec F p o lbl t end)
      with (tdec F p o lbl t) by (destruct fs; [congruence|reflexivity]).
    assert (Hn : forall i, nth_error lds i = option_map (fun ft => (AtNamed (lbl (TStruct t fs) i), tdec F p o lbl (snd ft))) (nth_error fs i)).
    { intros i. unfold lds. rewrite numbered_map_snd, numbered_nth. reflexivity. }
    assert (Hd : forall i, nth_error ds i = option_map (fun ft => gdec F p o (snd ft)) (nth_error fs i)) by (intros i; apply nth_error_map).
    assert (Cs : forall s, settled (tfield (tdec F p o lbl t) names lds (f_skip F) s)).
    { intros s. unfold tfield. apply settled_bind; [apply settled_tdec|].
      intros y. destruct (find_name (fst y) _) as [i|].
      - rewrite Hn. destruct (nth_error fs i) as [[f u]|] eqn:En; [|apply settled_quiet].
        cbn [option_map fst snd]. apply settled_bind; [|intros z; apply settled_quiet]. apply settled_within; [reflexivity|apply settled_tdec].
      - apply settled_bind; [apply settled_quiet|intros z; apply settled_quiet]. }
    set (g := dec_field (gdec F p o t) names ds (f_skip F)).
    assert (R : forall s, fst (tfield (tdec F p o lbl t) names lds (f_skip F) s) = g s).
    { intros s. unfold tfield, g, dec_field. rewrite fst_tbind, tdec_fst. unfold dec in *. destruct (gdec F p o t (snd s)) as [[k r1]| |]; try reflexivity.
      cbn [bind fst snd]. destruct (find_name k names) as [i|].
      - rewrite Hn, Hd. destruct (nth_error fs i) as [[f u]|]; [|reflexivity]. cbn [option_map fst snd].
        rewrite fst_tbind, fst_within, tdec_fst. destruct (gdec F p o u r1) as [[]| |]; reflexivity.
      - rewrite tquiet. destruct (f_skip F r1) as [[]| |]; reflexivity. }
    (* a part that fails makes its round fail *)
    assert (Bad : forall u s bs', child F p o lbl (TStruct t fs) bs u s bs' -> gdec F p o u bs' = Err ->
              exists j sj, (j < N.to_nat n)%nat /\ iter_nat j g (map (fun _ => None) fs, r) = Ok sj /\ g sj = Err /\
                (gdec F p o t (snd sj) = Err \/ exists key r1 i, gdec F p o t (snd sj) = Ok (key, r1) /\ find_name key names = Some i /\ nth_error fs i <> None)).
    { intros u s bs' C Eu. inversion C; subst;
        match goal with K : f_map_dec F bs = Ok (?m', ?r') |- _ => assert (m' = n /\ r' = r) as [-> ->] by (split; congruence) end;
        match goal with K : iterN _ _ _ = Ok _ |- _ => rewrite iterN_nat in K; fold names ds g in K end.
      - eexists _, _. split; [|split; [eassumption|]]; [lia|]. cbn [snd]. split; [|left; exact Eu].
        unfold g, dec_field. cbn [snd]. rewrite Eu. reflexivity.
      - eexists _, _. split; [|split; [eassumption|]]; [lia|]. cbn [snd]. split.
        + unfold g, dec_field. cbn [snd]. 
          match goal with K : gdec F p o t _ = Ok _ |- _ => rewrite K end. cbn [bind].
          match goal with K : find_name _ _ = Some _ |- _ => fold names in K; rewrite K end.
          rewrite Hd. match goal with K : nth_error fs _ = Some _ |- _ => rewrite K end. cbn [option_map snd]. rewrite Eu. reflexivity.
        + right. do 3 eexists. repeat split; try eassumption. congruence. }
    assert (Stop : forall k s', (k < N.to_nat n)%nat -> iter_nat k g (map (fun _ => None) fs, r) = Ok s' -> g s' = Err ->
              ~ (gdec F p o t (snd s') = Err \/ exists key r1 i, gdec F p o t (snd s') = Ok (key, r1) /\ find_name key names = Some i /\ nth_error fs i <> None) ->
              fails F p o lbl (TStruct t fs) bs []).
    { intros k s' L I Eg Ne. apply Here. intros u s bs' C Eu. destruct (Bad u s bs' C Eu) as (j & sj & Lj & Ij & Ej & W).
      destruct (iter_stop _ _ _ _ _ _ _ I Eg Ij eq_refl Ej) as [-> ->]. exact (Ne W). }
    apply errs_bind; [apply settled_titer, Cs| |].
    + apply errs_titer; [exact Cs|]. intros k s' L I. rewrite (iter_nat_ext _ _ R) in I.
      assert (I' : iterN (N.of_nat k) g (map (fun _ => None) fs, r) = Ok (fst s', snd s')) by (rewrite iterN_nat, Nat2N.id, I; destruct s'; reflexivity).
      unfold tfield. apply errs_bind; [apply settled_tdec| |].
      * apply (errs_child F p o lbl (TStruct t fs) bs t [] (snd s')); [|apply IHt].
        apply (in_name F p o lbl t fs bs n r (N.of_nat k) (fst s') (snd s')); [exact Nfs|exact E|lia|exact I'].
      * intros [key r1] Ek. rewrite tdec_fst in Ek. cbn [fst snd].
        destruct (find_name key names) as [i|] eqn:Ef.
        -- rewrite Hn. destruct (nth_error fs i) as [[f u]|] eqn:En.
           ++ cbn [option_map fst snd]. apply errs_bind; [apply settled_within; [reflexivity|apply settled_tdec]| |intros y _ K; discriminate].
              apply errs_within; [reflexivity|]. apply (errs_child F p o lbl (TStruct t fs) bs u [AtNamed (lbl (TStruct t fs) i)] r1).
              ** apply (in_field F p o lbl t fs bs n r (N.of_nat k) (fst s') (snd s') key i f u r1); [exact Nfs|exact E|lia|exact I'|exact Ek|exact Ef|exact En].
              ** rewrite Forall_forall in H. apply (H (f, u)). eapply nth_error_In; eassumption.
           ++ cbn [option_map]. apply errs_quiet. intros _. apply (Stop k s' L I).
              ** unfold g, dec_field. rewrite Ek. cbn [bind]. rewrite Ef, Hd, En. reflexivity.
              ** intros [K|(key' & r2 & j & K1 & K2 & K3)]; [congruence|]. assert (key' = key) by congruence. subst. assert (j = i) by congruence. subst. congruence.
        -- apply errs_bind; [apply settled_quiet| |intros y _ K; discriminate]. apply errs_quiet. intros Es. apply (Stop k s' L I).
           ++ unfold g, dec_field. rewrite Ek. cbn [bind]. rewrite Ef, Es. reflexivity.
           ++ intros [K|(key' & r2 & j & K1 & K2 & K3)]; [congruence|]. assert (key' = key) by congruence. subst. congruence.
    + intros z Hz. rewrite (titer_fst _ _ _ R) in Hz. apply errs_bind; [apply settled_quiet| |intros y _ K; discriminate]. apply errs_quiet. intros _. apply Here.
      intros u s bs' C Eu. destruct (Bad u s bs' C Eu) as (j & sj & Lj & Ij & Ej & _). exact (iter_all _ _ _ _ _ _ Hz Lj Ij Ej).
  - (* TTag *)
    apply errs_bind; [apply settled_tdec| |intros [k r] Ek].
    + apply (errs_child F p o lbl (TTag t tags) bs t [] bs); [constructor|apply IHt].
    + rewrite tdec_fst in Ek. cbn [fst snd]. destruct (find_name k tags); apply errs_quiet; [discriminate|]. intros _. apply Here.
      intros u s bs' C. inversion C; subst. congruence.
  - (* TEnum *)
    apply errs_bind; [apply settled_quiet| |intros [u0 r0] E].
    { apply errs_quiet. intros E. apply Here. intros u s bs' C. inversion C; congruence. }
    destruct u0. cbn [fst quiet snd] in *. apply errs_bind; [apply settled_tdec| |intros [k r] Ek].
    { apply (errs_child F p o lbl (TEnum f t vs) bs t [] r0); [now constructor|apply IHt]. }
    rewrite tdec_fst in Ek. cbn [fst snd].
    destruct (find_name k (map fst vs)) as [i|] eqn:Ef.
    + rewrite numbered_map_snd, numbered_nth. destruct (nth_error vs i) as [[c w]|] eqn:En; cbn [option_map].
      * cbn [fst snd Nat.add]. assert (C : child F p o lbl (TEnum f t vs) bs w (if f then [] else [AtVariant (lbl (TEnum f t vs) i)]) r) by (eapply in_variant; eassumption).
        rewrite Forall_forall in H. assert (W : forall b, errs (fails F p o lbl w b) (tdec F p o lbl w b)) by (apply (H (c, w)); eapply nth_error_In; eassumption).
        apply errs_bind; [| |intros y _ K; discriminate].
        -- destruct f; [apply settled_tdec|]. apply settled_within; [reflexivity|apply settled_tdec].
        -- destruct f; [exact (errs_child F p o lbl _ bs w [] r _ C (W r))|]. apply errs_within; [reflexivity|].
           exact (errs_child F p o lbl _ bs w _ r _ C (W r)).
      * apply errs_quiet. intros _. apply Here. intros u s bs' C. inversion C; subst; [congruence|].
        match goal with K : f_var_dec F bs = Ok (tt, ?r') |- _ => assert (r' = r0) by congruence; subst r' end.
        match goal with K : gdec F p o t r0 = Ok (?k', ?r') |- _ => assert (k' = k /\ r' = r) as [-> ->] by (split; congruence) end. congruence.
    + apply errs_quiet. intros _. apply Here. intros u s bs' C. inversion C; subst; [congruence|].
      match goal with K : f_var_dec F bs = Ok (tt, ?r') |- _ => assert (r' = r0) by congruence; subst r' end.
      match goal with K : gdec F p o t r0 = Ok (?k', ?r') |- _ => assert (k' = k /\ r' = r) as [-> ->] by (split; congruence) end. congruence.
Qed.

(** ** The calls in a context *)

Definition plain_call (x : op * (bool * bool)) : Prop := x = (Leave, (true, true)) \/ exists s, of_type s = false /\ x = (Enter s, (true, true)).
Definition plain_calls (m : history) : Prop := Forall plain_call m.

Lemma calls_bind {A B} (m : traced A) (f : A -> traced B) : plain_calls (snd m) -> (forall a, plain_calls (snd (f a))) -> plain_calls (snd (tbind m f)).
Proof. intros H K. unfold tbind. destruct (fst m); cbn [snd]; try exact H. apply Forall_app. split; [exact H|apply K]. Qed.

Lemma calls_quiet {A} (r : res A) : plain_calls (snd (quiet r)).
Proof. constructor. Qed.

Lemma calls_within {A} s (m : traced A) : of_type s = false -> plain_calls (snd m) -> plain_calls (snd (within s m)).
Proof.
  intros Hs H. assert (E : plain_calls (call (Enter s))) by (constructor; [right; eauto|constructor]).
  assert (L : plain_calls (call Leave)) by (constructor; [left; reflexivity|constructor]).
  unfold within. destruct (fst m); cbn [snd]; repeat (apply Forall_app; split); auto.
Qed.

Lemma calls_titer {T} n (f : T -> traced T) : (forall s, plain_calls (snd (f s))) -> forall s, plain_calls (snd (titer n f s)).
Proof. intros H. induction n as [|n IH]; intros s; cbn [titer]; [constructor|]. apply calls_bind; auto. Qed.

Lemma calls_tlist (ds : list (bytes -> traced (val * bytes))) : Forall (fun d => forall bs, plain_calls (snd (d bs))) ds -> forall bs, plain_calls (snd (tlist ds bs)).
Proof.
  intros H. induction H as [|d ds Hd _ IH]; intros bs; cbn [tlist]; [constructor|].
  apply calls_bind; [apply Hd|intros x]. apply calls_bind; [apply IH|intros y; constructor].
Qed.

Lemma calls_tdec F p o lbl t : forall bs, plain_calls (snd (tdec F p o lbl t bs)).
Proof.
  induction t using ty_ind'; intros bs; cbn [tdec]; try apply calls_quiet; try apply IHt.
  - apply calls_bind; [constructor|intros x]. destruct (fst x); [|constructor].
    apply calls_bind; [apply IHt|intros y; constructor].
  - apply calls_bind; [constructor|intros x]. apply calls_bind; [|intros y; constructor].
    apply calls_titer. intros s. apply calls_bind; [apply IHt|intros y; constructor].
  - apply calls_bind; [constructor|intros x]. apply calls_bind; [|intros y; destruct (fst x =? n); constructor].
    apply calls_titer. intros s. apply calls_bind; [apply IHt|intros y; constructor].
  - apply calls_bind; [constructor|intros x]. apply calls_bind; [|intros y; constructor].
    apply calls_titer. intros s. apply calls_bind; [apply calls_within; [reflexivity|apply IHt]|intros y; constructor].
  - apply calls_bind; [constructor|intros x]. assert (H' : Forall (fun d => forall bs, plain_calls (snd (d bs))) (map (tdec F p o lbl) ts)).
    { apply Forall_map. exact H. }
    destruct (fst x <? lenN ts).
    + apply calls_bind; [|intros y; constructor]. apply calls_tlist, Forall_firstn', H'.
    + apply calls_bind; [apply calls_tlist, H'|intros y]. apply calls_bind; [constructor|intros z; constructor].
  - apply calls_bind; [constructor|intros x]. apply calls_bind; [|intros y; constructor].
    apply calls_titer. intros s. apply calls_bind; [apply IHt1|intros k]. apply calls_bind; [apply IHt2|intros v; constructor].
  - apply calls_bind; [constructor|intros x]. apply calls_bind.
    2:{ intros z. apply calls_bind; [constructor|intros vs; constructor]. }
    apply calls_titer. intros s. unfold tfield. apply calls_bind.
    + destruct fs; [|apply IHt]. apply calls_bind; [constructor|intros y; constructor].
    + intros y. destruct (find_name (fst y) _) as [i|].
      * rewrite numbered_map_snd, numbered_nth. destruct (nth_error fs i) as [[f u]|] eqn:En; [|constructor].
        cbn [option_map fst snd]. apply calls_bind; [|intros z; constructor]. apply calls_within; [reflexivity|].
        rewrite Forall_forall in H. apply (H (f, u)). eapply nth_error_In; eassumption.
      * apply calls_bind; [constructor|intros z; constructor].
  - apply calls_bind; [apply IHt|intros x]. destruct (find_name (fst x) tags); constructor.
  - apply calls_bind; [constructor|intros x]. apply calls_bind; [apply IHt|intros k].
    destruct (find_name (fst k) _) as [i|]; [|constructor].
    rewrite numbered_map_snd, numbered_nth. destruct (nth_error vs i) as [[c w]|] eqn:En; [|constructor].
    cbn [option_map fst snd]. apply calls_bind; [|intros y; constructor]. rewrite Forall_forall in H.
    assert (K : forall bs, plain_calls (snd (tdec F p o lbl w bs))) by (apply (H (c, w)); eapply nth_error_In; eassumption).
    destruct f; [apply K|]. apply calls_within; [reflexivity|apply K].
Qed.

Lemma plain_acts p l : forall c q, plain_calls l -> c_cap c = 0 -> c_held c = 0 -> true_path false (c_path c) l = Some q ->
  exists c', acts p l c = Ok c' /\ c_path c' = q /\ c_cap c' = 0 /\ c_held c' = 0 /\ c_errors c' = c_errors c.
Proof.
  induction l as [|x l IH]; intros c q Hl Hc Hh Hq.
  - cbn in Hq. inversion Hq. exists c. auto.
  - inversion Hl as [|y k Hx Hl']; subst. destruct Hx as [->|(s & Hs & ->)].
    + cbn [acts act]. unfold pop_path. rewrite Hc. cbn [N.ltb N.compare bind]. unfold exclusive. rewrite Hh. cbn [N.eqb bind].
      cbn [true_path] in Hq. destruct (c_path c) as [|s0 k] eqn:Ep; [discriminate|].
      destruct (IH (with_path (removelast (s0 :: k)) c) q Hl') as (c' & E1 & E2 & E3 & E4 & E5); auto. exists c'. auto.
    + cbn [acts]. replace (act p true true (Enter s) c) with (push_path true s c) by (destruct s; try discriminate; reflexivity).
      unfold push_path, exclusive. rewrite Hh. cbn [N.eqb bind].
      cbn [true_path] in Hq. rewrite Hs in Hq. cbn [andb] in Hq.
      destruct (IH (with_path (c_path c ++ [s]) c) q Hl') as (c' & E1 & E2 & E3 & E4 & E5); auto. exists c'. auto.
Qed.

(** ** There is one failing part *)

Lemma iter_err {T} (g : T -> res T) n k s sk : iter_nat k g s = Ok sk -> g sk = Err -> (k < n)%nat -> iter_nat n g s = Err.
Proof.
  intros Hk Ek L. replace n with (k + S (n - k - 1))%nat by lia. rewrite iter_nat_app, Hk. cbn [bind iter_nat]. now rewrite Ek.
Qed.

Lemma dec_count_err d n k r vs bs' : dec_count k d r = Ok (vs, bs') -> d bs' = Err -> k < n -> dec_count n d r = Err.
Proof.
  intros D E L. apply dec_count_iter in D. destruct D as (acc & I & _). unfold dec_count. rewrite iterN_nat.
  change (fun s => let* (v, r) := d (snd s) in Ok (v :: fst s, r)) with (cstep d).
  rewrite (iter_err _ _ _ _ _ I); [reflexivity| |lia]. apply cstep_err, E.
Qed.

Lemma dec_count_same d k k' r vs vs' bs bs' : dec_count k d r = Ok (vs, bs) -> dec_count k' d r = Ok (vs', bs') ->
  d bs = Err -> d bs' = Err -> k = k' /\ bs = bs'.
Proof.
  intros D D' E E'. apply dec_count_iter in D. apply dec_count_iter in D'. destruct D as (acc & I & _), D' as (acc' & I' & _).
  apply (proj2 (cstep_err d (acc, bs))) in E. apply (proj2 (cstep_err d (acc', bs'))) in E'.
  destruct (iter_stop _ _ _ _ _ _ _ I E I' eq_refl E') as [K1 K2]. split; [lia|congruence].
Qed.

Lemma dec_list_stop (es : list (dec val)) : forall k e bs vs bs', dec_list (firstn k es) bs = Ok (vs, bs') -> nth_error es k = Some e ->
  e bs' = Err -> dec_list es bs = Err.
Proof.
  induction es as [|d es IH]; intros k e bs vs bs' D N E; [destruct k; discriminate|].
  destruct k as [|k]; cbn [nth_error firstn dec_list] in *.
  - inversion N; inversion D; subst. rewrite E. reflexivity.
  - unfold dec in *. destruct (d bs) as [[v r]| |]; cbn [bind] in *; try discriminate.
    destruct (dec_list (firstn k es) r) as [[vs' r']| |] eqn:D'; cbn [bind] in D; try discriminate. inversion D; subst.
    rewrite (IH k e r vs' bs' D' N E). reflexivity.
Qed.

Lemma set_err d n k r vs bs' : dec_count k d r = Ok (vs, bs') -> d bs' = Err -> k < n ->
  iterN n (fun s => let* (v, r) := d (snd s) in Ok (set_insert v (fst s), r)) ([], r) = Err.
Proof.
  intros D E L. apply dec_count_iter in D. destruct D as (acc & I & _). rewrite iterN_nat, (sstep_set _ _ 0).
  pose proof (sstep_pos (N.to_nat n) d 0 [] r []) as S.
  rewrite (iter_err (cstep d) (N.to_nat n) _ _ _ I) in S; [|apply cstep_err, E|lia].
  destruct (iter_nat _ (sstep d) _) as [[? []]| |]; try contradiction. reflexivity.
Qed.

Section Parts.
  Variables (F : fmt) (p : plat) (o : N) (lbl : ty -> nat -> bytes).

  Definition mstep t1 t2 (s : list (val * val) * bytes) : res (list (val * val) * bytes) :=
    let* (k, r) := gdec F p o t1 (snd s) in let* (v, r') := gdec F p o t2 r in Ok (map_insert k v (fst s), r').
  Definition fstep t (fs : list (finfo * ty)) : slots * bytes -> res (slots * bytes) :=
    dec_field (gdec F p o t) (map (fun ft => fname (fst ft)) fs) (map (fun ft => gdec F p o (snd ft)) fs) (f_skip F).

  Lemma child_err t bs u s bs' : child F p o lbl t bs u s bs' -> gdec F p o u bs' = Err -> gdec F p o t bs = Err.
  Proof.
    intros C E. destruct C; cbn [gdec]; try (rewrite H; cbn [bind]).
    - rewrite E. reflexivity.
    - exact E.
    - rewrite (dec_count_err _ _ _ _ _ _ H1 E H0). reflexivity.
    - rewrite (dec_count_err _ (N.min m (n + 1)) _ _ _ _ H2 E) by lia. reflexivity.
    - rewrite (set_err _ _ _ _ _ _ H1 E H0). reflexivity.
    - rewrite <- firstn_map in H2. destruct (m <? lenN ts) eqn:L.
      + rewrite (dec_list_stop _ k (gdec F p o u) r vs bs'); [reflexivity| | |exact E].
        * rewrite firstn_firstn. replace (Nat.min k (N.to_nat m)) with k by lia. exact H2.
        * rewrite firstn_map, nth_error_map.
          replace (nth_error (firstn (N.to_nat m) ts) k) with (Some u); [reflexivity|]. rewrite <- H1. symmetry.
          apply N.ltb_lt in L. unfold lenN in L. rewrite <- (firstn_skipn (N.to_nat m) ts) at 2. rewrite nth_error_app1; [reflexivity|].
          rewrite firstn_length. lia.
      + rewrite (dec_list_stop _ k (gdec F p o u) r vs bs'); [reflexivity|exact H2| |exact E].
        rewrite nth_error_map, H1. reflexivity.
    - rewrite iterN_nat in *. fold (mstep tk tv) in *. rewrite (iter_err (mstep tk tv) _ _ _ _ H1); [reflexivity| |lia].
      unfold mstep. cbn [snd]. rewrite E. reflexivity.
    - rewrite iterN_nat in *. fold (mstep tk tv) in *. rewrite (iter_err (mstep tk tv) _ _ _ _ H1); [reflexivity| |lia].
      unfold mstep. cbn [snd]. rewrite H2. cbn [bind]. rewrite E. reflexivity.
    - rewrite H0. cbn [bind]. destruct fs as [|ft fs]; [congruence|]. rewrite iterN_nat in *. fold (fstep kt (ft :: fs)) in *.
      rewrite (iter_err (fstep kt (ft :: fs)) _ _ _ _ H2); [reflexivity| |lia].
      unfold fstep, dec_field. cbn [snd]. rewrite E. reflexivity.
    - rewrite H0. cbn [bind]. destruct fs as [|ft fs]; [congruence|]. rewrite iterN_nat in *. fold (fstep kt (ft :: fs)) in *.
      rewrite (iter_err (fstep kt (ft :: fs)) _ _ _ _ H2); [reflexivity| |lia].
      unfold fstep, dec_field. cbn [snd]. rewrite H3. cbn [bind]. rewrite H4, nth_error_map, H5. cbn [option_map snd]. rewrite E. reflexivity.
    - rewrite E. reflexivity.
    - rewrite E. reflexivity.
    - rewrite H0. cbn [bind]. rewrite H1, nth_error_map, H2. cbn [option_map snd]. rewrite E. reflexivity.
  Qed.

  Lemma fails_err t bs q : fails F p o lbl t bs q -> gdec F p o t bs = Err.
  Proof. induction 1; [assumption|]. eapply child_err; eassumption. Qed.

  Ltac same :=
    repeat match goal with
    | H : ?x = Ok _, H' : ?x = Ok _ |- _ => let K := fresh in pose proof (eq_trans (eq_sym H) H') as K; clear H'; injection K; clear K; intros; subst
    | H : ?x = Some _, H' : ?x = Some _ |- _ => let K := fresh in pose proof (eq_trans (eq_sym H) H') as K; clear H'; injection K; clear K; intros; subst
    end.

  Lemma mstep_err tk tv kvs r : mstep tk tv (kvs, r) = Err <->
    gdec F p o tk r = Err \/ exists key r', gdec F p o tk r = Ok (key, r') /\ gdec F p o tv r' = Err.
  Proof.
    unfold mstep. cbn [fst snd]. unfold dec in *. split.
    - destruct (gdec F p o tk r) as [[key r']| |]; cbn [bind]; auto; [|discriminate]. intros H. right. exists key, r'. split; [reflexivity|].
      destruct (gdec F p o tv r') as [[]| |]; try discriminate. reflexivity.
    - intros [-> |(key & r' & -> & H)]; [reflexivity|]. cbn [bind]. rewrite H. reflexivity.
  Qed.

  Lemma map_same tk tv r k k' a b a' b' : iterN k (mstep tk tv) ([], r) = Ok (a, b) -> mstep tk tv (a, b) = Err ->
    iterN k' (mstep tk tv) ([], r) = Ok (a', b') -> mstep tk tv (a', b') = Err -> b = b'.
  Proof.
    rewrite !iterN_nat. intros I E I' E'. destruct (iter_stop _ _ _ _ _ _ _ I E I' eq_refl E') as [_ K]. congruence.
  Qed.

  Lemma fields_same kt fs s0 k k' a b a' b' : iterN k (fstep kt fs) s0 = Ok (a, b) -> fstep kt fs (a, b) = Err ->
    iterN k' (fstep kt fs) s0 = Ok (a', b') -> fstep kt fs (a', b') = Err -> b = b'.
  Proof.
    rewrite !iterN_nat. intros I E I' E'. destruct (iter_stop _ _ _ _ _ _ _ I E I' eq_refl E') as [_ K]. congruence.
  Qed.

  Lemma fstep_name kt fs s r : gdec F p o kt r = Err -> fstep kt fs (s, r) = Err.
  Proof. intros E. unfold fstep, dec_field. cbn [snd]. rewrite E. reflexivity. Qed.

  Lemma fstep_field kt fs s r key r' i f u : gdec F p o kt r = Ok (key, r') -> find_name key (map (fun ft => fname (fst ft)) fs) = Some i ->
    nth_error fs i = Some (f, u) -> gdec F p o u r' = Err -> fstep kt fs (s, r) = Err.
  Proof. intros E1 E2 E3 E4. unfold fstep, dec_field. cbn [snd]. rewrite E1. cbn [bind]. rewrite E2, nth_error_map, E3. cbn [option_map snd]. rewrite E4. reflexivity. Qed.

  Lemma child_one t bs u s bs' : child F p o lbl t bs u s bs' -> gdec F p o u bs' = Err ->
    forall u' s' bs'', child F p o lbl t bs u' s' bs'' -> gdec F p o u' bs'' = Err -> u' = u /\ s' = s /\ bs'' = bs'.
  Proof.
    intros C E u' s' bs'' C' E'.
    destruct C; inversion C'; subst; clear C'; same; try (repeat split; congruence);
    try (match goal with D : dec_count _ _ _ = Ok _, D' : dec_count _ _ _ = Ok _ |- _ =>
           destruct (dec_count_same _ _ _ _ _ _ _ _ D D' E E'); repeat split; congruence end).
    { (* TTup *)
      match goal with D : dec_list (map _ (firstn ?k _)) ?r = Ok (_, ?b), D' : dec_list (map _ (firstn ?k' _)) _ = Ok (_, ?b'),
                      N : nth_error ts ?k = Some ?v, N' : nth_error ts ?k' = Some ?v' |- _ =>
        assert (W : forall k k' v b vs b' vs', gdec F p o v b = Err -> nth_error ts k = Some v -> (k < k')%nat ->
                  dec_list (map (gdec F p o) (firstn k ts)) r = Ok (vs, b) -> dec_list (map (gdec F p o) (firstn k' ts)) r = Ok (vs', b') -> False);
          [|destruct (Nat.lt_trichotomy k k') as [L|[<-|L]];
            [exfalso; first [exact (W _ _ _ _ _ _ _ E N L D D')|exact (W _ _ _ _ _ _ _ E' N L D D')]
            |same; repeat split; congruence
            |exfalso; first [exact (W _ _ _ _ _ _ _ E' N' L D' D)|exact (W _ _ _ _ _ _ _ E N' L D' D)]]]
      end.
      clear. intros k k' v b vs b' vs' Ev Nv L D D'.
      rewrite (dec_list_stop _ k (gdec F p o v) _ vs b) in D'; [discriminate| | |exact Ev].
      + rewrite firstn_map, firstn_firstn. replace (Nat.min k k') with k by lia. exact D.
      + rewrite nth_error_map. rewrite <- (firstn_skipn k' ts) in Nv. rewrite nth_error_app1 in Nv; [rewrite Nv; reflexivity|].
        rewrite firstn_length. assert (k < length ts)%nat; [|lia]. 
        apply nth_error_Some. rewrite (firstn_skipn k' ts) in Nv. congruence. }
    all: try (match goal with I : iterN _ _ ([], _) = Ok (?a, ?b), I' : iterN _ _ ([], _) = Ok (?a', ?b') |- _ =>
        assert (b = b') by (eapply map_same; [exact I| |exact I'|]; apply mstep_err; eauto 6) end; subst; same; try (repeat split; congruence); congruence).
    all: try (match goal with I : iterN _ _ (map _ _, _) = Ok (?a, ?b), I' : iterN _ _ (map _ _, _) = Ok (?a', ?b') |- _ =>
        assert (b = b') by (eapply fields_same; [exact I| |exact I'|]; first [eapply fstep_name; eassumption|eapply fstep_field; eassumption]) end;
        subst; same; try (repeat split; congruence); congruence).
  Qed.

  (** There is only one failing part that has no failing part. *)
  Lemma fails_one t bs q : fails F p o lbl t bs q -> forall q', fails F p o lbl t bs q' -> q' = q.
  Proof.
    induction 1 as [t bs E N|t bs u s bs' q C H IH]; intros q' H'.
    - inversion H' as [? ? _ _|? ? u s bs' q0 C K]; subst; [reflexivity|]. destruct (N u s bs' C). eapply fails_err, K.
    - inversion H' as [? ? _ N|? ? u' s' bs'' q0 C' K]; subst.
      + destruct (N u s bs' C). eapply fails_err, H.
      + destruct (child_one _ _ _ _ _ C (fails_err _ _ _ H) _ _ _ C' (fails_err _ _ _ K)) as (-> & -> & ->).
        now rewrite (IH q0 K).
  Qed.
End Parts.
