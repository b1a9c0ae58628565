(** Whole histories of calls. *)
From Coq Require Import List NArith Bool Lia Arith.
From Verif Require Import Base BaseFacts Alloc AllocSpec AllocFacts AllocGrow AllocVec AllocMerge.
Import ListNotations.
Open Scope N_scope.

(** ** Tables of handles *)

Lemma length_put : forall {A} (l : list (option A)) h x, length (put l h x) = length l.
Proof. induction l as [|y t IH]; intros [|h] x; simpl; auto. Qed.

Lemma nth_put_eq : forall {A} (l : list (option A)) h x y, nth_error l h = Some y -> nth_error (put l h x) h = Some x.
Proof. induction l as [|z t IH]; intros [|h] x y H; simpl in *; try discriminate; eauto. Qed.

Lemma nth_put_ne : forall {A} (l : list (option A)) h g x, h <> g -> nth_error (put l h x) g = nth_error l g.
Proof. induction l as [|z t IH]; intros [|h] [|g] x D; simpl in *; auto; try congruence. Qed.

Lemma nth_snoc : forall {A} (l : list A) x g,
  nth_error (l ++ [x]) g = if Nat.eqb g (length l) then Some x else nth_error l g.
Proof.
  intros A l x g. destruct (Nat.eqb_spec g (length l)) as [->|D].
  - rewrite nth_error_app2, Nat.sub_diag by lia. reflexivity.
  - destruct (Nat.lt_ge_cases g (length l)).
    + now rewrite nth_error_app1.
    + rewrite nth_error_app2 by lia. rewrite (proj2 (nth_error_None l g)) by lia.
      destruct (g - length l)%nat as [|k] eqn:E; [lia|]. simpl. destruct k; reflexivity.
Qed.

(** ** The state of a program *)

Definition entry (s : ast) (rl : list N) (v : option (option vec)) (q : option (option seqn)) : Prop :=
  match v, q with
  | Some (Some v), Some (Some q) => vok s rl q v
  | Some None, Some None => True
  | None, None => True
  | _, _ => False
  end.

Record wok (s : ast) (rl : list N) (vs : list (option vec)) (ls : lists) : Prop := mkwok {
  wk_inv : inv s rl;
  wk_all : forall h, entry s rl (nth_error vs h) (nth_error ls h);
  wk_uniq : forall h g v o r, h <> g -> nth_error vs h = Some (Some v) -> nth_error vs g = Some (Some o) ->
              v_region v = Some r -> v_region o <> Some r }.

Lemma wok_len : forall s rl vs ls, wok s rl vs ls -> length vs = length ls.
Proof.
  intros s rl vs ls [_ E _].
  destruct (Nat.lt_trichotomy (length vs) (length ls)) as [L|[L|L]]; auto; exfalso.
  - specialize (E (length vs)). rewrite (proj2 (nth_error_None vs _)) in E by lia.
    destruct (nth_error ls (length vs)) eqn:X; [exact E|]. apply nth_error_None in X. lia.
  - specialize (E (length ls)). rewrite (proj2 (nth_error_None ls _)) in E by lia.
    destruct (nth_error vs (length ls)) as [[|]|] eqn:X; try exact E. apply nth_error_None in X. lia.
Qed.

Lemma wok_get : forall w s rl ls h q, s = w_alloc w -> wok s rl (w_vecs w) ls -> lget ls h = Some q ->
  exists v, get w h = Some v /\ nth_error (w_vecs w) h = Some (Some v) /\ nth_error ls h = Some (Some q) /\ vok s rl q v.
Proof.
  intros w s rl ls h q -> K L. pose proof (wk_all _ _ _ _ K h) as E. unfold lget in L. unfold get.
  destruct (nth_error ls h) as [[q'|]|]; try discriminate. injection L as ->.
  destruct (nth_error (w_vecs w) h) as [[v|]|]; simpl in E; try tauto. eauto.
Qed.

Lemma wok_upd : forall s rl vs ls s' rl' vs' ls' X (nv : option (nat * vec * seqn)),
  wok s rl vs ls -> inv s' rl' -> keepsP s s' rl rl' X ->
  (forall h v q, nv = Some (h, v, q) -> vok s' rl' q v /\ forall r, v_region v = Some r -> fresh s rl X r) ->
  (forall h,
     (exists v q, nv = Some (h, v, q) /\ nth_error vs' h = Some (Some v) /\ nth_error ls' h = Some (Some q))
     \/ (nth_error vs' h = Some None /\ nth_error ls' h = Some None)
     \/ (nth_error vs' h = nth_error vs h /\ nth_error ls' h = nth_error ls h
         /\ forall v r, nth_error vs h = Some (Some v) -> v_region v = Some r -> ~ X r)) ->
  wok s' rl' vs' ls'.
Proof.
  intros s rl vs ls s' rl' vs' ls' X nv K I Kp Nv U.
  assert (Old : forall h v, nth_error vs h = Some (Some v) -> forall r, v_region v = Some r -> In r rl /\ a_occ s <> Some r).
  { intros h v Hv r Hr. pose proof (wk_all _ _ _ _ K h) as E. rewrite Hv in E.
    destruct (nth_error ls h) as [[q|]|]; simpl in E; try tauto.
    destruct (vk_some _ _ _ _ E r Hr) as (A1 & A2 & _). auto. }
  constructor.
  - exact I.
  - intros h. destruct (U h) as [(v & q & E & Ev & El)|[(Ev & El)|(Ev & El & D)]]; rewrite Ev, El.
    + simpl. apply (Nv h v q E).
    + exact Logic.I.
    + pose proof (wk_all _ _ _ _ K h) as E. unfold entry in *.
      destruct (nth_error vs h) as [[v|]|] eqn:Hv; destruct (nth_error ls h) as [[q|]|]; auto.
      apply (vok_keeps s s' rl rl' X); auto. intros r Hr. apply (D v r); auto.
  - intros h g v o r Dg Hv Ho Hr Hr'.
    destruct (U h) as [(v1 & q1 & E1 & Ev1 & El1)|[(Ev1 & El1)|(Ev1 & El1 & D1)]];
    destruct (U g) as [(v2 & q2 & E2 & Ev2 & El2)|[(Ev2 & El2)|(Ev2 & El2 & D2)]]; try congruence.
    + rewrite Ev1 in Hv. injection Hv as <-. rewrite Ev2 in Ho.
      destruct (Old g o Ho r Hr') as (J & Oc).
      apply (proj2 (Nv _ _ _ E1) r Hr J Oc). apply (D2 o r); auto.
    + rewrite Ev2 in Ho. injection Ho as <-. rewrite Ev1 in Hv.
      destruct (Old h v Hv r Hr) as (J & Oc).
      apply (proj2 (Nv _ _ _ E2) r Hr' J Oc). apply (D1 v r); auto.
    + apply (wk_uniq _ _ _ _ K h g v o r); congruence.
Qed.

(** A call that changes the vector at [h], or makes it. *)
Lemma wok_change : forall s rl vs ls s' rl' h v q q' v',
  wok s rl vs ls -> nth_error vs h = Some (Some v) -> nth_error ls h = Some (Some q) ->
  changed s s' rl rl' (of (v_region v)) q' v' ->
  wok s' rl' (put vs h (Some v')) (put ls h (Some q')).
Proof.
  intros s rl vs ls s' rl' h v q q' v' K Hv Hq C.
  apply (wok_upd s rl vs ls s' rl' _ _ (of (v_region v)) (Some (h, v', q'))); try apply C; auto.
  - intros h0 v0 q0 E. injection E as <- <- <-. split; [apply C|]. intros r Hr. apply C. exact Hr.
  - intros g. destruct (Nat.eq_dec h g) as [<-|D].
    + left. exists v', q'. split; [auto|]. split; eapply nth_put_eq; eauto.
    + right. right. rewrite !nth_put_ne by auto. split; [auto|]. split; [auto|].
      intros o r Ho Hr X. apply (wk_uniq _ _ _ _ K h g v o r); auto.
Qed.

Lemma wok_same : forall s rl vs ls h v q v' q',
  wok s rl vs ls -> nth_error vs h = Some (Some v) -> nth_error ls h = Some (Some q) ->
  vok s rl q' v' -> v_region v' = v_region v ->
  wok s rl (put vs h (Some v')) (put ls h (Some q')).
Proof.
  intros s rl vs ls h v q v' q' K Hv Hq V R.
  apply (wok_change s rl vs ls s rl h v q); auto. constructor; auto.
  - apply K.
  - apply same_env_refl.
  - apply keepsP_refl.
  - intros r Hr. apply fresh_self. unfold of. congruence.
Qed.

Lemma wok_new : forall s rl vs ls s' rl' v q,
  wok s rl vs ls -> changed s s' rl rl' nobody q v -> wok s' rl' (vs ++ [Some v]) (ls ++ [Some q]).
Proof.
  intros s rl vs ls s' rl' v q K C. pose proof (wok_len _ _ _ _ K) as El.
  apply (wok_upd s rl vs ls s' rl' _ _ nobody (Some (length vs, v, q))); try apply C; auto.
  - intros h0 v0 q0 E. injection E as <- <- <-. split; [apply C|]. intros r Hr. apply C. exact Hr.
  - intros g. rewrite !nth_snoc, <- El. destruct (Nat.eqb_spec g (length vs)) as [->|D].
    + left. eauto.
    + right. right. split; [auto|]. split; [auto|]. intros o r _ _. unfold nobody, of. discriminate.
Qed.

Lemma wok_new_none : forall s rl vs ls s' rl',
  wok s rl vs ls -> inv s' rl' -> keepsP s s' rl rl' nobody -> wok s' rl' (vs ++ [None]) (ls ++ [None]).
Proof.
  intros s rl vs ls s' rl' K I Kp. pose proof (wok_len _ _ _ _ K) as El.
  apply (wok_upd s rl vs ls s' rl' _ _ nobody None); auto.
  - discriminate.
  - intros g. rewrite !nth_snoc, <- El. destruct (Nat.eqb_spec g (length vs)) as [->|D].
    + right. left. auto.
    + right. right. split; [auto|]. split; [auto|]. intros o r _ _. unfold nobody, of. discriminate.
Qed.

Lemma wok_drop : forall s rl vs ls s' rl' h v q,
  wok s rl vs ls -> nth_error vs h = Some (Some v) -> nth_error ls h = Some (Some q) ->
  inv s' rl' -> keepsP s s' rl rl' (of (v_region v)) ->
  wok s' rl' (put vs h None) (put ls h None).
Proof.
  intros s rl vs ls s' rl' h v q K Hv Hq I Kp.
  apply (wok_upd s rl vs ls s' rl' _ _ (of (v_region v)) None); auto.
  - discriminate.
  - intros g. destruct (Nat.eq_dec h g) as [<-|D].
    + right. left. split; eapply nth_put_eq; eauto.
    + right. right. rewrite !nth_put_ne by auto. split; [auto|]. split; [auto|].
      intros o r Ho Hr X. apply (wk_uniq _ _ _ _ K h g v o r); auto.
Qed.

Lemma wok_merge : forall s rl vs ls s' rl' h g v q o p q' v',
  wok s rl vs ls -> h <> g ->
  nth_error vs h = Some (Some v) -> nth_error ls h = Some (Some q) ->
  nth_error vs g = Some (Some o) -> nth_error ls g = Some (Some p) ->
  changed s s' rl rl' (both (v_region v) (v_region o)) q' v' ->
  wok s' rl' (put (put vs h (Some v')) g None) (put (put ls h (Some q')) g None).
Proof.
  intros s rl vs ls s' rl' h g v q o p q' v' K Dhg Hv Hq Ho Hp C.
  apply (wok_upd s rl vs ls s' rl' _ _ (both (v_region v) (v_region o)) (Some (h, v', q'))); try apply C; auto.
  - intros h0 v0 q0 E. injection E as <- <- <-. split; [apply C|]. intros r Hr. apply C. exact Hr.
  - intros k. destruct (Nat.eq_dec g k) as [<-|D2].
    { right. left. split; apply nth_put_eq with (y := Some o) || idtac.
      - rewrite nth_put_ne by auto. exact Ho.
      - eapply nth_put_eq. rewrite nth_put_ne by auto. exact Hp. }
    rewrite !(nth_put_ne _ g k) by auto.
    destruct (Nat.eq_dec h k) as [<-|D].
    + left. exists v', q'. split; [auto|]. split; eapply nth_put_eq; eauto.
    + right. right. rewrite !nth_put_ne by auto. split; [auto|]. split; [auto|].
      intros u r Hu Hr [X|X].
      * apply (wk_uniq _ _ _ _ K h k v u r); auto.
      * apply (wk_uniq _ _ _ _ K g k o u r); auto.
Qed.

(** ** Calls after a dangerous event *)

Lemma new_dirty : forall s sz al, a_haz s <> [] -> wp (vec_new s sz al) (fun x => a_haz (snd x) <> []).
Proof.
  intros s sz al H. unfold vec_new. destruct (sz =? 0); [exact H|].
  apply wp_bind with (1 := alloc_dirty s 0 al H). intros (r, s1) H1. exact H1.
Qed.

Lemma with_capacity_dirty : forall s sz al n, a_haz s <> [] -> wp (vec_with_capacity s sz al n) (fun x => a_haz (snd x) <> []).
Proof.
  intros s sz al n H. unfold vec_with_capacity.
  apply wp_bind with (1 := new_dirty s sz al H). intros (v, s1) H1.
  apply wp_bind with (1 := resize_dirty s1 v 0 n H1). intros ((ok, v'), s2) H2. cbn [snd] in H2.
  destruct ok; [exact H2|]. apply wp_bind with (1 := drop_dirty s2 v' H2). intros s3 H3. exact H3.
Qed.

Lemma box_dirty : forall s sz al x, a_haz s <> [] -> wp (box_new s sz al x) (fun x => a_haz (snd x) <> []).
Proof.
  intros s sz al x H. unfold box_new. destruct (sz =? 0); [exact H|].
  apply wp_bind with (1 := alloc_dirty s sz al H). intros (r, s1) H1. cbn [snd] in H1. destruct r as [i|]; [|exact H1].
  apply wp_bind with (1 := write_dirty s1 _ _ _ H1). intros s2 H2. exact H2.
Qed.

Lemma reserve_vec_dirty : forall s v n, a_haz s <> [] -> wp (vec_reserve s v n) (fun x => a_haz (snd x) <> []).
Proof.
  intros s v n H. unfold vec_reserve. destruct (_ =? _); [exact H|]. apply resize_dirty. exact H.
Qed.

Lemma pop_dirty : forall s v, a_haz s <> [] -> wp (vec_pop s v) (fun _ => True).
Proof.
  intros s v H. unfold vec_pop. destruct (_ =? _); [exact Logic.I|]. unfold read_data.
  destruct (in_data _ _ _); [exact Logic.I|exact H].
Qed.

Lemma try_merge_dirty : forall s v o, a_haz s <> [] -> wp (try_merge s v o) (fun x => a_haz (snd x) <> []).
Proof.
  intros s v o H. unfold try_merge. destruct (_ =? 0); [exact H|]. destruct (v_region v) as [i|]; [|exact H]. cbv zeta.
  destruct (_ && _); [exact H|]. destruct (negb _); [exact H|].
  destruct (h_next _) as [j|]; [|exact H].
  pose proof (add_haz_dirty s (negb (oeqb (v_region o) (Some j))) WrongMerge H) as H1.
  apply wp_bind with (P := fun s' => a_haz s' <> []).
  { destruct (_ =? _); [exact H1|]. apply copy_dirty. exact H1. }
  intros s2 H2. pose proof (free_region_haz s2 j) as Fh. destruct (free_region s2 j) as (old, s3). cbn [snd] in Fh.
  cbn [wp snd]. red_s. congruence.
Qed.

Lemma extend_dirty : forall s v o, a_haz s <> [] -> wp (vec_extend s v o) (fun x => a_haz (snd x) <> []).
Proof.
  intros s v o H. unfold vec_extend.
  apply wp_bind with (1 := try_merge_dirty s v o H). intros (m, s2) H2. cbn [snd] in H2. destruct m.
  - apply wp_bind with (1 := uplus_dirty s2 _ _ H2). intros l _. exact H2.
  - unfold vec_bytes, read_data. destruct (in_data s2 _ _); cbn [obind]; [|exact H2].
    apply wp_bind with (1 := extend_slice_dirty s2 v _ _ H2). intros ((ok, v'), s3) H3. cbn [snd] in H3.
    destruct (_ && _ && _ && _); [exact H3|].
    apply wp_bind with (1 := drop_dirty s3 o H3). intros s4 H4. exact H4.
Qed.

(** ** One call *)

Definition legal (w : world) (o : op) : Prop :=
  match o with
  | OPush h _ | OExtendFromSlice h _ | OReserve h _ | OPop h | OClear h | ODrop h => get w h <> None
  | OExtend h g => h <> g /\ get w h <> None /\ get w g <> None
  | _ => True
  end.

Lemma step_dirty : forall w o w' r, a_haz (w_alloc w) <> [] -> step w o = Done (r, w') -> a_haz (w_alloc w') <> [].
Proof.
  intros w o w' r H E.
  assert (G : forall h (f : vec -> out (reply * world)),
    match get w h with None => Panicked [] | Some v => f v end = Done (r, w') ->
    exists v, f v = Done (r, w')).
  { intros h f. destruct (get w h); [eauto|discriminate]. }
  assert (B : forall {A} (m : out (A * ast)) (k : A * ast -> out (reply * world)),
    wp m (fun x => a_haz (snd x) <> []) ->
    (forall x, a_haz (snd x) <> [] -> forall r' w'', k x = Done (r', w'') -> a_haz (w_alloc w'') <> []) ->
    obind m k = Done (r, w') -> a_haz (w_alloc w') <> []).
  { intros A m k Hm Hk Eq. destruct m as [x|z|z]; try discriminate. simpl in *. eapply Hk; eauto. }
  destruct o; cbn [step] in E.
  - revert E. apply B; [apply new_dirty; auto|]. intros (v, s) Hs r' w'' Eq. injection Eq as _ <-. exact Hs.
  - revert E. apply B; [apply with_capacity_dirty; auto|]. intros (v, s) Hs r' w'' Eq. injection Eq as _ <-. exact Hs.
  - revert E. apply B; [apply box_dirty; auto|]. intros (v, s) Hs r' w'' Eq. injection Eq as _ <-. exact Hs.
  - apply G in E. destruct E as (v & E). revert E. apply B; [apply extend_slice_dirty; auto|].
    intros ((ok, v'), s) Hs r' w'' Eq. injection Eq as _ <-. exact Hs.
  - apply G in E. destruct E as (v & E). revert E. apply B; [apply extend_slice_dirty; auto|].
    intros ((ok, v'), s) Hs r' w'' Eq. injection Eq as _ <-. exact Hs.
  - apply G in E. destruct E as (v & E). revert E. apply B; [apply reserve_vec_dirty; auto|].
    intros ((ok, v'), s) Hs r' w'' Eq. injection Eq as _ <-. exact Hs.
  - apply G in E. destruct E as (v & E). destruct (vec_pop _ _) as [(x, v')|z|z]; try discriminate.
    injection E as _ <-. exact H.
  - apply G in E. destruct E as (v & E). injection E as _ <-. exact H.
  - destruct (Nat.eqb h g); [discriminate|]. destruct (get w h) as [v|]; [|discriminate]. destruct (get w g) as [o|]; [|discriminate].
    revert E. apply B; [apply extend_dirty; auto|]. intros ((ok, v'), s) Hs r' w'' Eq. injection Eq as _ <-. exact Hs.
  - apply G in E. destruct E as (v & E). pose proof (drop_dirty (w_alloc w) v H) as D.
    destruct (drop_vec _ _) as [s'|z|z]; try discriminate. injection E as _ <-. exact D.
Qed.

Lemma put_id : forall {A} (l : list (option A)) h x, nth_error l h = Some x -> put l h x = l.
Proof. induction l as [|y t IH]; intros [|h] x H; simpl in *; try discriminate; [congruence|]. f_equal. auto. Qed.

Lemma step_spec : forall w rl l o, wok (w_alloc w) rl (w_vecs w) l -> call_ok l o ->
  wp (step w o) (fun x =>
    let (r, w') := x in
    a_haz (w_alloc w') <> [] \/
    exists rl' l', list_step l o r = Some l' /\ wok (w_alloc w') rl' (w_vecs w') l'
      /\ a_haz (w_alloc w') = a_haz (w_alloc w) /\ same_env (w_alloc w) (w_alloc w')).
Proof.
  intros w rl l o K Ok. pose proof (wk_inv _ _ _ _ K) as I.
  destruct o; cbn [step call_ok] in *.
  - (* new *)
    apply wp_bind with (1 := new_spec _ rl sz al I Ok). intros (v, s') [H|(rl' & C)]; cbn [fst snd] in *; [left; exact H|].
    right. exists rl', (l ++ [Some (mkq sz al [])]). split; [reflexivity|]. split; [|split; apply C].
    apply (wok_new _ rl _ _ _ _ _ _ K C).
  - destruct Ok as (Ly & Ln).
    apply wp_bind with (1 := with_capacity_spec _ rl sz al n I Ly Ln). intros (v, s') [H|(rl' & C)]; cbn [fst snd] in *; [left; exact H|].
    right. destruct v as [v|].
    + exists rl', (l ++ [Some (mkq sz al [])]). split; [reflexivity|]. split; [|split; apply C].
      apply (wok_new _ rl _ _ _ _ _ _ K C).
    + destruct C as (I' & Hz & He & Kp). exists rl', (l ++ [None]). split; [reflexivity|]. split; [|split; auto].
      apply (wok_new_none _ rl _ _ _ _ K I' Kp).
  - destruct Ok as (Ly & Ln).
    apply wp_bind with (1 := box_spec _ rl sz al value I Ly Ln). intros (v, s') [H|(rl' & C)]; cbn [fst snd] in *; [left; exact H|].
    right. destruct v as [v|].
    + exists rl', (l ++ [Some (mkq sz al [value])]). split; [reflexivity|]. split; [|split; apply C].
      apply (wok_new _ rl _ _ _ _ _ _ K C).
    + destruct C as (I' & Hz & He & Kp). exists rl', (l ++ [None]). split; [reflexivity|]. split; [|split; auto].
      apply (wok_new_none _ rl _ _ _ _ K I' Kp).
  - (* push *)
    destruct Ok as (q & Hq & Lv & Lu). destruct (wok_get w _ rl l h q eq_refl K Hq) as (v & G & Nv & Nq & V).
    rewrite G. pose proof (extend_slice_spec _ rl q v [value] I V) as X.
    change (lenN [value]) with 1 in X. cbn [concat] in X. rewrite app_nil_r in X.
    apply wp_bind with (1 := X ltac:(repeat constructor; exact Lv) Lu).
    intros ((ok, v'), s') [H|(rl' & C)]; [left; exact H|]. right. cbn [w_alloc w_vecs].
    exists rl'. destruct ok; cbn [to_reply list_step].
    + rewrite Hq. eexists. split; [reflexivity|]. split; [|split; apply C].
      apply (wok_change _ rl _ _ _ _ h v q _ v' K Nv Nq C).
    + exists l. split; [reflexivity|]. split; [|split; apply C].
      rewrite <- (put_id l h _ Nq). apply (wok_change _ rl _ _ _ _ h v q _ v' K Nv Nq C).
  - destruct Ok as (q & Hq & Lv & Lu). destruct (wok_get w _ rl l h q eq_refl K Hq) as (v & G & Nv & Nq & V).
    rewrite G.
    apply wp_bind with (1 := extend_slice_spec _ rl q v items I V Lv Lu).
    intros ((ok, v'), s') [H|(rl' & C)]; [left; exact H|]. right. cbn [w_alloc w_vecs].
    exists rl'. destruct ok; cbn [to_reply list_step].
    + rewrite Hq. eexists. split; [reflexivity|]. split; [|split; apply C].
      apply (wok_change _ rl _ _ _ _ h v q _ v' K Nv Nq C).
    + exists l. split; [reflexivity|]. split; [|split; apply C].
      rewrite <- (put_id l h _ Nq). apply (wok_change _ rl _ _ _ _ h v q _ v' K Nv Nq C).
  - destruct Ok as (q & Hq & Lu). destruct (wok_get w _ rl l h q eq_refl K Hq) as (v & G & Nv & Nq & V).
    rewrite G.
    apply wp_bind with (1 := vec_reserve_spec _ rl q v n I V Lu).
    intros ((ok, v'), s') [H|(rl' & C & _)]; [left; exact H|]. right. cbn [w_alloc w_vecs].
    exists rl', l. split; [destruct ok; reflexivity|]. split; [|split; apply C].
    rewrite <- (put_id l h _ Nq). apply (wok_change _ rl _ _ _ _ h v q _ v' K Nv Nq C).
  - destruct Ok as (q & Hq). destruct (wok_get w _ rl l h q eq_refl K Hq) as (v & G & Nv & Nq & V).
    rewrite G. pose proof (pop_spec _ rl q v I V) as P. cbn [list_step]. destruct (rev (q_items q)) as [|y t] eqn:R.
    + rewrite P. cbn [obind wp]. right. exists rl, l. rewrite Hq, R. split; [reflexivity|].
      split; [|split; [auto|apply same_env_refl]]. cbn [w_alloc w_vecs]. rewrite put_id; auto.
    + destruct P as (v' & P & V' & Rg). rewrite P. cbn [obind wp]. right. exists rl, (put l h (Some (with_items q (rev t)))).
      rewrite Hq, R. destruct (list_eq_dec N.eq_dec y y) as [_|D]; [|congruence]. split; [reflexivity|].
      split; [|split; [auto|apply same_env_refl]]. cbn [w_alloc w_vecs].
      apply (wok_same _ rl _ _ h v q v' _ K Nv Nq V' Rg).
  - destruct Ok as (q & Hq). destruct (wok_get w _ rl l h q eq_refl K Hq) as (v & G & Nv & Nq & V).
    rewrite G. cbn [wp list_step]. right. exists rl. rewrite Hq. eexists. split; [reflexivity|].
    split; [|split; [auto|apply same_env_refl]]. cbn [w_alloc w_vecs].
    apply (wok_same _ rl _ _ h v q _ _ K Nv Nq (clear_spec _ _ _ _ V) eq_refl).
  - destruct Ok as (D & q & p & Hq & Hp & Es & Ea & Lu).
    destruct (wok_get w _ rl l h q eq_refl K Hq) as (v & G & Nv & Nq & V).
    destruct (wok_get w _ rl l g p eq_refl K Hp) as (o & G' & No & Np & O).
    apply Nat.eqb_neq in D. rewrite D, G, G'. apply Nat.eqb_neq in D.
    apply wp_bind with (1 := extend_spec _ rl q v p o I V O Es Ea Lu (fun r => wk_uniq _ _ _ _ K h g v o r D Nv No)).
    intros ((ok, v'), s') [H|(rl' & C)]; [left; exact H|]. right. cbn [w_alloc w_vecs].
    pose proof (wok_merge _ rl _ _ _ _ h g v q o p _ v' K D Nv Nq No Np C) as M.
    exists rl'. destruct ok; cbn [to_reply list_step].
    + rewrite Hq, Hp. eexists. split; [reflexivity|]. split; [exact M|split; apply C].
    + eexists. split; [reflexivity|]. split; [|split; apply C]. rewrite (put_id l h _ Nq) in M. exact M.
  - destruct Ok as (q & Hq). destruct (wok_get w _ rl l h q eq_refl K Hq) as (v & G & Nv & Nq & V).
    rewrite G. destruct (drop_spec _ rl q v I V) as (s' & rl' & Dr & I' & Hz & He & _ & Kp).
    rewrite Dr. cbn [obind wp list_step]. right. exists rl', (lput l h None). split; [reflexivity|].
    split; [|split; auto]. cbn [w_alloc w_vecs]. apply (wok_drop _ rl _ _ _ _ h v q K Nv Nq I' Kp).
Qed.

(** ** Histories *)

Lemma run_dirty : forall ops w rs w', a_haz (w_alloc w) <> [] -> run w ops = Done (rs, w') -> a_haz (w_alloc w') <> [].
Proof.
  induction ops as [|o t IH]; intros w rs w' H E; cbn [run] in E.
  - injection E as _ <-. exact H.
  - destruct (step w o) as [(r, w1)|z|z] eqn:S1; try discriminate. cbn [obind] in E.
    destruct (run w1 t) as [(rs1, w2)|z|z] eqn:S2; try discriminate. cbn [obind] in E. injection E as _ <-.
    eapply IH; [|exact S2]. eapply step_dirty; eauto.
Qed.

Lemma run_spec : forall ops w rl l rs w',
  wok (w_alloc w) rl (w_vecs w) l -> run w ops = Done (rs, w') -> calls_ok l ops rs -> a_haz (w_alloc w') = [] ->
  exists rl' l', list_run l ops rs = Some l' /\ wok (w_alloc w') rl' (w_vecs w') l' /\ same_env (w_alloc w) (w_alloc w').
Proof.
  induction ops as [|o t IH]; intros w rl l rs w' K E Ok Hz; cbn [run] in E.
  - injection E as <- <-. exists rl, l. split; [reflexivity|]. split; [auto|apply same_env_refl].
  - pose proof (step_spec w rl l o K) as Sp.
    destruct (step w o) as [(r, w1)|z|z] eqn:S1; try discriminate. cbn [obind] in E.
    destruct (run w1 t) as [(rs1, w2)|z|z] eqn:S2; try discriminate. cbn [obind] in E. injection E as <- <-.
    cbn [calls_ok] in Ok. destruct Ok as (Ok1 & Ok2). specialize (Sp Ok1). cbn [wp] in Sp.
    destruct Sp as [Hd|(rl1 & l1 & Ls & K1 & Hz1 & He)].
    + exfalso. exact (run_dirty _ _ _ _ Hd S2 Hz).
    + rewrite Ls in Ok2. destruct (IH w1 rl1 l1 rs1 w2 K1 S2 Ok2 Hz) as (rl' & l' & Lr & K' & He').
      exists rl', l'. cbn [list_run]. rewrite Ls. split; [auto|]. split; [auto|].
      apply same_env_trans with (s2 := w_alloc w1); auto.
Qed.

(** ** The start *)

Lemma new_slice_inv : forall dbg base size mem s,
  buffer_ok base size -> dbg = false \/ 7 <= size -> new_slice dbg base size mem = Done s ->
  inv s [] /\ a_haz s = [] /\ a_lo s = base /\ base <= a_hi s <= base + size.
Proof.
  intros dbg base size mem s (B1 & B2) D E. unfold new_slice in E. destruct (negb _); [discriminate|]. cbv zeta in E.
  injection E as <-. red_s. unfold hdr_align.
  set (off := align_offset (base + size) 8).
  assert (Lo : off < 8) by (apply align_offset_lt; reflexivity).
  assert (Al : (base + size + off) mod 8 = 0) by (apply align_offset_spec; reflexivity).
  set (hi := if off =? 0 then base + size else if 8 - off <=? size then base + size - (8 - off) else base).
  assert (Hi : base <= hi <= base + size).
  { unfold hi. destruct (off =? 0); [lia|]. destruct (N.leb_spec (8 - off) size); lia. }
  assert (Hm : dbg = true -> hi mod 8 = 0).
  { intros ->. destruct D as [D|D]; [discriminate|]. unfold hi. destruct (N.eqb_spec off 0) as [Z|Z].
    - rewrite Z, N.add_0_r in Al. exact Al.
    - destruct (N.leb_spec (8 - off) size) as [L|L]; [|lia].
      replace (base + size + off) with (base + size - (8 - off) + 1 * 8) in Al by lia.
      rewrite N.mod_add in Al by discriminate. exact Al. }
  split; [|split; [auto|split; [auto|exact Hi]]].
  constructor; red_s; fold off; fold hi; auto; try reflexivity; try discriminate.
  - constructor.
  - apply Hi.
  - apply N.le_lt_trans with (2 := B2). apply Hi.
  - exists 0. rewrite N.mul_0_r, N.add_0_r. split; [reflexivity|]. split; [intros i []|discriminate].
Qed.

Lemma wok_start : forall s, inv s [] -> wok s [] [] [].
Proof.
  intros s I. constructor; auto.
  - intros h. destruct h; simpl; auto.
  - intros [|h] g v o r D H; discriminate H.
Qed.

(** ** What it means to a program *)

Lemma wok_holds : forall w rl l, wok (w_alloc w) rl (w_vecs w) l -> holds w l.
Proof.
  intros w rl l K. split; [apply (wok_len _ _ _ _ K)|].
  intros h q Hq. destruct (wok_get w _ rl l h q eq_refl K Hq) as (v & G & _ & _ & V).
  exists v. split; [auto|]. split; [apply V|]. split; [apply V|]. split; [apply V|].
  apply (items_spec _ rl); [apply K|auto].
Qed.

Lemma get_vok : forall w rl l h v, wok (w_alloc w) rl (w_vecs w) l -> get w h = Some v ->
  nth_error (w_vecs w) h = Some (Some v) /\ exists q, vok (w_alloc w) rl q v.
Proof.
  intros w rl l h v K G. unfold get in G.
  pose proof (wk_all _ _ _ _ K h) as E. destruct (nth_error (w_vecs w) h) as [[v'|]|]; try discriminate.
  injection G as ->. destruct (nth_error l h) as [[q|]|]; simpl in E; try tauto. eauto.
Qed.

Lemma wok_separate : forall w rl l base size, wok (w_alloc w) rl (w_vecs w) l ->
  a_lo (w_alloc w) = base -> a_hi (w_alloc w) <= base + size -> separate base size w.
Proof.
  intros w rl l base size K Lo Hi. pose proof (wk_inv _ _ _ _ K) as I.
  assert (Fe : a_fs (w_alloc w) <= base + size).
  { destruct (i_ids _ _ I) as (n & E & _). pose proof (i_fs _ _ I). lia. }
  split.
  - intros h v G Z. destruct (get_vok w rl l h v K G) as (_ & q & V). pose proof V as [V1 V2 V3 V4 V5 V6 V7 V8].
    assert (Zq : q_sz q <> 0) by congruence. unfold extent. cbn [fst snd].
    unfold as_ptr, vec_capacity. apply N.eqb_neq in Z. rewrite Z.
    destruct (v_region v) as [i|] eqn:R.
    + destruct (V8 i eq_refl) as (A1 & A2 & A3 & A4 & A5 & A6). rewrite (inv_cap _ _ _ I A1).
      destruct (inv_in _ _ _ I A1) as (B1 & B2 & B3). rewrite V1, V2, V4.
      split; [auto|]. split; [lia|]. intros _. lia.
    + destruct (V7 Zq eq_refl) as (_ & E). rewrite V4, E. split; [|split; [simpl; lia|]].
      * rewrite V2. apply N.mod_same. pose proof (layout_pos _ _ V3). lia.
      * intros X. congruence.
  - intros h g v o D Gv Go Zv Zo.
    destruct (get_vok w rl l h v K Gv) as (Nv & q & V). destruct (get_vok w rl l g o K Go) as (No & p & O).
    unfold extent, as_ptr, vec_capacity. cbn [fst snd]. apply N.eqb_neq in Zv, Zo. rewrite Zv, Zo.
    destruct (v_region v) as [i|] eqn:Ri; [|auto]. destruct (v_region o) as [j|] eqn:Rj; [|auto].
    destruct (vk_some _ _ _ _ V i Ri) as (A1 & _). destruct (vk_some _ _ _ _ O j Rj) as (B1 & _).
    assert (Nij : i <> j) by (intros ->; apply (wk_uniq _ _ _ _ K h g v o j D Nv No Ri Rj)).
    rewrite (inv_cap _ _ _ I A1), (inv_cap _ _ _ I B1).
    destruct (inv_in _ _ _ I A1) as (_ & L1 & _). destruct (inv_in _ _ _ I B1) as (_ & L2 & _).
    right. right. destruct (tile_disjoint _ _ _ _ i j (i_tile _ _ I) A1 B1 Nij); [left|right]; lia.
Qed.
