(** Facts about tracing contexts. *)
From Verif Require Import Base Options Int NumText JsonNumSpec Ctx CtxSpec BaseFacts ItoaFacts.
From Coq Require Import Lia.
Local Open Scope N_scope.

Lemma act_shape p f r o c c' : act p f r o c = Ok c' ->
  c_type c' = c_type c /\ c_mark c' = moved p o (c_mark c) /\
  (c_errors c' = c_errors c \/ c_held c = 0) /\ (c_path c' = c_path c \/ c_held c = 0).
Proof.
  unfold act, push_path, push_error, pop_path, exclusive.
  destruct o as [[]| | | | | | | | | | |]; cbn [moved]; destruct f, r; destruct (c_type c) eqn:T; destruct (c_held c =? 0) eqn:E;
    try destruct (0 <? c_cap c); cbn; rewrite ?E; cbn; intros H; inversion H; subst; cbn; apply N.eqb_eq in E || clear E; auto.
Qed.

Lemma acts_app p h1 h2 c : acts p (h1 ++ h2) c = bind (acts p h1 c) (acts p h2).
Proof.
  revert c. induction h1 as [|[o [f r]] h1 IH]; intros c; cbn [app acts bind]; [reflexivity|].
  destruct (act p f r o c); cbn [bind]; auto.
Qed.

(** ** The path *)

Lemma removelast_snoc {A} (l : list A) x : removelast (l ++ [x]) = l.
Proof. rewrite removelast_app by discriminate. cbn. apply app_nil_r. Qed.

Definition hidden (c : ctx) (stk : list step) : Prop :=
  exists l, stk = c_path c ++ l /\ lenN l = c_cap c.

Lemma hidden_push r s c stk c' : hidden c stk -> (r = true -> c_cap c = 0) -> push_path r s c = Ok c' ->
  hidden c' (stk ++ [s]).
Proof.
  intros (l & -> & L) Hr. unfold push_path, exclusive. destruct (c_held c =? 0); [|discriminate].
  intros H; inversion H; subst; clear H. destruct r.
  - specialize (Hr eq_refl). assert (l = []) by (destruct l; [reflexivity|unfold lenN in L; cbn [length] in L; lia]). subst l.
    exists []. cbn. rewrite !app_nil_r. auto.
  - exists (l ++ [s]). cbn. rewrite app_assoc. split; [reflexivity|]. rewrite lenN_app, L. reflexivity.
Qed.

Lemma hidden_pop c stk c' : hidden c stk -> stk <> [] -> pop_path c = Ok c' -> hidden c' (removelast stk).
Proof.
  intros (l & -> & L) Hn. unfold pop_path, exclusive. destruct (0 <? c_cap c) eqn:E.
  - apply N.ltb_lt in E. intros H; inversion H; subst; clear H.
    destruct (exists_last (l := l)) as (l' & x & ->); [intros ->; unfold lenN in L; cbn in L; lia|].
    exists l'. cbn. rewrite app_assoc, removelast_snoc. split; [reflexivity|]. rewrite lenN_app in L. change (lenN [x]) with 1 in L. lia.
  - apply N.ltb_ge in E. destruct (c_held c =? 0); [|discriminate]. intros H; inversion H; subst; clear H.
    assert (l = []) by (destruct l; [reflexivity|unfold lenN in L; cbn [length] in L; lia]). subst l. rewrite app_nil_r.
    exists []. cbn. rewrite app_nil_r. auto.
Qed.

Lemma path_ok p ty h : forall c stk c' stk', c_type c = ty -> hidden c stk ->
  acts p h c = Ok c' -> true_path ty stk h = Some stk' ->
  (forall h1 o f r h2 c1, h = h1 ++ (o, (f, r)) :: h2 -> acts p h1 c = Ok c1 ->
    match o with
    | EnterKey _ => f = true /\ (r = true -> c_cap c1 = 0)
    | Enter _ => r = true -> c_cap c1 = 0
    | Clear => c_cap c1 = 0
    | _ => True
    end) ->
  hidden c' stk'.
Proof.
  induction h as [|[o [f r]] h IH]; intros c stk c' stk' Ht Hi Ha Hp Hc.
  - cbn in Ha, Hp. inversion Ha; inversion Hp; subst. exact Hi.
  - cbn [acts] in Ha. destruct (act p f r o c) as [c1| |] eqn:E; cbn [bind] in Ha; try discriminate.
    pose proof (Hc [] o f r h c eq_refl eq_refl) as H0.
    pose proof (act_shape _ _ _ _ _ _ E) as (T & _).
    assert (Hc' : forall h1 o0 f0 r0 h2 c2, h = h1 ++ (o0, (f0, r0)) :: h2 -> acts p h1 c1 = Ok c2 ->
      match o0 with
      | EnterKey _ => f0 = true /\ (r0 = true -> c_cap c2 = 0)
      | Enter _ => r0 = true -> c_cap c2 = 0
      | Clear => c_cap c2 = 0
      | _ => True
      end).
    { intros h1 o0 f0 r0 h2 c2 -> Hr. apply (Hc ((o, (f, r)) :: h1) o0 f0 r0 h2 c2); [reflexivity|].
      cbn [acts]. rewrite E. exact Hr. }
    assert (G : forall stk1, hidden c1 stk1 -> true_path ty stk1 h = Some stk' -> hidden c' stk')
      by (intros stk1 K1 K2; apply (IH c1 stk1 c' stk'); auto; congruence).
    destruct o; cbn [act true_path] in *.
    + destruct s; cbn [of_type andb] in Hp; rewrite ?Ht in E; [destruct ty|destruct ty| | | | |]; cbn [negb] in Hp;
        try (eapply G; [eapply hidden_push; eauto|exact Hp]); inversion E; subst c1; eapply G; eauto.
    + destruct H0 as [-> H0]. eapply G; [eapply hidden_push; eauto|exact Hp].
    + destruct stk as [|s stk]; [discriminate|]. eapply G; [eapply hidden_pop; eauto; discriminate|exact Hp].
    + rewrite Ht in E. destruct ty.
      * destruct stk as [|s stk]; [discriminate|]. eapply G; [eapply hidden_pop; eauto; discriminate|exact Hp].
      * inversion E; subst c1. eapply G; eauto.
    + inversion E; subst c1. eapply G; eauto.
    + inversion E; subst c1. eapply G; eauto.
    + eapply G; [|exact Hp]. clear -E Hi. destruct f, r; cbn in E; unfold push_error, exclusive in E;
        try destruct (c_held c =? 0); cbn in E; inversion E; subst c1; exact Hi.
    + eapply G; [|exact Hp]. clear -E Hi. destruct f, r; cbn in E; unfold push_error, exclusive in E;
        try destruct (c_held c =? 0); cbn in E; inversion E; subst c1; exact Hi.
    + eapply G; [|exact Hp]. clear -E H0. unfold exclusive in E. cbn in E.
      destruct (c_held c =? 0); cbn in E; inversion E; subst c1. exists []. cbn. split; [reflexivity|]. now rewrite H0.
    + inversion E; subst c1. eapply G; eauto.
    + inversion E; subst c1. eapply G; eauto.
    + inversion E; subst c1. eapply G; eauto.
Qed.

Lemma roomy_cap p h : forall c c', roomy h -> c_cap c = 0 -> acts p h c = Ok c' -> c_cap c' = 0.
Proof.
  induction h as [|[o [f r]] h IH]; intros c c' Hr Hc Ha.
  - cbn in Ha. inversion Ha; subst. exact Hc.
  - inversion Hr as [|x y Hx Hy]; subst. cbn in Hx. inversion Hx; subst f r.
    cbn [acts] in Ha. destruct (act p true true o c) as [c1| |] eqn:E; cbn [bind] in Ha; try discriminate.
    apply (IH c1 c' Hy); [|exact Ha]. clear -E Hc.
    destruct o as [[]| | | | | | | | | | |]; cbn in E; unfold push_path, push_error, pop_path, exclusive in E; rewrite ?Hc in E; cbn in E;
      try destruct (c_type c); try destruct (c_held c =? 0); cbn in E; inversion E; subst; exact Hc.
Qed.

(** ** Errors *)

Lemma errors_ok p h : forall c c', acts p h c = Ok c' -> c_errors c' = said p (c_mark c) (c_errors c) h.
Proof.
  induction h as [|[o [f r]] h IH]; intros c c' Ha.
  - cbn in Ha. inversion Ha; subst. reflexivity.
  - cbn [acts] in Ha. destruct (act p f r o c) as [c1| |] eqn:E; cbn [bind] in Ha; try discriminate.
    rewrite (IH _ _ Ha). cbn [said]. pose proof (act_shape _ _ _ _ _ _ E) as (_ & M & _). rewrite M. f_equal.
    clear -E. destruct o as [[]| | | | | | | | | | |]; destruct f, r; cbn in E; unfold push_path, push_error, pop_path, exclusive in E; cbn in E;
      try destruct (c_type c); try destruct (0 <? c_cap c); try destruct (c_held c =? 0); cbn in E; inversion E; subst; reflexivity.
Qed.

Lemma last_ok p h : forall c c', acts p h c = Ok c' -> c_last c' = last_said (c_last c) h.
Proof.
  induction h as [|[o [f r]] h IH]; intros c c' Ha.
  - cbn in Ha. inversion Ha; subst. reflexivity.
  - cbn [acts] in Ha. destruct (act p f r o c) as [c1| |] eqn:E; cbn [bind] in Ha; try discriminate.
    rewrite (IH _ _ Ha). clear -E. destruct o as [[]| | | | | | | | | | |]; destruct f, r; cbn in E; unfold push_path, push_error, pop_path, exclusive in E; cbn in E;
      try destruct (c_type c); try destruct (0 <? c_cap c); try destruct (c_held c =? 0); cbn in E; inversion E; subst; reflexivity.
Qed.

(** ** Text *)

Lemma int_text_fun m n s : int_text m s -> int_text n s -> m = n.
Proof. intros (_ & _ & _ & <-) (_ & _ & _ & <-). reflexivity. Qed.

Lemma itoa_inj m n : itoa m = itoa n -> m = n.
Proof. intros E. apply (int_text_fun m n (itoa m)); [apply itoa_text|rewrite E; apply itoa_text]. Qed.

Lemma itoa_digits n : itoa n <> [] /\ Forall digit (itoa n).
Proof. destruct (itoa_text n) as (H1 & H2 & _). auto. Qed.

(** A text ends where a byte that cannot be in it follows. *)
Lemma stop_unique (P : N -> Prop) a b s t : Forall P a -> Forall P b ->
  (forall x k, s = x :: k -> ~ P x) -> (forall x k, t = x :: k -> ~ P x) ->
  a ++ s = b ++ t -> a = b /\ s = t.
Proof.
  intros Ha. revert b. induction Ha as [|x a Hx Ha IH]; intros b Hb Hs Ht E.
  - destruct Hb as [|y b Hy Hb]; [auto|]. cbn [app] in E. exfalso. exact (Hs y (b ++ t) E Hy).
  - destruct Hb as [|y b Hy Hb]; cbn [app] in E.
    + exfalso. exact (Ht x (a ++ s) (eq_sym E) Hx).
    + inversion E; subst. destruct (IH b Hb Hs Ht H1) as [-> ->]. auto.
Qed.

Lemma show_cap_inj m n : show_cap m = show_cap n -> m = n.
Proof.
  unfold show_cap. destruct (N.eqb_spec m 0) as [->|Hm], (N.eqb_spec n 0) as [->|Hn]; try reflexivity.
  - destruct (n =? 1); discriminate.
  - destruct (m =? 1); discriminate.
  - destruct (N.eqb_spec m 1) as [->|Hm1], (N.eqb_spec n 1) as [->|Hn1]; try reflexivity; cbn [app]; intros E; injection E as E.
    + exfalso. destruct (itoa_digits n) as [H1 H2]. destruct (itoa n) as [|x l]; [congruence|].
      inversion H2; subst. injection E as <- _. unfold digit in *. lia.
    + exfalso. destruct (itoa_digits m) as [H1 H2]. destruct (itoa m) as [|x l]; [congruence|].
      inversion H2; subst. injection E as -> _. unfold digit in *. lia.
    + apply itoa_inj. destruct (itoa_digits n) as [_ H1], (itoa_digits m) as [_ H2].
      eapply (stop_unique digit) in E; [apply E|exact H2|exact H1| |]; intros x k K; injection K as <- _; unfold digit; lia.
Qed.

Lemma show_cap_head n x k : show_cap n = x :: k -> x = 32 /\ hd 0 k = 46.
Proof. unfold show_cap. destruct (n =? 0); [discriminate|]. destruct (n =? 1); intros E; injection E as <- <-; auto. Qed.

(** How the text of the rest of a path starts: not with a byte of a name. *)
Definition ended (s : bytes) : Prop := forall x k, s = x :: k -> x = 32 \/ x = 46 \/ x = 91.

Lemma ended_cons x k : x = 32 \/ x = 46 \/ x = 91 -> ended (x :: k).
Proof. intros H y l E. injection E as <- <-. exact H. Qed.

Lemma steps_ended ht hf lev l n : plain ht l -> ht = true \/ hf = true -> ended (show_steps ht hf lev l ++ show_cap n).
Proof.
  intros Hp Hh. destruct l as [|[m|m|m|m|i|i|m] l]; cbn [plain] in Hp; try contradiction.
  - destruct lev; cbn [show_steps repeat concat app].
    + intros x k E. apply show_cap_head in E. tauto.
    + apply ended_cons. auto.
  - destruct Hp as (-> & _). destruct Hh as [Hh| ->]; [discriminate|]. cbn [show_steps app equals]. apply ended_cons. auto.
  - cbn [show_steps]. destruct ht; cbn [app opens]; apply ended_cons; auto.
  - cbn [show_steps]. destruct ht; cbn [app opens]; apply ended_cons; auto.
  - cbn [show_steps]. destruct ht; cbn [app opens]; apply ended_cons; auto.
Qed.

Lemma name_stop a b s t : name a -> name b -> ended s -> ended t -> a ++ s = b ++ t -> a = b /\ s = t.
Proof.
  intros (_ & Ha & _) (_ & Hb & _) Hs Ht. apply (stop_unique _ a b s t Ha Hb).
  - intros x k E (?&?&?). destruct (Hs x k E) as [->|[->| ->]]; congruence.
  - intros x k E (?&?&?). destruct (Ht x k E) as [->|[->| ->]]; congruence.
Qed.

Lemma digits_stop (a b s t : bytes) : Forall digit a -> Forall digit b ->
  (ended s \/ exists k, s = 93 :: k) -> (ended t \/ exists k, t = 93 :: k) -> a ++ s = b ++ t -> a = b /\ s = t.
Proof.
  intros Ha Hb Hs Ht. apply (stop_unique digit a b s t Ha Hb); intros x k E D; unfold digit in D.
  - destruct Hs as [Hs|(k' & ->)]; [specialize (Hs x k E); lia|injection E as <- _; lia].
  - destruct Ht as [Ht|(k' & ->)]; [specialize (Ht x k E); lia|injection E as <- _; lia].
Qed.

Lemma name_digits a b s t : name a -> Forall digit b -> b <> [] -> a ++ s = b ++ t -> False.
Proof.
  intros (Hn & _ & Hh) Hd Hb E. destruct a as [|x a]; [congruence|]. destruct b as [|y b]; [congruence|].
  inversion Hd; subst. cbn [app] in E. injection E as -> _. cbn [hd] in Hh. unfold digit in *. lia.
Qed.

Lemma closes_head lev n x k : concat (repeat closes lev) ++ show_cap n = x :: k ->
  x = 32 /\ (hd 0 k = 125 \/ hd 0 k = 46).
Proof.
  destruct lev; cbn [repeat concat app closes]; intros E.
  - apply show_cap_head in E. tauto.
  - injection E as <- <-. auto.
Qed.

(** The first bytes of the text of a path that is not empty. *)
Definition first_of (ht hf : bool) (s : step) (t : bytes) : Prop :=
  match s with
  | AtVariant n => if hf then exists k, t = 32 :: 61 :: k else exists x k, t = x :: k /\ x <> 32 /\ x <> 46 /\ x <> 91
  | AtNamed _ | AtUnnamed _ => exists k, t = (if ht then [32; 123; 32; 46] else [46]) ++ k
  | _ => exists k, t = (if ht then [32; 123; 32; 91] else [91]) ++ k
  end.

Lemma first_ok ht hf lev s l n : plain ht (s :: l) -> first_of ht hf s (show_steps ht hf lev (s :: l) ++ show_cap n).
Proof.
  destruct s as [m|m|m|m|i|i|m]; cbn [plain]; try contradiction; cbn [show_steps first_of].
  - intros (-> & (Hn & Hf & _) & _). destruct hf; cbn [equals app]; [eexists; reflexivity|].
    destruct m as [|x m]; [congruence|]. inversion Hf; subst. cbn [app]. exists x. eexists. split; [reflexivity|]. tauto.
  - intros _. destruct ht; cbn [opens app]; eexists; reflexivity.
  - intros _. destruct ht; cbn [opens app]; eexists; reflexivity.
  - intros _. destruct ht; cbn [opens app]; eexists; reflexivity.
Qed.

Lemma first_nil ht hf lev s l n m : plain ht (s :: l) ->
  show_steps ht hf lev (s :: l) ++ show_cap n = concat (repeat closes lev) ++ show_cap m -> False.
Proof.
  intros Hp E. pose proof (first_ok ht hf lev s l n Hp) as F. rewrite E in F. clear E.
  assert (K : forall x k, concat (repeat closes lev) ++ show_cap m = x :: k -> x = 32 /\ (hd 0 k = 125 \/ hd 0 k = 46))
    by apply closes_head.
  destruct s; cbn [first_of] in F; cbn [plain] in Hp; try contradiction.
  - destruct hf; [destruct F as (k & F); apply K in F; cbn in F; lia|].
    destruct F as (x & k & F & ?); apply K in F; lia.
  - destruct ht, F as (k & F); cbn [app] in F; apply K in F; cbn in F; lia.
  - destruct ht, F as (k & F); cbn [app] in F; apply K in F; cbn in F; lia.
  - destruct ht, F as (k & F); cbn [app] in F; apply K in F; cbn in F; lia.
Qed.

Lemma app_cancel_if (b : bool) (o : bytes) f g : (if b then o ++ f else f) = (if b then o ++ g else g) -> f = g.
Proof. destruct b; [apply app_inv_head|auto]. Qed.

Lemma show_inj l : forall ht hf lev l' n n', plain ht l -> plain ht l' ->
  show_steps ht hf lev l ++ show_cap n = show_steps ht hf lev l' ++ show_cap n' -> l = l' /\ n = n'.
Proof.
  induction l as [|s l IH]; intros ht hf lev l' n n' Hp Hp' E.
  - destruct l' as [|s' l'].
    + cbn [show_steps] in E. apply app_inv_head in E. apply show_cap_inj in E. auto.
    + exfalso. symmetry in E. exact (first_nil ht hf lev s' l' n' n Hp' E).
  - destruct l' as [|s' l']; [exfalso; exact (first_nil ht hf lev s l n n' Hp E)|].
    pose proof (first_ok ht hf lev s l n Hp) as F. pose proof (first_ok ht hf lev s' l' n' Hp') as F'.
    rewrite <- E in F'.
    destruct s as [name0|name0|name0|name0|i|i|name0], s' as [name1|name1|name1|name1|i0|i0|name1]; cbn [plain] in Hp, Hp'; try contradiction; cbn [first_of] in F, F'.
    + (* variants *)
      destruct Hp as (-> & Hn & Hp), Hp' as (_ & Hn' & Hp'). clear F F'.
      cbn [show_steps] in E. rewrite <- !app_assoc in E. apply app_inv_head in E.
      apply name_stop in E; [|assumption|assumption|apply steps_ended; auto|apply steps_ended; auto].
      destruct E as [-> E]. apply IH in E; auto. destruct E as [-> ->]. auto.
    + destruct Hp as (-> & _). destruct F' as (k' & F'). destruct hf; [destruct F as (k & F)|destruct F as (x & k & F & ?)]; rewrite F in F'; cbn [app] in F'; inversion F'; subst; lia.
    + destruct Hp as (-> & _). destruct F' as (k' & F'). destruct hf; [destruct F as (k & F)|destruct F as (x & k & F & ?)]; rewrite F in F'; cbn [app] in F'; inversion F'; subst; lia.
    + destruct Hp as (-> & _). destruct F' as (k' & F'). destruct hf; [destruct F as (k & F)|destruct F as (x & k & F & ?)]; rewrite F in F'; cbn [app] in F'; inversion F'; subst; lia.
    + destruct Hp' as (-> & _). destruct F as (k' & F). destruct hf; [destruct F' as (k & F')|destruct F' as (x & k & F' & ?)]; rewrite F in F'; cbn [app] in F'; inversion F'; subst; lia.
    + (* named *)
      destruct Hp as (Hn & Hp), Hp' as (Hn' & Hp'). clear F F'. cbn [show_steps] in E.
      assert (G : forall lev, ((46 :: name0) ++ show_steps false true lev l) ++ show_cap n = ((46 :: name1) ++ show_steps false true lev l') ++ show_cap n' ->
        AtNamed name0 :: l = AtNamed name1 :: l' /\ n = n').
      { clear E lev. intros lev E. rewrite <- !app_assoc in E. cbn [app] in E. injection E as E.
        apply name_stop in E; [|assumption|assumption|apply steps_ended; auto|apply steps_ended; auto].
        destruct E as [-> E]. apply IH in E; auto. destruct E as [-> ->]. auto. }
      destruct ht; [rewrite <- (app_assoc opens), <- (app_assoc opens) in E; apply app_inv_head in E|]; exact (G _ E).
    + exfalso. destruct Hp as (Hn & Hp). clear F F'. cbn [show_steps] in E. destruct (itoa_digits i0) as [D1 D2].
      destruct ht; [rewrite <- (app_assoc opens), <- (app_assoc opens) in E; apply app_inv_head in E|];
        rewrite <- !app_assoc in E; cbn [app] in E; injection E as E; exact (name_digits _ _ _ _ Hn D2 D1 E).
    + destruct F as (k & F), F' as (k' & F'). rewrite F in F'. destruct ht; discriminate.
    + destruct Hp' as (-> & _). destruct F as (k' & F). destruct hf; [destruct F' as (k & F')|destruct F' as (x & k & F' & ?)]; rewrite F in F'; cbn [app] in F'; inversion F'; subst; lia.
    + exfalso. destruct Hp' as (Hn & Hp'). clear F F'. cbn [show_steps] in E. destruct (itoa_digits i) as [D1 D2].
      destruct ht; [rewrite <- (app_assoc opens), <- (app_assoc opens) in E; apply app_inv_head in E|];
        rewrite <- !app_assoc in E; cbn [app] in E; injection E as E; exact (name_digits _ _ _ _ Hn D2 D1 (eq_sym E)).
    + (* unnamed *)
      clear F F'. cbn [show_steps] in E. destruct (itoa_digits i) as [_ D], (itoa_digits i0) as [_ D0].
      assert (G : forall lev, ((46 :: itoa i) ++ show_steps false true lev l) ++ show_cap n = ((46 :: itoa i0) ++ show_steps false true lev l') ++ show_cap n' ->
        AtUnnamed i :: l = AtUnnamed i0 :: l' /\ n = n').
      { clear E lev. intros lev E. rewrite <- !app_assoc in E. cbn [app] in E. injection E as E.
        apply digits_stop in E; [|assumption|assumption|left; apply steps_ended; auto|left; apply steps_ended; auto].
        destruct E as [E1 E]. apply itoa_inj in E1. subst i0. apply IH in E; auto. destruct E as [-> ->]. auto. }
      destruct ht; [rewrite <- (app_assoc opens), <- (app_assoc opens) in E; apply app_inv_head in E|]; exact (G _ E).
    + destruct F as (k & F), F' as (k' & F'). rewrite F in F'. destruct ht; discriminate.
    + destruct Hp' as (-> & _). destruct F as (k' & F). destruct hf; [destruct F' as (k & F')|destruct F' as (x & k & F' & ?)]; rewrite F in F'; cbn [app] in F'; inversion F'; subst; lia.
    + destruct F as (k & F), F' as (k' & F'). rewrite F in F'. destruct ht; discriminate.
    + destruct F as (k & F), F' as (k' & F'). rewrite F in F'. destruct ht; discriminate.
    + (* index *)
      clear F F'. cbn [show_steps] in E. destruct (itoa_digits i) as [_ D], (itoa_digits i0) as [_ D0].
      assert (G : forall lev, ((91 :: itoa i ++ [93]) ++ show_steps false true lev l) ++ show_cap n = ((91 :: itoa i0 ++ [93]) ++ show_steps false true lev l') ++ show_cap n' ->
        AtIndex i :: l = AtIndex i0 :: l' /\ n = n').
      { clear E lev. intros lev E. rewrite <- !app_assoc in E. cbn [app] in E. injection E as E. rewrite <- !app_assoc in E.
        apply digits_stop in E; [|assumption|assumption|right; eexists; reflexivity|right; eexists; reflexivity].
        destruct E as [E1 E]. apply itoa_inj in E1. subst i0. cbn [app] in E. injection E as E. apply IH in E; auto. destruct E as [-> ->]. auto. }
      destruct ht; [rewrite <- (app_assoc opens), <- (app_assoc opens) in E; apply app_inv_head in E|]; exact (G _ E).
Qed.

(** ** Reports *)

Lemma last_not (m s : bytes) x : last m 0 <> x -> m = s ++ [x] -> False.
Proof. intros H ->. now rewrite last_last in H. Qed.

Lemma digits_end a b s t (x y : N) : ~ digit x -> ~ digit y ->
  (s ++ [x]) ++ itoa a ++ [41] = (t ++ [y]) ++ itoa b ++ [41] -> a = b /\ x = y /\ s = t.
Proof.
  intros Hx Hy E. apply (f_equal (@rev N)) in E. rewrite !rev_app_distr in E. cbn [rev app] in E. injection E as E.
  destruct (itoa_digits a) as [_ A], (itoa_digits b) as [_ B]. apply Forall_rev in A. apply Forall_rev in B.
  eapply (stop_unique digit) in E; [|exact A|exact B| |]; try (intros z k K; injection K as <- _; assumption).
  destruct E as (E1 & E2). injection E2 as -> E2. split; [|split; [reflexivity|]].
  - apply itoa_inj. rewrite <- (rev_involutive (itoa a)), E1. apply rev_involutive.
  - rewrite <- (rev_involutive s), E2. apply rev_involutive.
Qed.

Lemma show_error_inj path f t m f' t' m' : last m 0 <> 41 -> last m' 0 <> 41 ->
  show_error path (f, t, m) = show_error path (f', t', m') -> f = f' /\ t = t' /\ m = m'.
Proof.
  intros Hm Hm' E. unfold show_error in E. apply app_inv_head in E. apply app_inv_head in E.
  assert (Z : forall a b, (a =? 0) && (b =? 0) = true -> a = 0 /\ b = 0) by (intros; lia).
  assert (S1 : forall m a, m ++ [32; 40; 97; 116; 32; 98; 121; 116; 101; 32] ++ itoa a ++ [41] =
    ((m ++ [32; 40; 97; 116; 32; 98; 121; 116; 101]) ++ [32]) ++ itoa a ++ [41]) by (intros; rewrite <- !app_assoc; reflexivity).
  assert (S2 : forall m a b, m ++ [32; 40; 97; 116; 32; 98; 121; 116; 101; 115; 32] ++ itoa a ++ [45] ++ itoa b ++ [41] =
    ((m ++ [32; 40; 97; 116; 32; 98; 121; 116; 101; 115; 32] ++ itoa a) ++ [45]) ++ itoa b ++ [41]) by (intros; rewrite <- !app_assoc; reflexivity).
  assert (D32 : ~ digit 32) by (unfold digit; lia). assert (D45 : ~ digit 45) by (unfold digit; lia).
  assert (L1 : forall (s : bytes) a, (s ++ itoa a ++ [41]) = (s ++ itoa a) ++ [41]) by (intros; apply app_assoc).
  destruct ((f =? 0) && (t =? 0)) eqn:Z1, ((f' =? 0) && (t' =? 0)) eqn:Z2.
  - apply Z in Z1, Z2. destruct Z1 as [-> ->], Z2 as [-> ->]. rewrite !app_nil_r in E. auto.
  - exfalso. rewrite app_nil_r in E. destruct (f' =? t'); rewrite ?S1, ?S2, L1 in E; exact (last_not _ _ _ Hm E).
  - exfalso. rewrite app_nil_r in E. symmetry in E. destruct (f =? t); rewrite ?S1, ?S2, L1 in E; exact (last_not _ _ _ Hm' E).
  - destruct (N.eqb_spec f t) as [->|N1], (N.eqb_spec f' t') as [->|N2].
    + rewrite !S1 in E. apply digits_end in E; auto. destruct E as (-> & _ & E). apply app_inv_tail in E. auto.
    + exfalso. rewrite S1, S2 in E. apply digits_end in E; auto. destruct E as (_ & E & _). discriminate.
    + exfalso. rewrite S1, S2 in E. apply digits_end in E; auto. destruct E as (_ & E & _). discriminate.
    + rewrite !S2 in E. apply digits_end in E; auto. destruct E as (-> & _ & E). apply (f_equal (fun s => s ++ [41])) in E.
      assert (S3 : forall m a, (m ++ [32; 40; 97; 116; 32; 98; 121; 116; 101; 115; 32] ++ itoa a) ++ [41] =
        ((m ++ [32; 40; 97; 116; 32; 98; 121; 116; 101; 115]) ++ [32]) ++ itoa a ++ [41]) by (intros; rewrite <- !app_assoc; reflexivity).
      rewrite !S3 in E. apply digits_end in E; auto. destruct E as (-> & _ & E). apply app_inv_tail in E. auto.
Qed.

Definition count (x : N) (s : bytes) : nat := count_occ N.eq_dec s x.

Lemma count_app x s t : count x (s ++ t) = (count x s + count x t)%nat.
Proof. apply count_occ_app. Qed.
Lemma count_digits x s : Forall digit s -> ~ digit x -> count x s = 0%nat.
Proof. intros H Hx. apply count_occ_not_In. intros I. rewrite Forall_forall in H. exact (Hx (H _ I)). Qed.
Lemma count_cons x y s : count x (y :: s) = (if N.eq_dec y x then S (count x s) else count x s).
Proof. reflexivity. Qed.

Lemma show_steps_braces l : forall ht hf lev, Forall (fun s => ~ In 123 (step_text s) /\ ~ In 125 (step_text s)) l ->
  count 125 (show_steps ht hf lev l) = (count 123 (show_steps ht hf lev l) + lev)%nat.
Proof.
  assert (D1 : ~ digit 123) by (unfold digit; lia). assert (D2 : ~ digit 125) by (unfold digit; lia).
  assert (Di1 : forall i, count 123 (itoa i) = 0%nat) by (intros i; exact (count_digits 123 (itoa i) (proj2 (itoa_digits i)) D1)).
  assert (Di2 : forall i, count 125 (itoa i) = 0%nat) by (intros i; exact (count_digits 125 (itoa i) (proj2 (itoa_digits i)) D2)).
  induction l as [|s l IH]; intros ht hf lev H.
  - cbn [show_steps]. induction lev as [|lev IHl]; [reflexivity|]. cbn [repeat concat]. rewrite !count_app, IHl.
    change (count 125 closes) with 1%nat. change (count 123 closes) with 0%nat. lia.
  - inversion H as [|? ? [H1 H2] Hl]. subst. specialize (fun a b c => IH a b c Hl).
    apply (count_occ_not_In N.eq_dec) in H1, H2. fold (count 123 (step_text s)) in H1. fold (count 125 (step_text s)) in H2.
    destruct s as [m|m|m|m|i|i|m]; cbn [show_steps step_text] in *;
      try (destruct hf); try (destruct ht); cbn [app]; unfold equals, opens;
      repeat (rewrite ?count_app, ?count_cons; cbn [app]); rewrite ?IH, ?H1, ?H2;
      rewrite ?Di1, ?Di2;
      repeat match goal with |- context [N.eq_dec ?a ?b] => destruct (N.eq_dec a b); try discriminate end;
      change (count 123 []) with 0%nat; change (count 125 []) with 0%nat; try lia.
Qed.

Lemma show_path_braces l n : Forall (fun s => ~ In 123 (step_text s) /\ ~ In 125 (step_text s)) l ->
  count_occ N.eq_dec (show_path l n) 123 = count_occ N.eq_dec (show_path l n) 125.
Proof.
  intros H. fold (count 123 (show_path l n)). fold (count 125 (show_path l n)). unfold show_path. rewrite !count_app, (show_steps_braces l false false 0 H).
  assert (K : forall x, ~ digit x -> x = 123 \/ x = 125 -> count x (show_cap n) = 0%nat).
  { intros x D Hx. unfold show_cap. destruct (n =? 0); [reflexivity|]. destruct (n =? 1); [destruct Hx as [-> | ->]; reflexivity|].
    rewrite !count_app, (count_digits x (itoa n) (proj2 (itoa_digits n)) D). destruct Hx as [-> | ->]; reflexivity. }
  rewrite !K by (unfold digit; auto; lia). lia.
Qed.
