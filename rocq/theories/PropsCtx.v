(** Property C75: a tracing context reports where errors happened. Specification used: [CtxSpec.v]
    (the path and the messages that a history of operations calls for, what [plain] paths are). *)
From Verif Require Import Base Options Int NumText Ctx CtxSpec BaseFacts CtxFacts PropsInt.
From Coq Require Import Lia.
Local Open Scope N_scope.

(** Entering [.a], then the 3rd element of a sequence in it, failing there. *)
Definition ex_hist : history :=
  [(Enter (AtStruct [83]), (true, true)); (Enter (AtNamed [97]), (true, true)); (Advance 4, (true, true));
   (Enter (AtIndex 0), (true, true)); (Advance 1, (true, true)); (Leave, (true, true));
   (Enter (AtIndex 1), (true, true)); (Advance 2, (true, true)); (SayAt 5 [98; 97; 100], (true, true))].

(** As long as there is memory, the path that is reported is exactly what was entered and not left. *)
Theorem C75_path :
  forall p ty h c q,
    roomy h -> acts p h (fresh ty) = Ok c -> true_path ty [] h = Some q ->
    c_path c = q /\ c_cap c = 0.
Proof.
  intros p ty h c q Hr Ha Hq.
  assert (Hc : c_cap c = 0) by exact (roomy_cap p h (fresh ty) c Hr eq_refl Ha).
  assert (Hh : hidden c q).
  { apply (path_ok p ty h (fresh ty) [] c q eq_refl); auto.
    - exists []. auto.
    - intros h1 o f r h2 c1 -> H1. apply Forall_app in Hr. destruct Hr as [Hr1 Hr2]. inversion Hr2 as [|x y Hx _]; subst.
      cbn in Hx. inversion Hx; subst. pose proof (roomy_cap p h1 (fresh ty) c1 Hr1 eq_refl H1). destruct o; auto. }
  destruct Hh as (l & -> & L). rewrite Hc in L. destruct l; [|discriminate]. rewrite app_nil_r. auto.
Qed.
Print Assumptions C75_path.

(** When memory runs out, the outermost steps are reported and the number of those that are missing,
    if the conditions of [calm] hold. *)
Theorem C75_path_capped_partial :
  forall p ty h c q,
    calm p ty h -> acts p h (fresh ty) = Ok c -> true_path ty [] h = Some q ->
    exists missing, q = c_path c ++ missing /\ lenN missing = c_cap c.
Proof.
  intros p ty h c q Hc Ha Hq. apply (path_ok p ty h (fresh ty) [] c q eq_refl); auto. exists []. auto.
Qed.
Print Assumptions C75_path_capped_partial.

(** Missing: the conditions of [calm]. A key that cannot be formatted is not entered, but it is left:
    another step is left in its place. *)
Theorem C75_key_refuted :
  exists p h c q, acts p h (fresh false) = Ok c /\ true_path false [] h = Some q /\
    q = [AtNamed [97]] /\ c_path c = [] /\ c_cap c = 0.
Proof.
  exists ex_plat, [(Enter (AtNamed [97]), (true, true)); (EnterKey [107], (false, true)); (Leave, (true, true))].
  eexists. eexists. repeat split.
Qed.
Print Assumptions C75_key_refuted.

(** The number of missing steps outlives [clear]: the next use of the context reports steps that
    were left. *)
Theorem C75_clear_refuted :
  exists p h c q, acts p h (fresh false) = Ok c /\ true_path false [] h = Some q /\
    q = [] /\ c_path c = [AtNamed [98]] /\ c_cap c = 0.
Proof.
  exists ex_plat, [(Enter (AtNamed [97]), (true, false)); (Say [109], (true, true)); (Clear, (true, true));
                   (Enter (AtNamed [98]), (true, true)); (Leave, (true, true))].
  eexists. eexists. repeat split.
Qed.
Print Assumptions C75_clear_refuted.

(** A step that fits after one that did not is taken for the one that did not. *)
Theorem C75_late_room_refuted :
  exists p h c q, acts p h (fresh false) = Ok c /\ true_path false [] h = Some q /\
    q = [AtNamed [97]] /\ c_path c = [AtNamed [98]] /\ c_cap c = 0.
Proof.
  exists ex_plat, [(Enter (AtNamed [97]), (true, false)); (Enter (AtNamed [98]), (true, true)); (Leave, (true, true))].
  eexists. eexists. repeat split.
Qed.
Print Assumptions C75_late_room_refuted.

(** The errors that are reported are the messages since the last [clear], in order, with the positions at
    which they occurred, whatever the allocator does (those for which there was no memory are missing). *)
Theorem C75_errors :
  forall p ty h c, acts p h (fresh ty) = Ok c -> c_errors c = said p 0 [] h.
Proof. exact (fun p ty h c => errors_ok p h (fresh ty) c). Qed.
Print Assumptions C75_errors.

(** The captured error is the last message. *)
Theorem C75_captured :
  forall p ty h c, acts p h (fresh ty) = Ok c -> c_last c = last_said None h.
Proof. exact (fun p ty h c => last_ok p h (fresh ty) c). Qed.
Print Assumptions C75_captured.

(** After [clear] the context is as new, if no steps were missing. *)
Theorem C75_clear_partial :
  forall p ty h f r c c', acts p h (fresh ty) = Ok c -> c_cap c = 0 -> c_held c = 0 ->
    act p f r Clear c = Ok c' -> c' = fresh ty.
Proof.
  intros p ty h f r c c' Ha Hc Hh E.
  assert (T : c_type c = ty).
  { change ty with (c_type (fresh ty)). revert Ha. generalize (fresh ty). clear. intros c0. revert c0.
    induction h as [|[o [f r]] h IH]; intros c0 Ha; [cbn in Ha; inversion Ha; reflexivity|].
    cbn [acts] in Ha. destruct (act p f r o c0) as [c1| |] eqn:E; cbn [bind] in Ha; try discriminate.
    rewrite (IH c1 Ha). apply (act_shape _ _ _ _ _ _ E). }
  cbn [act] in E. unfold exclusive in E. cbn [with_mark c_held] in E. rewrite Hh in E. cbn in E.
  inversion E. unfold fresh, with_last, with_path, with_errors, with_mark. cbn. rewrite Hc, T, Hh. reflexivity.
Qed.
Print Assumptions C75_clear_partial.

(** While a report is being looked at, what it shows does not change: operations that would change it
    panic. *)
Theorem C75_held :
  forall p h c c', acts p h c = Ok c' ->
    (forall h1 h2 c1, h = h1 ++ h2 -> acts p h1 c = Ok c1 -> 0 < c_held c1) ->
    c_errors c' = c_errors c /\ c_path c' = c_path c.
Proof.
  intros p h. induction h as [|[o [f r]] h IH]; intros c c' Ha Hh.
  - cbn in Ha. inversion Ha; subst. auto.
  - cbn [acts] in Ha. destruct (act p f r o c) as [c1| |] eqn:E; cbn [bind] in Ha; try discriminate.
    pose proof (Hh [] _ c eq_refl eq_refl) as H0. apply act_shape in E as E'. destruct E' as (_ & _ & E1 & E2).
    destruct (IH c1 c' Ha) as [I1 I2].
    + intros h1 h2 c2 -> H1. apply (Hh ((o, (f, r)) :: h1) h2 c2); [reflexivity|]. cbn [acts]. now rewrite E.
    + rewrite I1, I2. split; [destruct E1|destruct E2]; auto; lia.
Qed.
Print Assumptions C75_held.

(** Nothing panics when no report is kept. *)
Theorem C75_no_panic :
  forall p ty h, Forall (fun x => fst x <> Hold) h -> exists c, acts p h (fresh ty) = Ok c.
Proof.
  intros p ty h. assert (G : forall c, c_held c = 0 -> Forall (fun x => fst x <> Hold) h -> exists c', acts p h c = Ok c').
  { induction h as [|[o [f r]] h IH]; intros c Hc Hf; [eexists; reflexivity|].
    inversion Hf as [|x y Hx Hf']; subst. cbn [fst] in Hx. cbn [acts].
    assert (E : exists c1, act p f r o c = Ok c1 /\ c_held c1 = 0).
    { destruct o as [[]| | | | | | | | | | |]; destruct f, r; cbn [act]; unfold push_path, push_error, pop_path, exclusive;
        cbn [with_mark c_held]; rewrite ?Hc; try congruence;
        try destruct (c_type c); try destruct (0 <? c_cap c); cbn [bind N.eqb N.sub]; eexists; (split; [reflexivity|]); cbn; rewrite ?Hc; reflexivity. }
    destruct E as (c1 & E & H1). rewrite E. cbn [bind]. exact (IH c1 H1 Hf'). }
  exact (G (fresh ty) eq_refl).
Qed.
Print Assumptions C75_no_panic.

(** The text of a path determines it (names are identifiers; without types, keys and variants directly in variants). *)
Theorem C75_text :
  forall l l' n n', plain false l -> plain false l' -> show_path l n = show_path l' n' -> l = l' /\ n = n'.
Proof. exact (fun l l' n n' => show_inj l false false 0 l' n n'). Qed.
Print Assumptions C75_text.

(** Missing: names of variants that follow each other run together; a key can look like an index. *)
Theorem C75_text_refuted :
  (exists a b c, name a /\ name b /\ name c /\
    show_path [AtVariant a; AtVariant b] 0 = show_path [AtVariant c] 0) /\
  show_path [AtKey [51]] 0 = show_path [AtIndex 3] 0.
Proof.
  split; [|reflexivity]. exists [65], [66], [65; 66].
  assert (H : forall l, l <> [] -> Forall (fun b => 64 < b < 91) l -> name l).
  { intros l H1 H2. split; [exact H1|]. split; [eapply Forall_impl; [|exact H2]; cbn; lia|].
    inversion H2; subst; [congruence|]. cbn [hd]. lia. }
  split; [|split; [|split; [|reflexivity]]]; apply H; try discriminate; repeat constructor; lia.
Qed.
Print Assumptions C75_text_refuted.

(** What is shown of an error, after the path, determines its position and message, unless the message ends with a
    closing parenthesis. *)
Theorem C75_position :
  forall path f t m f' t' m', last m 0 <> 41 -> last m' 0 <> 41 ->
  show_error path (f, t, m) = show_error path (f', t', m') -> f = f' /\ t = t' /\ m = m'.
Proof. exact show_error_inj. Qed.
Print Assumptions C75_position.

(** Every brace that is opened in a path is closed. *)
Theorem C75_braces :
  forall l n, Forall (fun s => ~ In 123 (step_text s) /\ ~ In 125 (step_text s)) l ->
  count_occ N.eq_dec (show_path l n) 123 = count_occ N.eq_dec (show_path l n) 125.
Proof. exact show_path_braces. Qed.
Print Assumptions C75_braces.

(** [.a[1]: bad (at bytes 5-7)], and with types [S { .a[1] }: bad (at bytes 5-7)]. *)
Example C75_nonvacuous :
  roomy ex_hist /\ Forall (fun x => fst x <> Hold) ex_hist /\
  (exists c, acts ex_plat ex_hist (fresh false) = Ok c /\ c_path c = [AtNamed [97]; AtIndex 1] /\ plain false (c_path c) /\
    show_report c = [46; 97; 91; 49; 93; 58; 32; 98; 97; 100; 32; 40; 97; 116; 32; 98; 121; 116; 101; 115; 32; 53; 45; 55; 41; 10]) /\
  (exists c, acts ex_plat ex_hist (fresh true) = Ok c /\
    show_report c = [83; 32; 123; 32; 46; 97; 91; 49; 93; 32; 125; 58; 32; 98; 97; 100; 32;
                     40; 97; 116; 32; 98; 121; 116; 101; 115; 32; 53; 45; 55; 41; 10]) /\
  (* with room for one step *)
  (let h := [(Enter (AtNamed [97]), (true, true)); (Enter (AtIndex 1), (true, false)); (Enter (AtIndex 2), (true, false)); (Leave, (true, true));
             (Say [109], (true, true))] in
   true_path false [] h = Some [AtNamed [97]; AtIndex 1] /\
   exists c, acts ex_plat h (fresh false) = Ok c /\ c_path c = [AtNamed [97]] /\ c_cap c = 1).
Proof.
  split; [repeat constructor|]. split; [repeat constructor; discriminate|].
  split; [eexists; split; [reflexivity|]; split; [reflexivity|]; split; [|reflexivity]|].
  - cbn. split; [|exact I]. split; [discriminate|]. split; [repeat constructor; discriminate|]. cbn. lia.
  - split; [eexists; split; reflexivity|]. split; [reflexivity|]. eexists. repeat split.
Qed.

(** The conditions of [calm], with room for one step. *)
Example C75_calm_nonvacuous :
  calm ex_plat false [(Enter (AtNamed [97]), (true, true)); (Enter (AtIndex 1), (true, false)); (Leave, (true, true));
                      (Clear, (true, true)); (EnterKey [107], (true, true))].
Proof.
  intros h1 o f r h2 c E Ha.
  do 5 (destruct h1 as [|x h1]; [injection E as <- <- <- <-; cbn in Ha; injection Ha as <-; cbn; auto; congruence|injection E as <- E]).
  destruct h1; discriminate.
Qed.
