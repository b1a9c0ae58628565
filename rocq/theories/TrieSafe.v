(** Facts about walking damaged tries: C54. *)
From Verif Require Import Base Options Int BaseFacts Zc ZcBuf ZcRefSpec ZcRefFacts Swiss Trie TrieSpec TrieFacts.
Local Open Scope N_scope.

Section damaged.
Context {V : Type} (E : tenv) (B : tbuf V).

Lemma search_some ch s : exists r, search_nodes E B ch s = Some r.
Proof.
  destruct (search_nodes E B ch s) eqn:Q; [eauto|]. exfalso. revert Q. unfold search_nodes, binary_search_by.
  apply bs_loop_fuel; lia.
Qed.
Lemma search_sound ch s r : search_nodes E B ch s = Some r ->
  match r with
  | ZOk (Found i) => i < snd ch
  | ZOk (Missing i) => i <= snd ch
  | ZErr => True
  | x => exists i, i < snd ch /\ (let+ c := load_child E B ch i in let+ y := tstr B (nstr c) in ZOk (cmp_bytes y s)) = match x with ZPanic => ZPanic | _ => ZUb end
  end.
Proof.
  intros Q. unfold search_nodes, binary_search_by in Q. apply bs_loop_sound in Q; [|lia|lia].
  destruct r as [[i|i]| | |]; auto; try lia; destruct Q as (i & L & Q); exists i; (split; [lia|auto]).
Qed.

Lemma get_ends : forall fuel t s, (length s < fuel)%nat -> exists r, get_loop fuel E B t s = Some r.
Proof.
  induction fuel as [|fuel IH]; intros t s L; [lia|]. cbn [get_loop].
  destruct (search_some (lch t) s) as [r ->]. destruct r as [[n|n]| | |]; eauto.
  destruct (n =? 0); eauto. destruct (let+ c := load_child E B (lch t) (n - 1) in _) as [[c x]| | |]; eauto. cbv zeta.
  destruct (N.eqb_spec (common x s) 0); eauto. apply IH. pose proof (common_le_r x s) as Lr. rewrite skipn_length. unfold lenN in Lr. lia.
Qed.
Lemma find_ends : forall fuel t s len, (length s < fuel)%nat -> exists r, find_node fuel E B t s len = Some r.
Proof.
  induction fuel as [|fuel IH]; intros t s len L; [lia|]. cbn [find_node].
  destruct (search_some (lch t) s) as [r ->]. destruct r as [[n|n]| | |]; eauto.
  generalize ((if n =? 0 then [] else [n - 1]) ++ (if n <? snd (lch t) then [n] else [])). intros l.
  induction l as [|i l IHl]; eauto.
  destruct (let+ c := load_child E B (lch t) i in _) as [[c x]| | |]; eauto. cbv zeta.
  destruct (N.eqb_spec (common x s) 0); eauto. destruct (common x s =? lenN s); eauto. apply IH.
  pose proof (common_le_r x s) as Lr. rewrite skipn_length. unfold lenN in Lr. lia.
Qed.

(** ** A bounded stack *)
Section bounded.
Context (n : N).
Definition ends (w : wstate V * list frame) : Prop := exists k, forall fuel, (k <= fuel)%nat -> snd (walk_items fuel (Some n) E B w) = true.
Lemma ends_go w w' : walk_step (Some n) E B w = Some (WGo, w') -> ends w' -> ends w.
Proof.
  intros St [k H]. exists (S k). intros [|fuel] L; [lia|]. cbn [walk_items]. rewrite St. apply H. lia.
Qed.
Lemma ends_fail w w' e : walk_step (Some n) E B w = Some (WFail e, w') -> ends w.
Proof. intros St. exists 1%nat. intros [|fuel] L; [lia|]. cbn [walk_items]. rewrite St. auto. Qed.
Lemma ends_values p vs st : ends (WStack, st) -> ends (WValues p vs, st).
Proof.
  intros H. induction vs as [|v vs IH].
  - eapply ends_go; [reflexivity|auto].
  - destruct IH as [k IH]. exists (S k). intros [|fuel] L; [lia|]. cbn [walk_items walk_step].
    specialize (IH fuel ltac:(lia)). destruct (walk_items fuel (Some n) E B (WValues p vs, st)). auto.
Qed.
Lemma push_inv (st : list frame) f st' : try_push (Some n) st f = Some st' -> st' = f :: st /\ lenN st <> n.
Proof. unfold try_push. destruct (N.eqb_spec (lenN st) n); [discriminate|]. intros [= <-]. auto. Qed.

Lemma ends_frames : forall k st, ends (WStack, st) -> (lenN st + N.of_nat k = n) -> forall r ch i p, snd ch - i = N.of_nat r ->
  ends (WStack, (ch, i, p) :: st).
Proof.
  induction k as [|k IHk]; intros st Hst Lk; induction r as [|r IHr]; intros ch i p Lr.
  1, 3: eapply ends_go; [cbn [walk_step]; destruct (N.leb_spec (snd ch) i); [reflexivity|lia]|auto].
  - destruct (N.leb_spec (snd ch) i) as [G|G]; [lia|].
    cbn [N.of_nat] in Lk. rewrite N.add_0_r in Lk.
    assert (X : exists e w', walk_step (Some n) E B (WStack, (ch, i, p) :: st) = Some (WFail e, w')); [|destruct X as (e & w' & X); eapply ends_fail; eauto].
    cbn [walk_step]. destruct (N.leb_spec (snd ch) i); [lia|].
    destruct (let+ node := load_child E B ch i in _) as [[node np]| | |]; eauto.
    unfold try_push. rewrite Lk, N.eqb_refl. eauto.
  - destruct (N.leb_spec (snd ch) i) as [G|G]; [lia|].
    destruct (walk_step (Some n) E B (WStack, (ch, i, p) :: st)) as [[o w']|] eqn:St.
    2:{ exfalso. cbn [walk_step] in St. destruct (N.leb_spec (snd ch) i); [lia|].
        destruct (let+ node := load_child E B ch i in _) as [[node np]| | |]; try discriminate.
        destruct (try_push _ st _) as [st1|]; [|discriminate]. destruct (try_push _ st1 _); discriminate. }
    pose proof St as St0. cbn [walk_step] in St. destruct (N.leb_spec (snd ch) i); [lia|].
    destruct (let+ node := load_child E B ch i in _) as [[node np]| | |]; try (inversion St; subst; eapply ends_fail; exact St0).
    destruct (try_push _ st _) as [st1|] eqn:P1; [|inversion St; subst; eapply ends_fail; exact St0].
    destruct (try_push _ st1 _) as [st2|] eqn:P2; [|inversion St; subst; eapply ends_fail; exact St0].
    apply push_inv in P1 as [-> _]. apply push_inv in P2 as [-> _]. inversion St; subst. eapply ends_go; [exact St0|].
    apply ends_values. eapply (IHk _ _ _ (N.to_nat (snd (lch (nlinks node))))).
    + lia.
    Unshelve.
    * apply IHr. lia.
    * rewrite lenN_cons. lia.
Qed.
Lemma ends_all t q : ends (WFind t q, []).
Proof.
  assert (E0 : ends (WStack, [])) by (exists 1%nat; intros [|fuel] L; [lia|reflexivity]).
  assert (E1 : forall st1 f, try_push (Some n) [] f = Some st1 -> ends (WStack, st1)).
  { intros st1 [[ch i] p] P. apply push_inv in P as [-> P]. apply (ends_frames (N.to_nat n) []) with (r := N.to_nat (snd ch - i)); auto; [cbn; lia|lia]. }
  destruct q as [|x q].
  - destruct (try_push (Some n) [] (lch t, 0, [])) as [st|] eqn:P.
    + eapply ends_go; [cbn [walk_step]; rewrite P; reflexivity|]. apply ends_values. eauto.
    + eapply ends_fail. cbn [walk_step]. rewrite P. reflexivity.
  - destruct (find_ends (S (length (x :: q))) t (x :: q) 0 ltac:(lia)) as [r F].
    assert (St : walk_step (Some n) E B (WFind t (x :: q), []) = match r with
      | ZOk None => Some (WGo, (WStack, []))
      | ZOk (Some (node, len)) =>
          match (let+ r := prefix_string E (nstr node) len in tstr B r) with
          | ZErr => Some (WFail ZErr, (WFind t (x :: q), []))
          | ZPanic => Some (WFail ZPanic, (WFind t (x :: q), []))
          | ZUb => Some (WFail ZUb, (WFind t (x :: q), []))
          | ZOk prefix =>
              match try_push (Some n) [] (lch (nlinks node), 0, prefix) with
              | None => Some (WFail ZErr, (WFind t (x :: q), []))
              | Some stack => Some (WGo, (WValues prefix (lvals (nlinks node)), stack))
              end
          end
      | ZErr => Some (WFail ZErr, (WFind t (x :: q), [])) | ZPanic => Some (WFail ZPanic, (WFind t (x :: q), [])) | ZUb => Some (WFail ZUb, (WFind t (x :: q), [])) end).
    { cbn [walk_step]. rewrite F. destruct r as [[[node len]|]| | |]; reflexivity. }
    destruct r as [[[node len]|]| | |]; try (eapply ends_fail; exact St); [|eapply ends_go; [exact St|auto]].
    destruct (let+ r := prefix_string E (nstr node) len in tstr B r) as [np| | |]; try (eapply ends_fail; exact St).
    destruct (try_push (Some n) [] _) as [st|] eqn:P; [|eapply ends_fail; exact St].
    eapply ends_go; [exact St|]. apply ends_values. eauto.
Qed.
End bounded.

(** ** No panics *)
Context (Hm : emx E < 2 ^ eub E) (Hstr : forall s, calm (tstr B s)) (Hnode : forall o, calm (tnode B o))
  (Hrange : forall o nd, tnode B o = ZOk nd -> in_range E (nlinks nd)).

Lemma calm_bind {A C} (r : zres A) (f : A -> zres C) : calm r -> (forall x, r = ZOk x -> calm (f x)) -> calm (zbind r f).
Proof. destruct r; cbn; auto. Qed.
Lemma calm_child (l : links V) i : in_range E l -> i < snd (lch l) -> calm (load_child E B (lch l) i).
Proof.
  intros R L. unfold in_range in R. unfold load_child, child_off, umul, uadd.
  assert (ensz E * i <= ensz E * snd (lch l)) by (apply N.mul_le_mono_l; lia).
  destruct (N.ltb_spec (ensz E * i) (2 ^ eub E)); [|lia]. cbn [zbind].
  destruct (N.ltb_spec (fst (lch l) + ensz E * i) (2 ^ eub E)); [|lia]. cbn [zbind].
  destruct (N.ltb_spec (emx E) (fst (lch l) + ensz E * i)); [lia|]. apply Hnode.
Qed.
Lemma child_range l i nd : load_child E B l i = ZOk nd -> in_range E (nlinks nd).
Proof. unfold load_child. destruct (child_off E l i) as [o| | |]; cbn [zbind]; try discriminate. apply Hrange. Qed.
Lemma calm_search (l : links V) s r : in_range E l -> search_nodes E B (lch l) s = Some r -> calm r.
Proof.
  intros R Q. apply search_sound in Q. destruct r as [x| | |]; cbn; auto; destruct Q as (i & L & Q).
  all: assert (C : calm (let+ c := load_child E B (lch l) i in let+ y := tstr B (nstr c) in ZOk (cmp_bytes y s)))
    by (apply calm_bind; [apply calm_child; auto|intros c _; apply calm_bind; [apply Hstr|cbn; auto]]); rewrite Q in C; exact C.
Qed.
Lemma get_calm : forall fuel t s r, in_range E t -> get_loop fuel E B t s = Some r -> calm r.
Proof.
  induction fuel as [|fuel IH]; intros t s r R Q; [discriminate|]. cbn [get_loop] in Q.
  destruct (search_nodes E B (lch t) s) as [x|] eqn:Sx; [|discriminate].
  pose proof (calm_search t s x R Sx) as Cx. pose proof (search_sound (lch t) s x Sx) as Ss.
  destruct x as [[i|i]| | |]; cbn in Cx; try tauto; try (inversion Q; subst; exact I).
  - inversion Q; subst. apply calm_bind; [apply calm_child; auto|intros; exact I].
  - destruct (N.eqb_spec i 0); [inversion Q; subst; exact I|].
    assert (C : calm (let+ c := load_child E B (lch t) (i - 1) in let+ y := tstr B (nstr c) in ZOk (c, y)))
      by (apply calm_bind; [apply calm_child; auto; lia|intros c _; apply calm_bind; [apply Hstr|cbn; auto]]).
    destruct (let+ c := load_child E B (lch t) (i - 1) in _) as [[c y]| | |] eqn:L; cbn in C; try tauto; try (inversion Q; subst; exact I).
    cbv zeta in Q. destruct (common y s =? 0); [inversion Q; subst; exact I|]. apply IH in Q; auto.
    destruct (load_child E B (lch t) (i - 1)) as [nd| | |] eqn:Lc; cbn [zbind] in L; try discriminate.
    destruct (tstr B (nstr nd)); cbn [zbind] in L; try discriminate. inversion L; subst. eapply child_range; eauto.
Qed.
Lemma find_calm : forall fuel t s len r, in_range E t -> find_node fuel E B t s len = Some r ->
  calm r /\ forall nd k, r = ZOk (Some (nd, k)) -> in_range E (nlinks nd).
Proof.
  induction fuel as [|fuel IH]; intros t s len r R Q; [discriminate|]. cbn [find_node] in Q.
  destruct (search_nodes E B (lch t) s) as [x|] eqn:Sx; [|discriminate].
  pose proof (calm_search t s x R Sx) as Cx. pose proof (search_sound (lch t) s x Sx) as Ss.
  destruct x as [[i|i]| | |]; cbn in Cx; try tauto; try (inversion Q; subst; split; [exact I|discriminate]).
  - inversion Q; subst. split; [apply calm_bind; [apply calm_child; auto|intros; exact I]|].
    intros nd k Z. destruct (load_child E B (lch t) i) as [c| | |] eqn:Lc; cbn [zbind] in Z; try discriminate. inversion Z; subst. eapply child_range; eauto.
  - assert (Hl : Forall (fun j => j < snd (lch t)) ((if i =? 0 then [] else [i - 1]) ++ (if i <? snd (lch t) then [i] else []))).
    { apply Forall_app. split; [destruct (N.eqb_spec i 0)|destruct (N.ltb_spec i (snd (lch t)))]; repeat constructor; lia. }
    revert Q Hl. generalize ((if i =? 0 then [] else [i - 1]) ++ (if i <? snd (lch t) then [i] else [])). intros l.
    induction l as [|j l IHl]; intros Q Hl; [inversion Q; subst; split; [exact I|discriminate]|].
    pose proof (Forall_inv Hl) as Lj.
    assert (C : calm (let+ c := load_child E B (lch t) j in let+ y := tstr B (nstr c) in ZOk (c, y)))
      by (apply calm_bind; [apply calm_child; auto; lia|intros c _; apply calm_bind; [apply Hstr|cbn; auto]]).
    destruct (let+ c := load_child E B (lch t) j in _) as [[c y]| | |] eqn:L; cbn in C; try tauto; try (inversion Q; subst; split; [exact I|discriminate]).
    assert (Rc : in_range E (nlinks c)).
    { destruct (load_child E B (lch t) j) as [nd| | |] eqn:Lc; cbn [zbind] in L; try discriminate.
      destruct (tstr B (nstr nd)); cbn [zbind] in L; try discriminate. inversion L; subst. eapply child_range; eauto. }
    cbv zeta in Q. destruct (common y s =? 0); [apply IHl; auto; exact (Forall_inv_tail Hl)|].
    destruct (common y s =? lenN s); [inversion Q; subst; split; [exact I|intros nd k [= <- <-]; auto]|]. apply IH in Q; auto.
Qed.
Definition frames_ok (st : list frame) : Prop := Forall (fun f : frame => fst (fst (fst f)) + ensz E * snd (fst (fst f)) <= emx E) st.
Definition state_ok (w : wstate V * list frame) : Prop := frames_ok (snd w) /\ match fst w with WFind t _ => in_range E t | _ => True end.
Lemma push_ok cap st f st' : frames_ok st -> fst (fst (fst f)) + ensz E * snd (fst (fst f)) <= emx E -> try_push cap st f = Some st' -> frames_ok st'.
Proof. intros H F. unfold try_push. destruct cap as [n|]; [destruct (lenN st =? n)|]; try discriminate; intros [= <-]; constructor; auto. Qed.
Lemma calm_prefix r k : calm (let+ x := prefix_string E r k in tstr B x).
Proof.
  apply calm_bind; [|intros; apply Hstr]. unfold prefix_string. destruct (fst r <? k); [exact I|]. destruct (2 ^ eub E <=? fst r + snd r); exact I.
Qed.
Lemma step_calm cap w o w' : state_ok w -> walk_step cap E B w = Some (o, w') -> state_ok w' /\ match o with WFail e => calm e | _ => True end.
Proof.
  destruct w as [st stack]. intros [Fs Ss] Q. cbn [fst snd] in *. destruct st as [t [|x q]|p [|v vs]|]; cbn [walk_step] in Q.
  - destruct (try_push cap stack _) as [st|] eqn:P; inversion Q; subst; (split; [|exact I]); [split; cbn [fst snd]; auto; eapply push_ok; eauto; apply Ss|split; auto].
  - destruct (find_node (S (length (x :: q))) E B t (x :: q) 0) as [r|] eqn:F; [|discriminate]. apply find_calm in F as [C R]; auto.
    destruct r as [[[nd k]|]| | |]; cbn in C; try tauto; try (inversion Q; subst; split; [split; auto|exact I]).
    pose proof (calm_prefix (nstr nd) k) as Cp.
    destruct (let+ x := prefix_string E (nstr nd) k in tstr B x) as [np| | |]; cbn in Cp; try tauto; try (inversion Q; subst; split; [split; auto|exact I]).
    destruct (try_push cap stack _) as [st|] eqn:P; inversion Q; subst; (split; [|exact I]); [split; cbn [fst snd]; auto; eapply push_ok; eauto; apply (R _ _ eq_refl)|split; auto].
  - inversion Q; subst. split; [split; auto|exact I].
  - inversion Q; subst. split; [split; auto|exact I].
  - destruct stack as [|[[ch i] p] stack]; [inversion Q; subst; split; [split; auto|exact I]|].
    pose proof (Forall_inv Fs) as Fc. cbn [fst snd] in Fc. pose proof (Forall_inv_tail Fs) as Ft.
    destruct (N.leb_spec (snd ch) i) as [G|G]; [inversion Q; subst; split; [split; auto|exact I]|].
    assert (Cc : calm (load_child E B ch i)) by (apply (calm_child ({| lvals := []; lch := ch |} : links V) i); auto).
    destruct (load_child E B ch i) as [nd| | |] eqn:L; cbn [zbind] in Q; cbn in Cc; try tauto; try (inversion Q; subst; split; [split; auto|exact I]).
    pose proof (calm_prefix (nstr nd) (lenN p)) as Cp.
    destruct (prefix_string E (nstr nd) (lenN p)) as [y| | |] eqn:Pf; cbn [zbind] in Q, Cp; cbn in Cp; try tauto; try (inversion Q; subst; split; [split; auto|exact I]).
    destruct (tstr B y) as [np| | |]; cbn [zbind] in Q; cbn in Cp; try tauto; try (inversion Q; subst; split; [split; auto|exact I]).
    destruct (try_push cap stack _) as [st1|] eqn:P1; [|inversion Q; subst; split; [split; auto|exact I]].
    destruct (try_push cap st1 _) as [st2|] eqn:P2; [|inversion Q; subst; split; [split; auto|exact I]].
    inversion Q; subst. split; [|exact I]. split; cbn [fst snd]; auto.
    apply (push_ok cap st1 (lch (nlinks nd), 0, np) _ (push_ok cap stack (ch, i + 1, p) _ Ft Fc P1) (child_range ch i nd L) P2).
Qed.
Lemma items_calm cap : forall fuel w, state_ok w -> Forall calm (fst (walk_items fuel cap E B w)).
Proof.
  induction fuel as [|fuel IH]; intros w Ok; [constructor|]. cbn [walk_items].
  destruct (walk_step cap E B w) as [[o w']|] eqn:Q; [|constructor]. apply step_calm in Q as [Ok' C]; auto. destruct o as [|k v| |e].
  - auto.
  - specialize (IH w' Ok'). destruct (walk_items fuel cap E B w'). cbn [fst] in *. constructor; [exact I|auto].
  - constructor.
  - constructor; auto.
Qed.
End damaged.
