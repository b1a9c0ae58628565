(** Values of types without floating point numbers have no infinities. *)
From Verif Require Import Base Types FloatSpec FloatTextSpec Json JsonSpec TypesFacts FloatFast FloatParse FloatTop FloatExt JsonSafe.
From Coq Require Import ZifyBool ZifyNat ZifyN.
Local Open Scope N_scope.

Lemma all2_imp {A} (g h : A -> val -> bool) (l : list A) :
  Forall (fun a => forall v, g a v = true -> h a v = true) l ->
  forall vs, all2 (map g l) vs = true -> all2 (map h l) vs = true.
Proof.
  induction 1 as [|a l Ha _ IH]; intros [|v vs]; cbn; auto. intros E. apply andb_true_iff in E. destruct E as [E1 E2].
  now rewrite (Ha v E1), (IH vs E2).
Qed.

Lemma existsb_none {A} (f : A -> bool) l : existsb f l = false -> forall x, In x l -> f x = false.
Proof.
  intros H x Hx. destruct (f x) eqn:E; [|reflexivity]. rewrite <- H. symmetry. apply existsb_exists. eauto.
Qed.

Theorem no_float_finite p t : wf p t -> forall v, has_float t = false -> has_type p t v = true -> finite t v = true.
Proof.
  induction t using ty_ind'; intros Hwf v Hf Hv; cbn [has_float] in Hf; cbn [finite]; cbn [has_type] in Hv; cbn [wf] in Hwf; try discriminate; try reflexivity.
  - destruct v; try discriminate; [reflexivity|]. now apply IHt.
  - now apply IHt.
  - destruct v; try discriminate. apply andb_true_iff in Hv. destruct Hv as [Hv _]. rewrite forallb_forall in *. auto.
  - destruct v; try discriminate. apply andb_true_iff in Hv. destruct Hv as [Hv _]. rewrite forallb_forall in *. destruct Hwf. auto.
  - destruct v; try discriminate. rewrite !andb_true_iff in Hv. destruct Hv as [[Hv _] _]. rewrite forallb_forall in *. auto.
  - destruct v; try discriminate. destruct Hwf as [Hwf _]. apply allP_Forall in Hwf. pose proof (existsb_none _ _ Hf) as Hn.
    eapply all2_imp; [|exact Hv]. rewrite Forall_forall in *. intros t Ht v. apply H; auto.
  - destruct v; try discriminate. rewrite !andb_true_iff in Hv. destruct Hv as [[Hv _] _]. rewrite forallb_forall in *.
    intros kv Hk. apply IHt2; [apply Hwf|assumption|]. apply Hv in Hk. now apply andb_true_iff in Hk.
  - destruct v; try discriminate. destruct Hwf as [Hwf _]. apply allP_Forall in Hwf. pose proof (existsb_none _ _ Hf) as Hn.
    eapply (all2_imp (fun ft => has_type p (snd ft)) (fun ft => finite (snd ft))); [|exact Hv].
    rewrite Forall_forall in *. intros ft Ht v. apply H; auto.
  - destruct v; try discriminate. destruct Hwf as [_ [Hwf _]]. apply allP_Forall in Hwf. pose proof (existsb_none _ _ Hf) as Hn.
    eapply (all2_imp (fun ft => has_type p (snd ft)) (fun ft => finite (snd ft))); [|exact Hv].
    rewrite Forall_forall in *. intros ft Ht v. apply H; auto.
  - destruct v as [| | | | | | | | |i x]; try discriminate. destruct x; try discriminate. apply Nat.ltb_lt in Hv.
    destruct (nth_error tags i) as [k|] eqn:E; [|apply nth_error_None in E; lia].
    destruct Hwf as (H1 & H2 & _). rewrite forallb_forall in H2. apply nth_error_In in E. auto.
  - destruct v as [| | | | | | | | |i x]; try discriminate. rewrite nth_error_map in *.
    destruct (nth_error vs i) as [tv|] eqn:E; cbn [option_map] in *; [|discriminate].
    destruct Hwf as (_ & Hwf & _). apply allP_Forall in Hwf. pose proof (existsb_none _ _ Hf) as Hn. rewrite Forall_forall in *.
    apply nth_error_In in E. apply H; auto.
Qed.

(** Floating point numbers after whitespace *)
Lemma float_space F c s : std F -> is_ws c = true -> Dec2flt.json_decode_float F (c :: s) = Err.
Proof.
  intros HF Hc. destruct (Dec2flt.json_decode_float F (c :: s)) as [[x r]| |] eqn:E; [|reflexivity|now elim (float_safe F (c :: s) HF)].
  exfalso. destruct (float_inv F (c :: s) x r HF E) as (sg & s' & b & Eb & Hsg & _ & H).
  assert (Hw : c = 32 \/ c = 9 \/ c = 10 \/ c = 13) by (unfold is_ws in Hc; lia).
  destruct Hsg as [Es|[Es|Es]]; subst sg; cbn [app] in Eb; try (injection Eb as -> _; lia). subst s'.
  destruct H as [(_ & H)|(ds & fs & sf & r2 & e & Eb & HM & Hne & _)].
  - unfold special in H. cbn [is_word] in H. unfold same_letter in H.
    destruct H as [[[H|H] _]|[H _]]; apply andb_true_iff in H; destruct H as [H _]; apply orb_true_iff in H; lia.
  - destruct ds as [|d ds].
    + cbn [app] in *. destruct HM as (_ & _ & _ & [Es|(Es & Ef & _)]); subst; [|now apply Hne]. cbn [app] in Eb. injection Eb as -> _. lia.
    + cbn [app] in Eb. injection Eb as -> _. destruct HM as (Hd & _). unfold digs in Hd. cbn [forallb] in Hd. unfold Utf8.is_digit, Utf8.between in Hd. lia.
Qed.

Lemma jdec_float_space p oc t c s : is_float t = true -> is_ws c = true -> jdec p oc t (c :: s) = Err.
Proof.
  intros Hf Hc. induction t using ty_ind'; try discriminate; cbn [is_float] in Hf; cbn [jdec].
  - rewrite (float_space Dec2flt.F32 c s (or_introl eq_refl) Hc). reflexivity.
  - rewrite (float_space Dec2flt.F64 c s (or_intror eq_refl) Hc). reflexivity.
  - now apply IHt.
  - rewrite IHt by assumption. reflexivity.
Qed.
