(** Facts about derived encodings. *)
From Coq Require Import List NArith Bool Lia.
From Verif Require Import Base BaseFacts Derive DeriveSpec.
Import ListNotations.
Open Scope N_scope.

(** Induction over values. *)
Section src_ind.
  Variable P : src -> Prop.
  Variable Q : body -> Prop.
  Hypothesis Ha : P SAtom.
  Hypothesis Hs : forall xs, Forall P xs -> P (SSeq xs).
  Hypothesis Hn : P (SOpt None).
  Hypothesis Ho : forall x, P x -> P (SOpt (Some x)).
  Hypothesis Hm : forall es, Forall (fun e => P (fst e) /\ P (snd e)) es -> P (SMap es).
  Hypothesis Hb : forall x, P x -> P (SBox x).
  Hypothesis Hr : forall x, P x -> P (SRef x).
  Hypothesis Hst : forall b, Q b -> P (SStruct b).
  Hypothesis He : forall tg b, Q b -> P (SEnum tg b).
  Hypothesis Ht : forall c x, P x -> Q (BTransparent c x).
  Hypothesis Hp : forall fs, Forall P fs -> Q (BPacked fs).
  Hypothesis Hg : forall fs, Forall (fun f => P (snd f)) fs -> Q (BTagged fs).

  Fixpoint src_rect' (x : src) : P x :=
    match x with
    | SAtom => Ha
    | SSeq xs => Hs xs ((fix go l : Forall P l := match l with [] => Forall_nil _ | y :: t => Forall_cons y (src_rect' y) (go t) end) xs)
    | SOpt None => Hn
    | SOpt (Some y) => Ho y (src_rect' y)
    | SMap es => Hm es ((fix go l : Forall (fun e => P (fst e) /\ P (snd e)) l :=
        match l with [] => Forall_nil _ | y :: t => Forall_cons y (conj (src_rect' (fst y)) (src_rect' (snd y))) (go t) end) es)
    | SBox y => Hb y (src_rect' y)
    | SRef y => Hr y (src_rect' y)
    | SStruct b => Hst b (body_rect' b)
    | SEnum tg b => He tg b (body_rect' b)
    end
  with body_rect' (b : body) : Q b :=
    match b with
    | BTransparent c x => Ht c x (src_rect' x)
    | BPacked fs => Hp fs ((fix go l : Forall P l := match l with [] => Forall_nil _ | y :: t => Forall_cons y (src_rect' y) (go t) end) fs)
    | BTagged fs => Hg fs ((fix go l : Forall (fun f => P (snd f)) l :=
        match l with [] => Forall_nil _ | y :: t => Forall_cons y (src_rect' (snd y)) (go t) end) fs)
    end.
End src_ind.

(** ** Counts *)

Lemma static_counts : forall {A} (fs : list (option bool * A)), dynamic fs = false ->
  static_count fs = count fs.
Proof.
  intros A fs H. unfold static_count, count, dynamic in *. f_equal. apply filter_ext_in.
  intros (w, a) I. unfold written. cbn [fst]. destruct w as [w|]; [|reflexivity].
  exfalso. assert (E : existsb (fun f : option bool * A => match fst f with Some _ => true | None => false end) fs = true)
    by (apply existsb_exists; exists (Some w, a); auto).
  congruence.
Qed.

Lemma fields_count : forall e fs es, encode_fields e fs = Ok es -> lenN es = count fs.
Proof.
  intros e fs. induction fs as [|(w, y) t IH]; intros es H; cbn [encode_fields] in H.
  - injection H as <-. reflexivity.
  - unfold count in *. cbn [filter]. destruct (written (w, y)).
    + destruct (e y) as [c| |]; try discriminate. cbn [bind] in H.
      fold (encode_fields e) in H. destruct (encode_fields e t) as [es'| |]; try discriminate. cbn [bind] in H. injection H as <-.
      rewrite !lenN_cons, (IH es' eq_refl). reflexivity.
    + apply IH. exact H.
Qed.

Lemma all_ok_length : forall {A} (xs : list (res A)) ys, all_ok xs = Ok ys -> length ys = length xs.
Proof.
  intros A xs. induction xs as [|x t IH]; intros ys H; cbn [all_ok] in H; [injection H as <-; reflexivity|].
  destruct x as [a| |]; try discriminate. cbn [bind] in H. destruct (all_ok t) as [l| |]; try discriminate.
  cbn [bind] in H. injection H as <-. simpl. f_equal. auto.
Qed.

(** ** The invariant *)

Definition hon_entries (es : list (call * call)) : Prop := all (map (fun e => honest (fst e) /\ honest (snd e)) es).

Definition right (x : src) : Prop :=
  (forall c, fst (encode x) = Ok c -> (honest c <-> sound x)) /\
  (forall es, snd (encode x) = Ok es ->
     (hon_entries es <-> sound x) /\ forall n, size_hint x = Some n -> lenN es = n).

(** The hint of a body's owner that makes the body's map right. *)
Definition hinted (h : option N) (n : option N) (b : body) : Prop :=
  match n with
  | Some k => h = Some k
  | None => match b with BTagged fs => h = Some (count fs) | _ => True end
  end.

Definition right_body (b : body) : Prop :=
  (forall h n c, hinted h n b -> fst (encode_default b h) = Ok c -> (honest c <-> sound_body n b)) /\
  (forall h es, snd (encode_default b h) = Ok es ->
     (hon_entries es <-> sound_body None b)
     /\ match b with
        | BTransparent _ y => forall k, size_hint y = Some k -> lenN es = k
        | BPacked _ => False
        | BTagged fs => lenN es = count fs
        end) /\
  match b with
  | BTagged fs => forall es, encode_fields (fun y => fst (encode y)) fs = Ok es -> (hon_entries es <-> sound_body None b)
  | BTransparent _ y => right y
  | BPacked _ => True
  end.

Lemma all_iff : forall {A B} (f : A -> Prop) (g : B -> Prop) xs ys,
  Forall2 (fun x y => f x <-> g y) xs ys -> (all (map f xs) <-> all (map g ys)).
Proof.
  intros A B f g xs ys H. induction H as [|x y xs ys H1 H2 IH]; cbn [map all]; [tauto|]. rewrite H1, IH. tauto.
Qed.

Lemma all_ok_inv : forall {A B} (f : A -> res B) xs ys, all_ok (map f xs) = Ok ys -> Forall2 (fun y x => f x = Ok y) ys xs.
Proof.
  intros A B f xs. induction xs as [|x t IH]; intros ys H; cbn [map all_ok] in H.
  - injection H as <-. constructor.
  - destruct (f x) as [a| |] eqn:E; try discriminate. cbn [bind] in H. destruct (all_ok (map f t)) as [l| |]; try discriminate.
    cbn [bind] in H. injection H as <-. constructor; auto.
Qed.

Lemma right_list : forall xs, Forall right xs -> forall cs, all_ok (map (fun y => fst (encode y)) xs) = Ok cs ->
  (all (map honest cs) <-> all (map sound xs)).
Proof.
  intros xs F cs H. apply all_iff. apply all_ok_inv in H. revert F. induction H as [|c x cs xs E H IH]; intros F; [constructor|].
  inversion F as [|? ? F1 F2]; subst. constructor; [apply F1; exact E|auto].
Qed.

Lemma right_fields : forall fs, Forall (fun f => right (snd f)) fs -> forall es,
  encode_fields (fun y => fst (encode y)) fs = Ok es ->
  (hon_entries es <-> all (map (fun f : option bool * src => if written f then sound (snd f) else True) fs)).
Proof.
  intros fs F. induction F as [|(w, y) t F1 F2 IH]; intros es H; cbn [encode_fields] in H.
  - injection H as <-. reflexivity.
  - cbn [map all]. destruct (written (w, y)).
    + destruct (fst (encode y)) as [c| |] eqn:E; try discriminate. cbn [bind] in H.
      fold (encode_fields (fun y => fst (encode y))) in H.
      destruct (encode_fields (fun y => fst (encode y)) t) as [es'| |]; try discriminate. cbn [bind] in H. injection H as <-.
      unfold hon_entries in *. cbn [map all fst snd honest]. rewrite (proj1 F1 c E), (IH es' eq_refl). cbn [snd]. tauto.
    + fold (encode_fields (fun y => fst (encode y))) in H. rewrite (IH es H). tauto.
Qed.

Lemma hint_right : forall {A} h n (fs : list (option bool * A)) (es : list (call * call)),
  lenN es = count fs ->
  match n with Some k => h = Some k | None => h = Some (count fs) end ->
  ((hint_of h 0 fs = None \/ hint_of h 0 fs = Some (lenN es)) <->
   match n with Some k => dynamic fs = true -> count fs = k | None => True end).
Proof.
  intros A h n fs es L H. unfold hint_of. destruct (dynamic fs) eqn:D.
  - destruct n as [k|]; rewrite H, L; split; intros X; auto.
    + intros _. destruct X as [X|X]; [discriminate|]. congruence.
    + right. f_equal. symmetry. auto.
  - rewrite static_counts, N.add_0_r, L by exact D. split; intros X; auto. destruct n; [discriminate|auto].
Qed.

Lemma default_hinted : forall b h, match b with BTagged fs => h = Some (count fs) | _ => True end -> hinted h None b.
Proof. intros b h H. unfold hinted. exact H. Qed.

Ltac ok_bind H := let x := fresh "x" in let E := fresh "Heqr" in apply bind_ok in H; destruct H as (x & E & H).

Theorem all_right : forall x, right x.
Proof.
  apply (src_rect' right right_body).
  - split; [|discriminate]. intros c H. injection H as <-. reflexivity.
  - intros xs F. split; [|discriminate]. intros c H. cbn [encode fst] in H. ok_bind H. injection H as <-.
    cbn [honest sound]. apply right_list; auto.
  - split; [|discriminate]. intros c H. injection H as <-. reflexivity.
  - intros x (R & _). split; [|discriminate]. intros c H. cbn [encode fst] in H. ok_bind H. injection H as <-.
    cbn [honest sound]. auto.
  - intros es F. 
    assert (G : forall cs, all_ok (map (fun e : src * src => let* k := fst (encode (fst e)) in let* v := fst (encode (snd e)) in Ok (k, v)) es) = Ok cs ->
       (hon_entries cs <-> sound (SMap es)) /\ length cs = length es).
    { intros cs H. split; [|rewrite (all_ok_length _ _ H); apply map_length].
      unfold hon_entries. cbn [sound]. apply all_iff. apply all_ok_inv in H. revert F.
      induction H as [|c e cs es E H IH]; intros F; [constructor|]. inversion F as [|? ? (F1 & F1') F2]; subst.
      constructor; [|auto]. ok_bind E. ok_bind E. injection E as <-. cbn [fst snd].
      rewrite (proj1 F1 _ Heqr), (proj1 F1' _ Heqr0). reflexivity. }
    split.
    + intros c H. cbn [encode fst] in H. ok_bind H. injection H as <-. destruct (G _ Heqr) as (G1 & G2).
      cbn [honest]. fold (hon_entries x). rewrite G1. unfold lenN. rewrite G2. tauto.
    + intros cs H. cbn [encode snd] in H. destruct (G _ H) as (G1 & G2). split; [exact G1|]. cbn [size_hint]. discriminate.
  - intros x (R1 & R2). split; [exact R1|]. intros es H. cbn [encode size_hint sound] in *. split; [apply R2; auto|discriminate].
  - intros x R. exact R.
  - (* struct *)
    intros b (R1 & R2 & _). split; cbn [encode sound]; intros c H.
    + apply R1 with (2 := H). apply default_hinted. destruct b; auto.
    + destruct (R2 _ _ H) as (A & B). split; [exact A|]. intros n Hn. destruct b as [cu y|fs|fs]; cbn [size_hint] in Hn.
      * destruct cu; [discriminate|]. auto.
      * discriminate.
      * injection Hn as <-. exact B.
  - (* enum *)
    intros tg b (R1 & R2 & R3). destruct tg.
    + split; [|discriminate]. intros c H. cbn [encode fst] in H. injection H as <-. reflexivity.
    + split; [|discriminate]. intros c H. cbn [encode fst sound size_hint] in *. ok_bind H. injection H as <-. cbn [honest].
      apply R1 with (2 := Heqr). reflexivity.
    + split; cbn [encode sound]; intros c H.
      * apply R1 with (2 := H). apply default_hinted. destruct b; auto.
      * destruct (R2 _ _ H) as (A & B). split; [exact A|]. intros n Hn. destruct b as [cu y|fs|fs]; cbn [size_hint] in Hn.
        -- destruct cu; [discriminate|]. auto.
        -- discriminate.
        -- injection Hn as <-. exact B.
    + (* internal *)
      destruct b as [cu y|fs|fs].
      * destruct cu; [split; discriminate|]. destruct R3 as (Y1 & Y2).
        assert (Hc : forall es, hon_entries ((CAtom, CAtom) :: es) <-> hon_entries es)
          by (intros es; unfold hon_entries; cbn [map all fst snd honest]; tauto).
        split.
        -- intros c H. cbn [encode fst] in H. ok_bind H. injection H as <-. ok_bind Heqr. injection Heqr as <-.
           destruct (Y2 _ Heqr0) as (A & B). cbn [honest size_hint sound sound_body]. fold (hon_entries ((CAtom, CAtom) :: x0)).
           rewrite Hc, A. destruct (size_hint y) as [n|] eqn:Sy; [|tauto].
           specialize (B n eq_refl). rewrite lenN_cons, B. split; [tauto|]. intros X. split; [right; f_equal; lia|exact X].
        -- intros es H. cbn [encode snd] in H. ok_bind H. injection H as <-. destruct (Y2 _ Heqr) as (A & B).
           cbn [sound sound_body size_hint]. rewrite Hc, A. split; [tauto|]. intros n Hn.
           destruct (size_hint y) as [k|]; [|discriminate]. assert (n = 1 + k) by congruence. subst n. rewrite lenN_cons, (B k eq_refl). lia.
      * split; discriminate.
      * assert (Hc : forall es, hon_entries ((CAtom, CAtom) :: es) <-> hon_entries es)
          by (intros es; unfold hon_entries; cbn [map all fst snd honest]; tauto).
        split.
        -- intros c H. cbn [encode fst] in H. ok_bind H. injection H as <-. ok_bind Heqr. injection Heqr as <-.
           cbn [honest sound]. fold (hon_entries ((CAtom, CAtom) :: x0)). rewrite Hc, (R3 _ Heqr0).
           pose proof (fields_count _ _ _ Heqr0) as L. cbn [size_hint]. rewrite lenN_cons, L. unfold hint_of.
           destruct (dynamic fs) eqn:D; [|rewrite (static_counts fs D)]; split; try tauto; intros X; (split; [right; f_equal; lia|exact X]).
        -- intros es H. cbn [encode snd] in H. ok_bind H. injection H as <-. rewrite Hc, (R3 _ Heqr). split; [reflexivity|].
           intros n Hn. cbn [size_hint] in Hn. assert (n = count fs + 1) by congruence. subst n. rewrite lenN_cons, (fields_count _ _ _ Heqr). lia.
    + (* adjacent *)
      assert (G : forall c, fst (encode_default b (Some 2)) = Ok c -> (hon_entries [(CAtom, CAtom); (CAtom, c)] <-> sound_body (Some 2) b)).
      { intros c H. unfold hon_entries. cbn [map all fst snd honest]. rewrite (R1 (Some 2) (Some 2) c eq_refl H). tauto. }
      split.
      * intros c H. cbn [encode fst size_hint] in H. ok_bind H. injection H as <-. ok_bind Heqr. injection Heqr as <-.
        cbn [honest sound]. fold (hon_entries [(CAtom, CAtom); (CAtom, x0)]). rewrite (G _ Heqr0). unfold lenN. simpl length. simpl N.of_nat. tauto.
      * intros es H. cbn [encode snd size_hint] in H. ok_bind H. injection H as <-. cbn [sound]. rewrite (G _ Heqr). split; [reflexivity|].
        intros n Hn. cbn [size_hint] in Hn. injection Hn as <-. reflexivity.
  - (* transparent *)
    intros cu y Y. split; [|split; [|exact Y]]; cbn [encode_default sound_body]; intros.
    + apply Y. assumption.
    + destruct Y as (_ & Y). apply Y. assumption.
  - (* packed *)
    intros fs F. split; [|split; [discriminate|exact Logic.I]]. intros h n c _ H. cbn [encode_default fst] in H. ok_bind H. injection H as <-.
    cbn [honest sound_body]. apply right_list; auto.
  - (* tagged *)
    intros fs F. pose proof (right_fields fs F) as R.
    assert (R3 : forall es, encode_fields (fun y => fst (encode y)) fs = Ok es -> (hon_entries es <-> sound_body None (BTagged fs))).
    { intros es H. cbn [sound_body]. rewrite (R es H). tauto. }
    split; [|split; [|exact R3]].
    + intros h n c Hh H. cbn [encode_default fst] in H. ok_bind H. injection H as <-.
      pose proof (fields_count _ _ _ Heqr) as L. cbn [honest sound_body]. fold (hon_entries x).
      rewrite (R _ Heqr), (hint_right h n fs x L); [reflexivity|]. destruct n; exact Hh.
    + intros h es H. cbn [encode_default snd] in H. split; [auto|]. apply (fields_count _ _ _ H).
Qed.

(** Plain values are sound. *)
Theorem plain_sound : forall x, plain x -> sound x.
Proof.
  assert (M : forall {A} (f g : A -> Prop) xs, Forall (fun x => f x -> g x) xs -> all (map f xs) -> all (map g xs)).
  { intros A f g xs F. induction F; cbn [map all]; tauto. }
  apply (src_rect' (fun x => plain x -> sound x)
           (fun b => forall v, plain_body v b -> forall n, (n <> None -> v = true) -> sound_body n b)); cbn [plain sound]; auto.
  - intros xs F. apply M; auto.
  - intros es F. apply M. revert F. apply Forall_impl. intros e (A & B). tauto.
  - intros b H P. apply (H false P). congruence.
  - intros tg b H P. destruct tg; auto.
    + apply (H true P). auto.
    + apply (H false P). congruence.
    + apply (H false P). congruence.
    + apply (H true P). auto.
  - cbn [plain_body sound_body]. auto.
  - cbn [plain_body sound_body]. intros fs F v P n _. revert P. apply M; auto.
  - cbn [plain_body sound_body]. intros fs F v (P1 & P2) n Hn. split.
    + destruct n as [k|]; [|exact Logic.I]. intros D. rewrite P1 in D by (apply Hn; discriminate). discriminate.
    + revert P2. apply M. revert F. apply Forall_impl. intros (w, y) Hf. cbn [snd]. destruct (written (w, y)); tauto.
Qed.
