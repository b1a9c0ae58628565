(** Structs read from any sequence of entries. *)
From Verif Require Import Base Options Int Utf8 Types Storage StorageSpec Fmt FmtSpec EntriesSpec
  BaseFacts IntFacts TypesFacts StorageFacts DecFacts StorageSafe StabFacts FmtFacts FmtSafe FmtEvolve.
From Coq Require Import ZifyBool ZifyNat ZifyN.
Local Open Scope N_scope.

Lemma set_slot_same i v s : (i < length s)%nat -> nth_error (set_slot i v s) i = Some (Some v).
Proof.
  revert i. induction s as [|x s IH]; intros [|i] H; cbn in *; try lia; [reflexivity|]. apply IH. lia.
Qed.

Lemma set_slot_else i j v s : i <> j -> nth_error (set_slot i v s) j = nth_error s j.
Proof.
  revert i j. induction s as [|x s IH]; intros [|i] [|j] H; cbn; try reflexivity; try congruence.
  apply IH. congruence.
Qed.

Lemma set_slot_length i v s : length (set_slot i v s) = length s.
Proof. revert i. induction s as [|x s IH]; intros [|i]; cbn; congruence. Qed.

Section Entries.
  Variables (F : fmt) (p : plat) (o : N) (okleaf : ty -> bool) (skipk : N -> dec unit).
  Hypothesis LR : rt_laws F p.
  Hypothesis LS : skip_laws F p okleaf skipk.

  Notation body kt := (concat_res (fun e => let* a := genc F p o kt (e_name e) in
                                 let* c := genc F p o (e_type e) (e_val e) in Ok (a ++ c))).
  Notation dk kt fsR := (match fsR with
                  | [] => fun bs => let* (_, r) := f_skip F bs in Ok (VUnit, r)
                  | _ => gdec F p o kt
                  end).
  Notation names fsR := (map (fun ft : finfo * ty => fname (fst ft)) fsR).
  Notation decs fsR := (map (fun ft : finfo * ty => gdec F p o (snd ft)) fsR).

  (** What the slot of a field is after the entries. *)
  Definition slot_is (es : list entry) (fr : finfo * ty) (before after : option (option val)) : Prop :=
    (unnamed es fr -> after = before) /\
    (forall e r, last_entry es e -> e_name e = fname (fst fr) -> upg (e_type e) (snd fr) (e_val e) r ->
       after = Some (Some r)).

  Lemma entries_loop kt fsR M : 1 + M < 2 ^ usize_bits p ->
    NoDup (names fsR) -> (forall ft, In ft fsR -> wf p (snd ft)) ->
    forall es s bs rest, entries_ok p o okleaf kt es -> readable es fsR -> length s = length fsR ->
    body kt es = Ok bs -> lenN bs <= M ->
    exists s', iterN (lenN es) (dec_field (dk kt fsR) (names fsR) (decs fsR) (f_skip F)) (s, bs ++ rest)
        = Ok (s', rest) /\ length s' = length fsR /\
      forall j fr, nth_error fsR j = Some fr -> slot_is es fr (nth_error s j) (nth_error s' j).
  Proof.
    intros HM Hnd HwR. induction es as [|e es IH]; intros s bs rest He Hr Hlen Hb Hl.
    - cbn in Hb. inversion Hb; subst. exists s. cbn. split; [reflexivity|]. split; [assumption|].
      intros j fr _. split; [reflexivity|]. intros e r (pre & post & E & _). destruct pre; discriminate.
    - cbn [concat_res] in Hb. inv_bind Hb. inv_bind Hb. inversion Hb; subst. inv_bind Hb0. inv_bind Hb0. inversion Hb0; subst.
      rewrite !lenN_app in Hl.
      destruct He as [Hk He]. destruct (He e (or_introl eq_refl)) as (Hn & Hw1 & Hp1 & Hl1 & Hv1).
      destruct Hk as (Hwk & Hpk & Hlk).
      assert (He' : entries_ok p o okleaf kt es) by (exact (conj (conj Hwk (conj Hpk Hlk)) (fun e' I => He e' (or_intror I)))).
      assert (Hr' : readable es fsR) by (intros e' fr I; apply Hr; now right).
      (* the first entry *)
      assert (Hstep : exists s1, dec_field (dk kt fsR) (names fsR) (decs fsR) (f_skip F)
          (s, ((a1 ++ a2) ++ a0) ++ rest) = Ok (s1, a0 ++ rest) /\ length s1 = length fsR /\
          forall j fr, nth_error fsR j = Some fr ->
            (e_name e <> fname (fst fr) -> nth_error s1 j = nth_error s j) /\
            (e_name e = fname (fst fr) -> forall r, upg (e_type e) (snd fr) (e_val e) r -> nth_error s1 j = Some (Some r))).
      { unfold dec_field. cbn [fst snd]. rewrite <- !app_assoc.
        destruct fsR as [|fr0 fsR'] eqn:EfsR.
        - rewrite (g_skip F p o okleaf skipk LS kt (e_name e) a1 _ Hwk Hlk Hn) by (assumption || lia).
          cbn [bind map find_name].
          rewrite (g_skip F p o okleaf skipk LS (e_type e) (e_val e) a2 _ Hw1 Hl1 Hv1) by (assumption || lia).
          cbn [bind]. exists s. split; [reflexivity|]. split; [assumption|]. intros [|j] fr E; discriminate E.
        - rewrite <- EfsR in *. clear EfsR fr0 fsR'.
          rewrite (same_reads F p o okleaf LR kt (e_name e) M (conj Hwk (conj Hpk Hlk)) Hn a1) by (assumption || lia).
          cbn [bind]. destruct (find_name (e_name e) (names fsR)) as [j|] eqn:Ej.
          + apply find_name_some in Ej. rewrite nth_error_map in *.
            destruct (nth_error fsR j) as [fr|] eqn:Efr; [|discriminate]. cbn [option_map] in *. inversion Ej as [Ej'].
            assert (U := UPG_all F p o okleaf skipk LR LS (e_type e)).
            destruct (Hr e fr (or_introl eq_refl) (nth_error_In _ _ Efr) (eq_sym Ej')) as [r Hu].
            assert (R : forall r', upg (e_type e) (snd fr) (e_val e) r' -> gdec F p o (snd fr) (a2 ++ a0 ++ rest) = Ok (r', a0 ++ rest)).
            { intros r' Hu'. apply (U (snd fr) (e_val e) r' Hu' (conj Hw1 (conj Hp1 Hl1)) (HwR fr (nth_error_In _ _ Efr)) Hv1 M HM a2); (assumption || lia). }
            rewrite (R r Hu). cbn [bind]. exists (set_slot j r s). split; [reflexivity|].
            rewrite set_slot_length. split; [assumption|]. intros j' fr' Efr'.
            destruct (Nat.eq_dec j j') as [<-|Nj].
            * assert (fr' = fr) by congruence. subst fr'. split; [congruence|]. intros _ r' Hu'.
              pose proof (R r Hu) as R1. rewrite (R r' Hu') in R1. inversion R1; subst.
              apply set_slot_same. rewrite Hlen. apply nth_error_Some. congruence.
            * rewrite set_slot_else by assumption. split; [reflexivity|]. intros En. exfalso. apply Nj.
              apply (proj1 (NoDup_nth_error _) Hnd).
              -- rewrite map_length. apply nth_error_Some. congruence.
              -- rewrite !nth_error_map, Efr, Efr'. cbn. congruence.
          + apply find_name_none in Ej.
            rewrite (g_skip F p o okleaf skipk LS (e_type e) (e_val e) a2 _ Hw1 Hl1 Hv1) by (assumption || lia).
            cbn [bind]. exists s. split; [reflexivity|]. split; [assumption|]. intros j fr Efr. split; [reflexivity|].
            intros En. exfalso. apply Ej. rewrite En. apply in_map_iff. exists fr. split; [reflexivity|]. exact (nth_error_In _ _ Efr). }
      destruct Hstep as (s1 & Hs1 & Hlen1 & Hj1).
      destruct (IH s1 a0 rest He' Hr' Hlen1) as (s' & Hs' & Hlen' & Hj'); [assumption|lia|].
      exists s'. split; [|split; [assumption|]].
      + rewrite iterN_nat in *. replace (N.to_nat (lenN (e :: es))) with (S (N.to_nat (lenN es))) by (unfold lenN; cbn [length]; lia).
        cbn [iter_nat]. rewrite Hs1. cbn [bind]. exact Hs'.
      + intros j fr Efr. destruct (Hj1 j fr Efr) as [J1 J2]. destruct (Hj' j fr Efr) as [J3 J4]. split.
        * intros Hno. rewrite J3; [apply J1|]; [apply Hno; now left|]. intros e' I. apply Hno. now right.
        * intros e' r (pre & post & E & Hpost) En Hu. destruct pre as [|x pre]; cbn in E; inversion E; subst.
          -- rewrite J3; [apply (J2 En r Hu)|]. intros e'' I. rewrite <- En. apply Hpost. exact I.
          -- apply (J4 e' r); auto. exists pre, post. auto.
  Qed.

  Lemma entries_decode kt fsR es bs rest :
    entries_ok p o okleaf kt es -> wf p (TStruct kt fsR) -> readable es fsR ->
    entries_encode F p o kt es = Ok bs -> 1 + lenN bs < 2 ^ usize_bits p -> lenN es < 2 ^ usize_bits p ->
    exists s', length s' = length fsR /\
      gdec F p o (TStruct kt fsR) (bs ++ rest) = (let* vs := fill (map fst fsR) s' in Ok (VList vs, rest)) /\
      forall j fr, nth_error fsR j = Some fr -> slot_is es fr (Some None) (nth_error s' j).
  Proof.
    intros He HwR Hr Hb HM Hn. cbn [wf] in HwR. destruct HwR as (_ & HwR & _ & _ & HndR & _ & _).
    rewrite allP_Forall, Forall_forall in HwR. apply distinct_NoDup in HndR.
    unfold entries_encode in Hb. inv_bind Hb. inv_bind Hb. inversion Hb; subst. rewrite lenN_app in HM.
    destruct (entries_loop kt fsR (lenN a0) ltac:(lia) HndR HwR es (map (fun _ => None) fsR) a0 rest He Hr) as (s' & Hs & Hl & Hj);
      [apply map_length|assumption|lia|].
    exists s'. split; [assumption|]. split.
    - cbn [gdec]. rewrite <- app_assoc, (l_map F p LR (lenN es) a) by assumption. cbn [bind].
      match goal with |- bind ?x _ = _ => replace x with (Ok (s', rest)) by (symmetry; exact Hs) end. reflexivity.
    - intros j fr Efr. specialize (Hj j fr Efr). rewrite nth_error_map, Efr in Hj. exact Hj.
  Qed.

  Lemma fill_says es : forall fsR rs, Forall2 (says es) fsR rs -> forall s', length s' = length fsR ->
    (forall j fr, nth_error fsR j = Some fr -> slot_is es fr (Some None) (nth_error s' j)) ->
    fill (map fst fsR) s' = Ok rs.
  Proof.
    induction 1 as [|fr r fsR rs Hs _ IH]; intros [|x s'] Hl Hj; try discriminate; [reflexivity|].
    cbn [map fill]. destruct (Hj 0%nat fr eq_refl) as [J1 J2]. cbn [nth_error] in J1, J2.
    destruct Hs as [(e & HL & En & Hu)|[Hno Hd]].
    - specialize (J2 e r HL En Hu). inversion J2; subst. cbn [bind].
      rewrite (IH s'); [reflexivity|now inversion Hl|]. intros j fr' E. apply (Hj (S j) fr' E).
    - specialize (J1 Hno). inversion J1; subst. rewrite Hd. cbn [bind].
      rewrite (IH s'); [reflexivity|now inversion Hl|]. intros j fr' E. apply (Hj (S j) fr' E).
  Qed.

  Theorem g_entries kt fsR es rs bs rest :
    entries_ok p o okleaf kt es -> wf p (TStruct kt fsR) -> readable es fsR -> Forall2 (says es) fsR rs ->
    entries_encode F p o kt es = Ok bs -> 1 + lenN bs < 2 ^ usize_bits p -> lenN es < 2 ^ usize_bits p ->
    gdec F p o (TStruct kt fsR) (bs ++ rest) = Ok (VList rs, rest).
  Proof.
    intros He HwR Hr Hs Hb HM Hn.
    destruct (entries_decode kt fsR es bs rest He HwR Hr Hb HM Hn) as (s' & Hl & -> & Hj).
    now rewrite (fill_says es fsR rs Hs s' Hl Hj).
  Qed.

  Theorem g_entries_missing kt fsR es bs rest fr :
    entries_ok p o okleaf kt es -> wf p (TStruct kt fsR) -> readable es fsR ->
    In fr fsR -> unnamed es fr -> fdefault (fst fr) = None ->
    entries_encode F p o kt es = Ok bs -> 1 + lenN bs < 2 ^ usize_bits p -> lenN es < 2 ^ usize_bits p ->
    gdec F p o (TStruct kt fsR) (bs ++ rest) = Err.
  Proof.
    intros He HwR Hr Hin Hno Hd Hb HM Hn.
    destruct (entries_decode kt fsR es bs rest He HwR Hr Hb HM Hn) as (s' & Hl & -> & Hj).
    apply In_nth_error in Hin as [j Ej]. destruct (Hj j fr Ej) as [J _]. specialize (J Hno).
    replace (fill (map fst fsR) s') with (Err (A := list val)); [reflexivity|symmetry].
    clear - Ej J Hl Hd. revert j s' Ej J Hl. induction fsR as [|x fs IH]; intros [|j] [|y s'] Ej J Hl; try discriminate.
    - cbn in *. inversion Ej; inversion J; subst. now rewrite Hd.
    - cbn [map fill nth_error] in *. rewrite (IH j s' Ej J) by now inversion Hl.
      destruct y; [reflexivity|]. destruct (fdefault (fst x)); reflexivity.
  Qed.
End Entries.

Lemma last_cons e es x : In x es \/ x = e ->
  (exists e', last_entry es e' /\ e_name e' = e_name x) \/ (x = e /\ forall e', In e' es -> e_name e' <> e_name x).
Proof.
  revert e x. induction es as [|a es IH]; intros e x H.
  - destruct H as [[]| ->]. right. split; [reflexivity|]. intros e' [].
  - assert (L : forall y, last_entry es y -> last_entry (a :: es) y).
    { intros y (pre & post & -> & K). exists (a :: pre), post. auto. }
    assert (A : forall y, In y (a :: es) -> exists e', last_entry (a :: es) e' /\ e_name e' = e_name y).
    { intros y [<-|I].
      - destruct (IH a a (or_intror eq_refl)) as [(e' & E1 & E2)|[_ K]]; [exists e'; auto|].
        exists a. split; [|reflexivity]. exists [], es. auto.
      - destruct (IH a y (or_introl I)) as [(e' & E1 & E2)|[_ K]]; [exists e'; auto|].
        exfalso. exact (K y I eq_refl). }
    destruct H as [H| ->]; [left; apply A, H|].
    destruct (existsb (fun y => val_eqb (e_name y) (e_name e)) (a :: es)) eqn:E.
    + apply existsb_exists in E as (y & I & E). apply val_eqb_eq in E. left. destruct (A y I) as (e' & H1 & H2).
      exists e'. split; congruence.
    + right. split; [reflexivity|]. intros y I K.
      assert (existsb (fun y => val_eqb (e_name y) (e_name e)) (a :: es) = true) by (apply existsb_exists; exists y; split; [assumption|rewrite K; apply val_eqb_refl]).
      congruence.
Qed.

Lemma last_of es x : In x es -> exists e, last_entry es e /\ e_name e = e_name x.
Proof.
  intros I. destruct (last_cons x es x (or_introl I)) as [H|[_ K]]; [assumption|]. exfalso. exact (K x I eq_refl).
Qed.

Lemma says_order es es' fs rs :
  (forall e, last_entry es e <-> last_entry es' e) -> Forall2 (says es) fs rs -> Forall2 (says es') fs rs.
Proof.
  intros H. induction 1 as [|fr r fs rs Hs _ IH]; constructor; [|assumption].
  destruct Hs as [(e & HL & En & Hu)|[Hno Hd]].
  - left. exists e. split; [now apply H|auto].
  - right. split; [|assumption]. intros e I En. destruct (last_of es' e I) as (e' & HL & En').
    apply H in HL as (pre & post & -> & _). apply (Hno e'); [apply in_elt|congruence].
Qed.

Lemma struct_is_entries F p o kt fs vs bs :
  genc F p o (TStruct kt fs) (VList vs) = Ok bs ->
  entries_encode F p o kt (struct_entries fs vs) = Ok bs.
Proof.
  cbn [genc]. intros H. inv_bind H. inv_bind H. inversion H; subst. unfold entries_encode.
  assert (C : lenN (struct_entries fs vs) = count_fields (map fst fs) vs).
  { clear. revert vs. induction fs as [|[f t] fs IH]; intros [|v vs]; cbn [struct_entries map count_fields fst]; try reflexivity.
    destruct (fskip f v); [rewrite N.add_0_l; apply IH|]. rewrite lenN_cons, IH. reflexivity. }
  rewrite C. match goal with E : f_map_enc _ _ = _ |- _ => rewrite E end. cbn [bind].
  match goal with |- bind ?x _ = _ => replace x with (Ok a0); [reflexivity|symmetry] end.
  match goal with E : enc_fields _ _ _ = Ok a0 |- _ => rename E into Q end. clear - Q. revert vs a0 Q. induction fs as [|[f t] fs IH]; intros [|v vs] b Q; cbn in Q; try discriminate.
  - inversion Q. reflexivity.
  - cbn [struct_entries]. destruct (fskip f v); [now apply IH|].
    inv_bind Q. inv_bind Q. inv_bind Q. inversion Q; subst. cbn [concat_res e_name e_type e_val].
    match goal with E : genc F p o kt _ = _ |- _ => rewrite E end. cbn [bind].
    match goal with E : genc F p o t _ = _ |- _ => rewrite E end. cbn [bind]. rewrite (IH vs a1) by assumption. cbn [bind]. now rewrite <- app_assoc.
Qed.
