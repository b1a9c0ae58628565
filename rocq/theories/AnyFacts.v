(** Lemmas about [Any]. *)
From Verif Require Import Base Options Int Utf8 Types Storage StorageSpec Fmt FmtSpec Desc Value ValueSpec Any AnySpec
  BaseFacts IntFacts TypesFacts StorageFacts DecFacts StorageSafe FmtFacts FmtSafe IOFacts DescFacts ValueFacts StabFacts FmtStab SkipFacts WireFacts.
From Coq Require Import ZifyBool ZifyNat ZifyN.
Local Open Scope N_scope.

Section ValueInd.
  Variable P : value -> Prop.
  Hypothesis HUnit : P UUnit.
  Hypothesis HBool : forall b, P (UBool b).
  Hypothesis HChar : forall c, P (UChar c).
  Hypothesis HNum : forall n, P (UNum n).
  Hypothesis HBytes : forall bs, P (UBytes bs).
  Hypothesis HStr : forall bs, P (UStr bs).
  Hypothesis HSeq : forall xs, Forall P xs -> P (USeq xs).
  Hypothesis HMap : forall es, Forall (fun e => P (fst e) /\ P (snd e)) es -> P (UMap es).
  Hypothesis HVar : forall a b, P a -> P b -> P (UVariant a b).
  Hypothesis HNone : P (UOpt None).
  Hypothesis HSome : forall x, P x -> P (UOpt (Some x)).

  Fixpoint value_ind' (x : value) : P x :=
    match x with
    | UUnit => HUnit | UBool b => HBool b | UChar c => HChar c | UNum n => HNum n
    | UBytes b => HBytes b | UStr b => HStr b
    | USeq xs => HSeq xs ((fix go xs : Forall P xs :=
        match xs with [] => Forall_nil _ | x :: r => Forall_cons _ (value_ind' x) (go r) end) xs)
    | UMap es => HMap es ((fix go es : Forall (fun e => P (fst e) /\ P (snd e)) es :=
        match es with [] => Forall_nil _
        | e :: r => Forall_cons _ (conj (value_ind' (fst e)) (value_ind' (snd e))) (go r) end) es)
    | UVariant a b => HVar a b (value_ind' a) (value_ind' b)
    | UOpt None => HNone
    | UOpt (Some y) => HSome y (value_ind' y)
    end.
End ValueInd.

Lemma concat_in_eq {A} (f : A -> res bytes) l : concat_in f l = concat_res f l.
Proof. induction l as [|x l IH]; [reflexivity|]. cbn. now rewrite <- IH. Qed.

(** ** Counted lists *)

Lemma any_iter_acc {A} (d : dec A) n : forall acc bs,
  iter_nat n (fun s => let* (v, r) := d (snd s) in Ok (v :: fst s, r)) (acc, bs) =
  let* (vs, r) := iter_nat n (fun s => let* (v, r) := d (snd s) in Ok (v :: fst s, r)) ([], bs) in
  Ok (vs ++ acc, r).
Proof.
  induction n as [|n IH]; intros acc bs; cbn [iter_nat]; [reflexivity|].
  cbn [snd fst bind]. destruct (d bs) as [[v r]| |]; cbn [bind]; try reflexivity.
  rewrite (IH (v :: acc)), (IH [v]).
  destruct (iter_nat n _ ([], r)) as [[vs r']| |]; cbn [bind]; try reflexivity.
  now rewrite <- app_assoc.
Qed.

Lemma any_count_0 {A} (d : dec A) bs : any_count 0 d bs = Ok ([], bs).
Proof. reflexivity. Qed.

Lemma any_count_succ {A} (d : dec A) n bs :
  any_count (N.succ n) d bs =
  let* (v, r) := d bs in let* (vs, r') := any_count n d r in Ok (v :: vs, r').
Proof.
  unfold any_count. rewrite !iterN_nat, N2Nat.inj_succ. cbn [iter_nat snd fst].
  destruct (d bs) as [[v r]| |]; cbn [bind]; try reflexivity.
  rewrite iterN_nat, (any_iter_acc d _ [v]).
  destruct (iter_nat _ _ ([], r)) as [[vs r']| |]; cbn [bind]; try reflexivity.
  rewrite rev_app_distr. reflexivity.
Qed.

(** Reading what was written for a list. *)
Lemma any_count_rt {A B} (e : A -> res bytes) (d : dec B) (f : A -> B) xs : 
  forall bs rest, concat_res e xs = Ok bs ->
  (forall x b, In x xs -> e x = Ok b -> (length b <= length bs)%nat -> forall rest, d (b ++ rest) = Ok (f x, rest)) ->
  any_count (lenN xs) d (bs ++ rest) = Ok (map f xs, rest).
Proof.
  induction xs as [|x xs IH]; intros bs rest He Hd.
  - cbn in He. inversion He; subst. reflexivity.
  - cbn [concat_res] in He. inv_bind He. inv_bind He. inversion He; subst. clear He.
    rewrite lenN_cons, N.add_1_l, any_count_succ, <- app_assoc.
    rewrite (Hd x a (or_introl eq_refl) He0) by (rewrite app_length; lia). cbn [bind].
    rewrite (IH a0 rest He1); [reflexivity|].
    intros y b Hy Hb Hl. apply Hd; auto; [now right|]. rewrite app_length. lia.
Qed.

(** ** Values in the descriptive format *)

Lemma dlen_head p o k n b : dlen_enc p o k n = Ok b -> exists d t, b = dtag k d :: t /\ d < 32.
Proof.
  unfold dlen_enc. destruct (n <? DDATA_MASK) eqn:E; intros H.
  - inversion H; subst. exists n, []. split; [reflexivity|]. unfold DDATA_MASK in E. lia.
  - inv_bind H. inversion H; subst. exists DDATA_MASK, a. split; [reflexivity|]. reflexivity.
Qed.

Lemma dany_num_u w bs : dany_num (num_data w NUnsigned) bs =
  let* (n, r) := tunsigned_dec (bits w) bs in Ok (UNum (NU w n), r).
Proof. destruct w; reflexivity. Qed.
Lemma dany_num_s w bs : dany_num (num_data w NSigned) bs =
  let* (z, r) := tsigned_dec (bits w) bs in Ok (UNum (NI w z), r).
Proof. destruct w; reflexivity. Qed.

Lemma dany_num_f32 bs : dany_num (num_data W32 NFloat) bs =
  let* (n, r) := tunsigned_dec (bits W32) bs in Ok (UNum (NF32 n), r).
Proof. reflexivity. Qed.
Lemma dany_num_f64 bs : dany_num (num_data W64 NFloat) bs =
  let* (n, r) := tunsigned_dec (bits W64) bs in Ok (UNum (NF64 n), r).
Proof. reflexivity. Qed.

Lemma dany_typed p o f w k v rest : k <> NReserved ->
  dany (S f) p o (typed_enc (num_data w k) v ++ rest) =
  dany_num (num_data w k) (typed_enc (num_data w k) v ++ rest).
Proof.
  intros Hk. unfold typed_enc. cbn [app dany].
  rewrite dtag_kind_new by apply num_data_lt.
  rewrite dtag_data_new by (destruct w, k; first [reflexivity|congruence]). reflexivity.
Qed.

Lemma dany_number p o f n b rest : number_ok p n -> num_enc (descriptive p o) n = Ok b ->
  dany (S f) p o (b ++ rest) = Ok (UNum (num_norm p n), rest).
Proof.
  intros Hn He. destruct n as [w n|w z|n|z|fb|fb]; cbn [num_enc descriptive f_leaf_enc dleaf_enc] in He; inversion He; subst b; clear He;
    cbn [number_ok] in Hn; cbn [num_norm]; unfold tunsigned_enc, tsigned_enc; rewrite dany_typed by discriminate.
  - rewrite dany_num_u. fold (tunsigned_enc w NUnsigned n). rewrite tunsigned_rt by auto. reflexivity.
  - rewrite dany_num_s. fold (tsigned_enc w z). rewrite tsigned_rt by now apply in_sb_s. reflexivity.
  - rewrite dany_num_u. fold (tunsigned_enc (usize_iw p) NUnsigned n).
    rewrite tunsigned_rt by (auto; now rewrite usize_iw_bits). reflexivity.
  - rewrite dany_num_s. fold (tsigned_enc (usize_iw p) z).
    rewrite tsigned_rt by (rewrite usize_iw_bits; now apply in_sb_s). reflexivity.
  - rewrite dany_num_f32.
    fold (tunsigned_enc W32 NFloat fb). rewrite tunsigned_rt by (auto; exact Hn). reflexivity.
  - rewrite dany_num_f64.
    fold (tunsigned_enc W64 NFloat fb). rewrite tunsigned_rt by (auto; exact Hn). reflexivity.
Qed.

Definition any_rt (p : plat) (o : N) (x : value) : Prop :=
  forall b, value_ok p x -> uenc (descriptive p o) x = Ok b ->
    b <> [] /\ forall fuel rest, (length b <= fuel)%nat -> dany fuel p o (b ++ rest) = Ok (norm p x, rest).

Lemma dany_rt p o x : any_rt p o x.
Proof.
  pose proof (usize_bits_ge p) as Hub.
  induction x using value_ind'; intros b0 Hok He; cbn [uenc] in He.
  - inversion He; subst. split; [discriminate|]. intros [|f] rest Hl; [cbn in Hl; lia|].
    change (dany (S f) p o ([dtag DMark M_UNIT] ++ rest))
      with (dany_leaf p o TUnit (fun v => match v with VUnit => Some UUnit | _ => None end) ([dtag DMark M_UNIT] ++ rest)).
    unfold dany_leaf. rewrite (dleaf_rt p o TUnit eq_refl Logic.I VUnit); [reflexivity|reflexivity|discriminate|reflexivity].
  - inversion He; subst. split; [discriminate|]. intros [|f] rest Hl; [cbn in Hl; lia|]. destruct b; reflexivity.
  - inversion He; subst. inversion Hok; subst. split; [discriminate|]. intros [|f] rest Hl; [cbn in Hl; lia|].
    change (dany (S f) p o ((dtag DMark M_CHAR :: cont_encode c) ++ rest))
      with (dany_leaf p o TChar (fun v => match v with VN c => Some (UChar c) | _ => None end) ((dtag DMark M_CHAR :: cont_encode c) ++ rest)).
    unfold dany_leaf. rewrite (dleaf_rt p o TChar eq_refl Logic.I (VN c)); [reflexivity|assumption|discriminate|reflexivity].
  - inversion Hok; subst. split.
    + destruct n; cbn in He; inversion He; discriminate.
    + intros [|f] rest Hl.
      * destruct n; cbn in He; inversion He; subst; cbn in Hl; lia.
      * now apply dany_number.
  - inversion Hok; subst.
    assert (Hd : dleaf_dec p o TBytes = dleaf_dec p o TBytes) by reflexivity.
    pose proof (fun rest => dleaf_rt p o TBytes eq_refl Logic.I (VBytes bs) b0 rest) as Hr.
    cbn [has_type] in Hr. rewrite H0 in Hr. rewrite (proj2 (len_ok_lt p bs) H1) in Hr.
    assert (Hh : exists d t, b0 = dtag DBytes d :: t /\ d < 32).
    { cbn [descriptive f_leaf_enc dleaf_enc] in He. inv_bind He. inversion He; subst.
      destruct (dlen_head _ _ _ _ _ He0) as (d & t & -> & Hd'). exists d, (t ++ bs). auto. }
    destruct Hh as (d & t & -> & Hd'). split; [discriminate|]. intros [|f] rest Hl; [cbn in Hl; lia|].
    cbn [app dany]. rewrite dtag_kind_new by assumption. unfold dany_leaf.
    specialize (Hr rest eq_refl ltac:(discriminate) He). cbn [app] in Hr. rewrite Hr. reflexivity.
  - inversion Hok; subst.
    pose proof (fun rest => dleaf_rt p o TStr eq_refl Logic.I (VBytes bs) b0 rest) as Hr.
    cbn [has_type] in Hr. rewrite H0, H1 in Hr. rewrite (proj2 (len_ok_lt p bs) H2) in Hr.
    assert (Hh : exists d t, b0 = dtag DString d :: t /\ d < 32).
    { cbn [descriptive f_leaf_enc dleaf_enc] in He. inv_bind He. inversion He; subst.
      destruct (dlen_head _ _ _ _ _ He0) as (d & t & -> & Hd'). exists d, (t ++ bs). auto. }
    destruct Hh as (d & t & -> & Hd'). split; [discriminate|]. intros [|f] rest Hl; [cbn in Hl; lia|].
    cbn [app dany]. rewrite dtag_kind_new by assumption. unfold dany_leaf.
    specialize (Hr rest eq_refl ltac:(discriminate) He). cbn [app] in Hr. rewrite Hr. reflexivity.
  - (* sequence *)
    inversion Hok; subst. inv_bind He. inv_bind He. inversion He; subst. clear He.
    rewrite concat_in_eq in He1. cbn [descriptive f_seq_enc] in He0.
    destruct (dlen_head _ _ _ _ _ He0) as (d & t & -> & Hd).
    split; [discriminate|]. intros [|f] rest Hl; [cbn in Hl; lia|].
    cbn [app dany]. rewrite dtag_kind_new by assumption.
    rewrite <- app_assoc. change (dtag DSequence d :: t ++ a0 ++ rest) with ((dtag DSequence d :: t) ++ a0 ++ rest).
    rewrite (dlen_rt p o DSequence (lenN xs) (dtag DSequence d :: t)) by assumption. cbn [bind].
    rewrite (any_count_rt (uenc (descriptive p o)) (dany f p o) (norm p) xs a0 rest He1); [reflexivity|].
    intros x b Hx Hb Hlb rest'. rewrite Forall_forall in H, H1. apply (H x Hx b (H1 x Hx) Hb).
    cbn in Hl. rewrite app_length in Hl. lia.
  - (* map *)
    inversion Hok; subst. inv_bind He. inv_bind He. inversion He; subst. clear He.
    rewrite concat_in_eq in He1. cbn [descriptive f_map_enc] in He0.
    destruct (dlen_head _ _ _ _ _ He0) as (d & t & -> & Hd).
    split; [discriminate|]. intros [|f] rest Hl; [cbn in Hl; lia|].
    cbn [app dany]. rewrite dtag_kind_new by assumption.
    rewrite <- app_assoc. change (dtag DMap d :: t ++ a0 ++ rest) with ((dtag DMap d :: t) ++ a0 ++ rest).
    rewrite (dlen_rt p o DMap (lenN es) (dtag DMap d :: t)) by assumption. cbn [bind].
    rewrite (any_count_rt _ _ (fun '(k, y) => (norm p k, norm p y)) es a0 rest He1); [reflexivity|].
    intros [k y] b Hx Hb Hlb rest'. rewrite Forall_forall in H, H1.
    destruct (H _ Hx) as [HK HY]. destruct (H1 _ Hx) as [OK OY]. cbn [fst snd] in *.
    inv_bind Hb. inv_bind Hb. inversion Hb; subst. clear Hb.
    cbn in Hl. rewrite !app_length in *.
    rewrite <- app_assoc, (proj2 (HK a OK Hb0)) by lia. cbn [bind].
    rewrite (proj2 (HY a1 OY Hb1)) by lia. reflexivity.
  - (* variant *)
    inversion Hok; subst. inv_bind He. inv_bind He. inversion He; subst. clear He.
    split; [discriminate|]. intros [|f] rest Hl; [cbn in Hl; lia|].
    cbn [descriptive f_var app] in *.
    change (dany (S f) p o (dtag DMark M_VARIANT :: (a ++ a0) ++ rest))
      with (let* (k, r') := dany f p o ((a ++ a0) ++ rest) in let* (x, r'') := dany f p o r' in Ok (UVariant k x, r'')).
    cbn in Hl. rewrite app_length in Hl. rewrite <- app_assoc.
    rewrite (proj2 (IHx1 a H1 He0)) by lia. cbn [bind].
    rewrite (proj2 (IHx2 a0 H2 He1)) by lia. reflexivity.
  - inversion He; subst. split; [discriminate|]. intros [|f] rest Hl; [cbn in Hl; lia|]. reflexivity.
  - inversion Hok; subst. inv_bind He. inversion He; subst. clear He.
    split; [discriminate|]. intros [|f] rest Hl; [cbn in Hl; lia|].
    cbn [descriptive f_some app] in *.
    change (dany (S f) p o (dtag DMark M_SOME :: a ++ rest))
      with (let* (y, r') := dany f p o (a ++ rest) in Ok (UOpt (Some y), r')).
    cbn in Hl. rewrite (proj2 (IHx a H0 He0)) by lia. reflexivity.
Qed.

(** ** Typed values as dynamic ones *)

Lemma Forall2_norm p (P : val -> value -> Prop) vs xs :
  Forall2 (fun v x => P v (norm p x)) vs xs -> Forall2 P vs (map (norm p) xs).
Proof. induction 1; cbn; constructor; auto. Qed.

Section AsValue.
  Variables (F : fmt) (p : plat) (o o' : N).
  (* a packed struct is written as bytes are *)
  Hypothesis Hpack : forall b, (let* l := f_pack_enc F (lenN b) in Ok (l ++ b)) = f_leaf_enc F TBytes (VBytes b).
  Hypothesis Harr : forall n b, f_leaf_enc F (TArr n) (VBytes b) = f_leaf_enc F TBytes (VBytes b).
  Hypothesis Hnz : forall w n, f_leaf_enc F (TNonZero w) (VN n) = f_leaf_enc F (TU w) (VN n).

  (** What a buffer needs: no packed structs, or the same options. *)
  Definition bufd (t : ty) : Prop :=
    packs (fun _ => false) t = true \/ (o = o' /\ packs_ok p o t /\ lengths_fit p o).

  Lemma bufd_sub t t' : (forall P, packs P t = true -> packs P t' = true) -> bufd t -> bufd t'.
  Proof.
    intros H [H1|[H1 [H2 H3]]]; [left; now apply H|right]. split; [assumption|]. split; [|assumption].
    now apply (packs_ok_sub p o t).
  Qed.

  (** The options matter for packed structs only. *)
  Definition same (t : ty) : Prop := packs (fun _ => false) t = true \/ o = o'.

  Lemma same_sub t t' : (forall P, packs P t = true -> packs P t' = true) -> same t -> same t'.
  Proof. intros H [H1|H1]; [left; now apply H|now right]. Qed.

  Definition as_value (t : ty) : Prop := forall v bs, has_type p t v = true -> genc F p o t v = Ok bs ->
    exists x, uenc F x = Ok bs /\
      (bufd t -> value_ok p x /\ forall keys key, R p o' keys key t v (norm p x)) /\
      (keeps t = true -> same t -> exists w, venc p o' t v = Ok w /\ (w = None -> loud t = false) /\ in_place w = x).

  Lemma as_value_list t : as_value t -> forall vs bs,
    forallb (has_type p t) vs = true -> concat_res (genc F p o t) vs = Ok bs ->
    exists xs, concat_res (uenc F) xs = Ok bs /\ length xs = length vs /\
      (bufd t -> Forall (value_ok p) xs /\ forall keys, Forall2 (fun v x => R p o' keys false t v (norm p x)) vs xs) /\
      (loud t && keeps t = true -> same t -> list_res (map (venc p o' t) vs) = Ok (map Some xs)).
  Proof.
    intros Ht. induction vs as [|v vs IH]; intros bs Hv He.
    - cbn in He. inversion He; subst. exists []. split; [reflexivity|]. split; [reflexivity|].
      split; [|reflexivity]. intros _. split; constructor.
    - cbn [forallb] in Hv. apply andb_true_iff in Hv. destruct Hv as [Hv Hvs].
      cbn [concat_res] in He. inv_bind He. inv_bind He. inversion He; subst. clear He.
      destruct (Ht v a Hv He0) as (x & Ex & HB & HK).
      destruct (IH a0 Hvs He1) as (xs & Exs & El & HBs & HKs).
      exists (x :: xs). cbn [concat_res]. rewrite Ex. cbn [bind]. rewrite Exs. cbn [bind].
      split; [reflexivity|]. split; [cbn; congruence|]. split.
      + intros Hb. destruct (HB Hb) as [O1 R1], (HBs Hb) as [O2 R2]. split; [now constructor|].
        intros keys. constructor; auto.
      + intros Hk Hsm. pose proof Hk as Hk'. apply andb_true_iff in Hk'. destruct Hk' as [Hl Hk'].
        destruct (HK Hk' Hsm) as (w & Ew & Hn & Hw). cbn [map list_res]. rewrite Ew. cbn [bind]. rewrite (HKs Hk Hsm). cbn [bind].
        destruct w as [y|]; [|specialize (Hn eq_refl); congruence]. cbn [in_place] in Hw. now subst.
  Qed.

  Lemma as_value_leaf t : leaf t = true -> wf p t -> as_value t.
  Proof.
    intros Hl Hw v bs Hv He.
    assert (He' : f_leaf_enc F t v = Ok bs) by (destruct t; try discriminate; exact He). clear He.
    destruct (leaf_R p o' false false t v Hl Hv) as (w & Ew & Hn & _).
    assert (HR : forall keys key, R p o' keys key t v (in_place w)).
    { intros keys key. destruct (leaf_R p o' keys key t v Hl Hv) as (w' & Ew' & _ & HR'). congruence. }
    exists (in_place w).
    assert (Hwk : keeps t = true -> same t -> exists w0, venc p o' t v = Ok w0 /\ (w0 = None -> loud t = false) /\ in_place w0 = in_place w).
    { intros _ _. exists w. split; [|split; [exact Hn|reflexivity]]. destruct t; try discriminate; exact Ew. }
    split; [|split; [|exact Hwk]].
    - destruct t; try discriminate; cbn [has_type] in Hv; destruct v; try discriminate;
        cbn in Ew; inversion Ew; subst; cbn [in_place uenc num_enc]; try assumption.
      + now rewrite <- Hnz.
      + now rewrite <- (Harr n).
    - intros _. clear Hwk He'. split.
      + destruct t; try discriminate; cbn [has_type] in Hv; destruct v; try discriminate;
          cbn in Ew; inversion Ew; subst; cbn [in_place]; constructor; cbn [number_ok];
          unfold len_ok in Hv; try lia; try assumption;
          repeat (apply andb_true_iff in Hv; destruct Hv as [Hv ?]); try lia; try assumption.
        cbn [wf] in Hw. lia.
      + intros keys key. specialize (HR keys key). unfold R in *.
        destruct t; try discriminate; cbn [has_type] in Hv; destruct v; try discriminate;
          cbn in Ew; inversion Ew; subst; exact HR.
  Qed.

  Lemma as_value_all t : wf p t -> as_value t.
  Proof.
    induction t using ty_ind'; intros Hw; try (apply as_value_leaf; [reflexivity|exact Hw]);
      intros v bs Hv He; cbn [wf] in Hw; cbn [has_type] in Hv; cbn [genc] in He; cbn [keeps].
    - (* option *)
      destruct v; try discriminate.
      + inversion He; subst. exists (UOpt None). split; [reflexivity|]. split.
        * intros _. split; [constructor|]. reflexivity.
        * intros _ _. exists (Some (UOpt None)). split; [reflexivity|]. split; [discriminate|reflexivity].
      + inv_bind He. inversion He; subst. clear He.
        destruct (IHt Hw v a Hv He0) as (x & Ex & HB & HK). exists (UOpt (Some x)). cbn [uenc].
        rewrite Ex. cbn [bind]. split; [reflexivity|]. split.
        * intros Hb. destruct (HB (bufd_sub (TOpt t) t ltac:(auto) Hb)) as [O1 R1].
          split; [now constructor|]. intros keys key. specialize (R1 keys false). unfold R in *. cbn [norm vdec].
          rewrite R1. reflexivity.
        * intros Hk Hsm. apply andb_true_iff in Hk. destruct Hk as [Hl Hk].
          destruct (HK Hk (same_sub (TOpt t) t ltac:(auto) Hsm)) as (w & Ew & Hn & Hx).
          destruct w as [y|]; [|specialize (Hn eq_refl); congruence]. cbn [in_place] in Hx. subst y.
          exists (Some (UOpt (Some x))). cbn [venc]. rewrite Ew. cbn. split; [reflexivity|]. split; [discriminate|reflexivity].
    - (* box *)
      destruct (IHt Hw v bs Hv He) as (x & Ex & HB & HK). exists x. split; [exact Ex|]. split.
      + intros Hb. exact (HB (bufd_sub (TBox t) t ltac:(auto) Hb)).
      + intros Hk Hsm. exact (HK Hk (same_sub (TBox t) t ltac:(auto) Hsm)).
    - (* vec *)
      destruct v; try discriminate. apply andb_true_iff in Hv. destruct Hv as [Hv Hln].
      inv_bind He. inv_bind He. inversion He; subst. clear He.
      destruct (as_value_list t (IHt Hw) vs a0 Hv He1) as (xs & Exs & El & HB & HK).
      exists (USeq xs). cbn [uenc]. rewrite concat_in_eq, Exs.
      replace (lenN xs) with (lenN vs) by (unfold lenN; now rewrite El). rewrite He0. cbn [bind].
      split; [reflexivity|]. split.
      + intros Hb. destruct (HB (bufd_sub (TVec t) t ltac:(auto) Hb)) as [O1 R1].
        split.
        * constructor; [assumption|]. apply len_ok_lt in Hln. unfold lenN in *. now rewrite El.
        * intros keys key. cbn [norm]. apply R_vec. apply (Forall2_norm p (R p o' keys false t)). apply R1.
      + intros Hk Hsm. exists (Some (USeq xs)). cbn [venc]. rewrite (HK Hk (same_sub (TVec t) t ltac:(auto) Hsm)). cbn [bind]. rewrite pushed_some.
        split; [reflexivity|]. split; [discriminate|reflexivity].
    - (* array *)
      destruct Hw as [Hw Hn]. destruct v; try discriminate. apply andb_true_iff in Hv. destruct Hv as [Hv Hln].
      inv_bind He. inv_bind He. inversion He; subst. clear He.
      destruct (as_value_list t (IHt Hw) vs a0 Hv He1) as (xs & Exs & El & HB & HK).
      exists (USeq xs). cbn [uenc]. rewrite concat_in_eq, Exs.
      replace (lenN xs) with (lenN vs) by (unfold lenN; now rewrite El). rewrite He0. cbn [bind].
      split; [reflexivity|]. split.
      + intros Hb. destruct (HB (bufd_sub (TArray n t) t ltac:(auto) Hb)) as [O1 R1].
        split.
        * constructor; [assumption|]. unfold lenN in *. lia.
        * intros keys key. cbn [norm]. apply R_array; [|lia].
          apply (Forall2_norm p (R p o' keys false t)). apply R1.
      + intros Hk Hsm. exists (Some (USeq xs)). cbn [venc]. rewrite (HK Hk (same_sub (TArray n t) t ltac:(auto) Hsm)). cbn [bind]. rewrite pushed_some.
        split; [reflexivity|]. split; [discriminate|reflexivity].
    - (* set *)
      destruct v; try discriminate. rewrite !andb_true_iff in Hv. destruct Hv as [[Hv Hln] Hd].
      inv_bind He. inv_bind He. inversion He; subst. clear He.
      destruct (as_value_list t (IHt Hw) vs a0 Hv He1) as (xs & Exs & El & HB & HK).
      exists (USeq xs). cbn [uenc]. rewrite concat_in_eq, Exs.
      replace (lenN xs) with (lenN vs) by (unfold lenN; now rewrite El). rewrite He0. cbn [bind].
      split; [reflexivity|]. split.
      + intros Hb. destruct (HB (bufd_sub (TSet t) t ltac:(auto) Hb)) as [O1 R1].
        split.
        * constructor; [assumption|]. apply len_ok_lt in Hln. unfold lenN in *. now rewrite El.
        * intros keys key. cbn [norm]. apply R_set; [|now apply distinct_NoDup].
          apply (Forall2_norm p (R p o' keys false t)). apply R1.
      + intros Hk Hsm. exists (Some (USeq xs)). cbn [venc]. rewrite (HK Hk (same_sub (TSet t) t ltac:(auto) Hsm)). cbn [bind]. rewrite pushed_some.
        split; [reflexivity|]. split; [discriminate|reflexivity].
    - (* tuple *)
      destruct Hw as [Hw Hln]. rewrite allP_Forall in Hw. destruct v; try discriminate.
      inv_bind He. inv_bind He. inversion He; subst. clear He.
      assert (HG : exists xs, concat_res (uenc F) xs = Ok a0 /\ length xs = length ts /\ length ts = length vs /\
        (bufd (TTup ts) -> Forall (value_ok p) xs /\
           forall keys, Forall2 (fun tv x => R p o' keys false (fst tv) (snd tv) x) (combine ts vs) (map (norm p) xs)) /\
        (forallb (fun t => loud t && keeps t) ts = true -> same (TTup ts) -> venc_list (map (venc p o') ts) vs = Ok (map Some xs))).
      { clear He0 Hln. revert vs a0 Hv He1.
        induction ts as [|t ts IH]; intros [|v vs] b Hv He; try discriminate.
        - cbn in He. inversion He; subst. exists []. repeat split; constructor.
        - cbn [map all2] in Hv. apply andb_true_iff in Hv. destruct Hv as [Hv Hvs].
          cbn [map enc_list] in He. inv_bind He. inv_bind He. inversion He; subst. clear He.
          inversion H; inversion Hw; subst.
          destruct (IH H3 H7 vs _ Hvs He1) as (xs & Exs & El & El2 & HBs & HKs).
          destruct (H2 H6 v _ Hv He0) as (x & Ex & HB & HK).
          exists (x :: xs). cbn [concat_res]. rewrite Ex. cbn [bind]. rewrite Exs. cbn [bind].
          split; [reflexivity|]. split; [cbn; congruence|]. split; [cbn; congruence|]. split.
          + intros Hb.
            assert (Hb1 : bufd t) by (apply (bufd_sub (TTup (t :: ts)) t); [cbn [packs forallb]; intros P HP; now apply andb_true_iff in HP|exact Hb]).
            assert (Hb2 : bufd (TTup ts)) by (apply (bufd_sub (TTup (t :: ts)) (TTup ts)); [cbn [packs forallb]; intros P HP; now apply andb_true_iff in HP|exact Hb]).
            destruct (HB Hb1) as [O1 R1], (HBs Hb2) as [O2 R2].
            split; [now constructor|]. intros keys. cbn [combine map]. constructor; [apply R1|apply R2].
          + cbn [forallb]. intros Hk Hsm. rewrite !andb_true_iff in Hk. destruct Hk as [[Hl Hk] Hks].
            assert (Hs1 : same t) by (apply (same_sub (TTup (t :: ts)) t); [cbn [packs forallb]; intros P HP; now apply andb_true_iff in HP|exact Hsm]).
            assert (Hs2 : same (TTup ts)) by (apply (same_sub (TTup (t :: ts)) (TTup ts)); [cbn [packs forallb]; intros P HP; now apply andb_true_iff in HP|exact Hsm]).
            destruct (HK Hk Hs1) as (w & Ew & Hn & Hx). destruct w as [y|]; [|specialize (Hn eq_refl); congruence].
            cbn [in_place] in Hx. subst y. cbn [map venc_list]. rewrite Ew. cbn [bind]. rewrite (HKs Hks Hs2). reflexivity. }
      destruct HG as (xs & Exs & El & El2 & HB & HK). exists (USeq xs). cbn [uenc]. rewrite concat_in_eq, Exs.
      replace (lenN xs) with (lenN ts) by (unfold lenN; now rewrite El). rewrite He0. cbn [bind].
      split; [reflexivity|]. split.
      + intros Hb. destruct (HB Hb) as [O1 R1]. split.
        * constructor; [assumption|]. apply len_ok_lt in Hln. unfold lenN in *. now rewrite El.
        * intros keys key. cbn [norm]. apply R_tup; auto.
      + intros Hk Hsm. exists (Some (USeq xs)). cbn [venc]. rewrite (HK Hk Hsm). cbn [bind]. rewrite pushed_some.
        split; [reflexivity|]. split; [discriminate|reflexivity].
    - (* map *)
      destruct Hw as [Hw1 Hw2]. destruct v; try discriminate. rewrite !andb_true_iff in Hv. destruct Hv as [[Hv Hln] Hd].
      inv_bind He. inv_bind He. inversion He; subst. clear He.
      assert (HG : exists es, concat_res (fun '(k, y) => let* a := uenc F k in let* b := uenc F y in Ok (a ++ b)) es = Ok a0 /\
        length es = length kvs /\
        (bufd (TMap t1 t2) -> Forall (fun kv => value_ok p (fst kv) /\ value_ok p (snd kv)) es /\
           forall keys, Forall2 (fun kv e => R p o' keys keys t1 (fst kv) (fst e) /\ R p o' keys false t2 (snd kv) (snd e))
             kvs (map (fun '(k, y) => (norm p k, norm p y)) es)) /\
        (keeps t1 && keeps t2 = true -> same (TMap t1 t2) ->
           list_res (map (fun kv => let* a := venc p o' t1 (fst kv) in
                                    let* b := venc p o' t2 (snd kv) in
                                    Ok (in_place a, in_place b)) kvs) = Ok es)).
      { clear He0 Hln Hd. revert a0 He1.
        induction kvs as [|[k v] kvs IH]; intros b He.
        - cbn in He. inversion He; subst. exists []. repeat split; constructor.
        - cbn [forallb fst snd] in Hv. rewrite !andb_true_iff in Hv. destruct Hv as [[Hvk Hvv] Hvs].
          cbn [concat_res fst snd] in He. inv_bind He. inv_bind He0. inv_bind He0. inversion He0; subst. clear He0.
          inv_bind He. inversion He; subst. clear He.
          destruct (IH Hvs _ He0) as (es & Ees & El & HBs & HKs).
          destruct (IHt1 Hw1 k _ Hvk He1) as (x & Ex & HBx & HKx).
          destruct (IHt2 Hw2 v _ Hvv He2) as (y & Ey & HBy & HKy).
          exists ((x, y) :: es). cbn [concat_res]. rewrite Ex, Ey. cbn [bind]. rewrite Ees. cbn [bind].
          split; [reflexivity|]. split; [cbn; congruence|]. split.
          + intros Hb. destruct (HBs Hb) as [O1 R1].
            destruct (HBx (bufd_sub (TMap t1 t2) t1 ltac:(cbn [packs]; intros P HP; now apply andb_true_iff in HP) Hb)) as [O2 R2].
            destruct (HBy (bufd_sub (TMap t1 t2) t2 ltac:(cbn [packs]; intros P HP; now apply andb_true_iff in HP) Hb)) as [O3 R3].
            split; [constructor; [split; assumption|assumption]|].
            intros keys. cbn [map]. constructor; [split; [apply R2|apply R3]|apply R1].
          + intros Hk Hsm. pose proof Hk as Hk'. apply andb_true_iff in Hk'. destruct Hk' as [K1 K2].
            destruct (HKx K1 (same_sub (TMap t1 t2) t1 ltac:(cbn [packs]; intros P HP; now apply andb_true_iff in HP) Hsm)) as (w1 & E1 & _ & X1). destruct (HKy K2 (same_sub (TMap t1 t2) t2 ltac:(cbn [packs]; intros P HP; now apply andb_true_iff in HP) Hsm)) as (w2 & E2 & _ & X2).
            cbn [map list_res fst snd]. rewrite E1, E2. cbn [bind]. rewrite (HKs Hk Hsm). cbn [bind]. now subst. }
      destruct HG as (es & Ees & El & HB & HK). exists (UMap es). cbn [uenc]. rewrite concat_in_eq, Ees.
      replace (lenN es) with (lenN kvs) by (unfold lenN; now rewrite El). rewrite He0. cbn [bind].
      split; [reflexivity|]. split.
      + intros Hb. destruct (HB Hb) as [O1 R1]. split.
        * constructor; [assumption|]. apply len_ok_lt in Hln. unfold lenN in *. now rewrite El.
        * intros keys key. cbn [norm]. apply R_map; [now apply distinct_NoDup|apply R1].
      + intros Hk Hsm. exists (Some (UMap es)). cbn [venc]. rewrite (HK Hk Hsm). cbn [bind].
        split; [reflexivity|]. split; [discriminate|reflexivity].
    - (* packed struct *)
      destruct Hw as [Hw _]. destruct v; try discriminate. inv_bind He.
      destruct (lenN a <? 2 ^ usize_bits p) eqn:Eln; [|discriminate].
      rewrite Hpack in He. exists (UBytes a). split; [exact He|]. split.
      + intros Hb. destruct Hb as [Hb|(Ho & Hp & Hlf)]; [discriminate Hb|].
        pose proof Hw as Hw'. rewrite allP_Forall, Forall_forall in Hw'.
        destruct (good_list (map (fun ft => has_type p (snd ft)) fs) (map (fun ft => enc p o true (snd ft)) fs) vs) as [b [Eb Ob]].
        { apply Forall2_map_in. intros ft Hin. apply enc_total; auto. }
        { assumption. }
        assert (Eb' : pack_body p o fs vs = Ok b) by exact Eb.
        assert (b = a) by congruence. subst b. rewrite <- Ho. split.
        * constructor; [assumption|lia].
        * intros keys key. cbn [norm]. apply R_pack; auto.
      + intros _ [Hsm|Hsm]; [discriminate Hsm|]. exists (Some (UBytes a)). cbn [venc]. rewrite <- Hsm, He0. cbn. split; [reflexivity|]. split; [discriminate|reflexivity].
    - (* struct *)
      destruct Hw as (Hwk & Hw & Hl & Hnt & Hnd & Hdef & Hskip). rewrite allP_Forall in Hw.
      destruct v; try discriminate. inv_bind He. inv_bind He. inversion He; subst. clear He.
      assert (HG : exists es, concat_res (fun '(k, y) => let* a := uenc F k in let* b := uenc F y in Ok (a ++ b)) es = Ok a0 /\
        lenN es = count_fields (map fst fs) vs /\ (length es <= length fs)%nat /\
        (bufd (TStruct t fs) -> Forall (fun kv => value_ok p (fst kv) /\ value_ok p (snd kv)) es /\
           forall keys, ents p o' keys t fs vs (map (fun '(k, y) => (norm p k, norm p y)) es)) /\
        (keeps t && forallb (fun ft => keeps (snd ft)) fs = true -> same (TStruct t fs) ->
           venc_fields (venc p o' t) (map (fun ft => (fst ft, venc p o' (snd ft))) fs) vs = Ok es)).
      { clear He0 Hl Hnd Hdef Hskip. revert vs a0 Hv He1.
        induction fs as [|[f t'] fs IH]; intros [|v vs] b Hv He; try discriminate.
        - cbn in He. inversion He; subst. exists []. repeat split; constructor.
        - cbn [map all2 forallb fst snd] in *. apply andb_true_iff in Hv, Hnt.
          destruct Hv as [Hv Hvs], Hnt as [Hn1 Hn2].
          inversion H; inversion Hw; subst. cbn [snd] in *. cbn [enc_fields] in He.
          assert (HS : bufd (TStruct t ((f, t') :: fs)) -> bufd (TStruct t fs)).
          { apply bufd_sub. cbn [packs forallb snd]. intros P HP. apply andb_true_iff in HP. destruct HP as [A HP].
            apply andb_true_iff in HP. destruct HP as [B C]. now rewrite A, C. }
          assert (HT : bufd (TStruct t ((f, t') :: fs)) -> bufd t').
          { apply bufd_sub. cbn [packs forallb snd]. intros P HP. apply andb_true_iff in HP. destruct HP as [A HP].
            apply andb_true_iff in HP. now destruct HP as [B C]. }
          assert (HKT : bufd (TStruct t ((f, t') :: fs)) -> bufd t).
          { apply bufd_sub. cbn [packs forallb snd]. intros P HP. apply andb_true_iff in HP. destruct HP as [A HP].
            apply andb_true_iff in HP. now destruct HP as [B C]. }
          assert (HS' : same (TStruct t ((f, t') :: fs)) -> same (TStruct t fs)).
          { apply same_sub. cbn [packs forallb snd]. intros P HP. apply andb_true_iff in HP. destruct HP as [A HP].
            apply andb_true_iff in HP. destruct HP as [B C]. now rewrite A, C. }
          assert (HT' : same (TStruct t ((f, t') :: fs)) -> same t').
          { apply same_sub. cbn [packs forallb snd]. intros P HP. apply andb_true_iff in HP. destruct HP as [A HP].
            apply andb_true_iff in HP. now destruct HP as [B C]. }
          assert (HKT' : same (TStruct t ((f, t') :: fs)) -> same t).
          { apply same_sub. cbn [packs forallb snd]. intros P HP. apply andb_true_iff in HP. now destruct HP as [A HP]. }
          destruct (fskip f v) eqn:Es.
          + destruct (IH H3 H7 Hn2 vs b Hvs He) as (es & Ees & Ec & El & HB & HK).
            exists es. split; [exact Ees|]. cbn [count_fields]. rewrite Es. split; [lia|]. split; [cbn; lia|]. split.
            * intros Hb. destruct (HB (HS Hb)) as [O1 R1]. split; [assumption|]. intros keys. apply E_skip; auto.
            * intros Hk Hsm. cbn [venc_fields]. rewrite Es. apply HK; [|now apply HS']. apply andb_true_iff in Hk. destruct Hk as [A Hk].
              apply andb_true_iff in Hk. destruct Hk as [B C]. now rewrite A, C.
          + inv_bind He. inv_bind He. inv_bind He. inversion He; subst. clear He.
            destruct (IH H3 H7 Hn2 vs _ Hvs He2) as (es & Ees & Ec & El & HB & HK).
            destruct (IHt Hwk (fname f) _ Hn1 He0) as (x & Ex & HBx & HKx).
            destruct (H2 H6 v _ Hv He1) as (y & Ey & HBy & HKy).
            exists ((x, y) :: es). cbn [concat_res]. rewrite Ex, Ey. cbn [bind]. rewrite Ees. cbn [bind].
            rewrite <- app_assoc. split; [reflexivity|]. cbn [count_fields]. rewrite Es.
            split; [rewrite lenN_cons; lia|]. split; [cbn; lia|]. split.
            * intros Hb. destruct (HB (HS Hb)) as [O1 R1], (HBx (HKT Hb)) as [O2 R2], (HBy (HT Hb)) as [O3 R3].
              split; [constructor; [split; assumption|assumption]|]. intros keys. cbn [map]. apply E_keep; auto.
            * intros Hk Hsm. rewrite !andb_true_iff in Hk. destruct Hk as [K1 [K2 K3]].
              destruct (HKx K1 (HKT' Hsm)) as (w1 & W1 & _ & X1). destruct (HKy K2 (HT' Hsm)) as (w2 & W2 & _ & X2).
              cbn [venc_fields]. rewrite Es, W1, W2. cbn [bind]. rewrite HK by (try (now rewrite K1, K3); now apply HS'). cbn [bind]. now subst. }
      destruct HG as (es & Ees & Ec & El & HB & HK). exists (UMap es). cbn [uenc]. rewrite concat_in_eq, Ees, Ec, He0. cbn [bind].
      split; [reflexivity|]. split.
      + intros Hb. destruct (HB Hb) as [O1 R1]. split.
        * constructor; [assumption|]. apply len_ok_lt in Hl. unfold lenN in *. lia.
        * intros keys key. cbn [norm]. apply R_struct; [apply R1|now apply distinct_NoDup|assumption].
      + intros Hk Hsm. exists (Some (UMap es)). cbn [venc]. rewrite (HK Hk Hsm). cbn [bind].
        split; [reflexivity|]. split; [discriminate|reflexivity].
    - (* tag *)
      destruct Hw as (Hwk & Hnt & Hnd).
      destruct v as [| | | | | | | | |i v]; try discriminate. destruct v; try discriminate.
      destruct (nth_error tags i) as [k|] eqn:Ek; [|discriminate].
      rewrite forallb_forall in Hnt.
      destruct (IHt Hwk k bs (Hnt k (nth_error_In _ _ Ek)) He) as (x & Ex & HB & HK).
      exists x. split; [exact Ex|]. split.
      + intros Hb. destruct (HB (bufd_sub (TTag t tags) t ltac:(auto) Hb)) as [O1 R1]. split; [exact O1|].
        intros keys key. apply (R_tag p o' keys key t tags i k); auto. now apply distinct_NoDup.
      + intros Hk Hsm. destruct (HK Hk (same_sub (TTag t tags) t ltac:(auto) Hsm)) as (w & Ew & Hn & Hx). exists w. cbn [venc]. rewrite Ek. auto.
    - (* enum *)
      destruct Hw as (Hwk & Hw & Hnt & Hnd).
      rewrite allP_Forall, Forall_forall in Hw. rewrite forallb_forall in Hnt. rewrite Forall_forall in H.
      destruct v as [| | | | | | | | |i v]; try discriminate. rewrite nth_error_map in Hv, He.
      destruct (nth_error vs i) as [tv|] eqn:Ei; [|discriminate]. cbn [option_map] in Hv, He.
      pose proof (nth_error_In _ _ Ei) as Hin.
      inv_bind He. inv_bind He. inversion He; subst. clear He.
      destruct (IHt Hwk (fst tv) a (Hnt tv Hin) He0) as (x & Ex & HBx & HKx).
      destruct (H tv Hin (Hw tv Hin) v a0 Hv He1) as (y & Ey & HBy & HKy).
      exists (UVariant x y). cbn [uenc]. rewrite Ex, Ey. cbn [bind]. split; [reflexivity|]. split.
      + intros Hb.
        destruct (HBx (bufd_sub (TEnum f t vs) t ltac:(cbn [packs]; intros P HP; now apply andb_true_iff in HP) Hb)) as [O1 R1].
        assert (Hb2 : bufd (snd tv)).
        { revert Hb. apply bufd_sub. cbn [packs]. intros P HP. apply andb_true_iff in HP. destruct HP as [_ HP].
          rewrite forallb_forall in HP. exact (HP tv Hin). }
        destruct (HBy Hb2) as [O2 R2]. split; [now constructor|].
        intros keys key. cbn [norm]. apply (R_enum p o' keys key f t vs i tv); auto. now apply distinct_NoDup.
      + intros Hk Hsm.
        assert (Hs2 : same (snd tv)).
        { revert Hsm. apply same_sub. cbn [packs]. intros P HP. apply andb_true_iff in HP. destruct HP as [_ HP].
          rewrite forallb_forall in HP. exact (HP tv Hin). }
        apply andb_true_iff in Hk. destruct Hk as [K1 K2]. rewrite forallb_forall in K2.
        destruct (HKx K1 (same_sub (TEnum f t vs) t ltac:(cbn [packs]; intros P HP; now apply andb_true_iff in HP) Hsm)) as (w1 & W1 & _ & X1). destruct (HKy (K2 tv Hin) Hs2) as (w2 & W2 & _ & X2).
        exists (Some (UVariant x y)). cbn [venc]. rewrite nth_error_map, Ei. cbn [option_map].
        rewrite W1, W2. cbn [bind]. subst. split; [reflexivity|]. split; [discriminate|reflexivity].
  Qed.
End AsValue.

(** ** Arbitrary input *)

Lemma stab_ext {A} (pan : Prop) (P : A -> Prop) (d d' : dec A) : (forall bs, d bs = d' bs) -> stab pan P d -> stab pan P d'.
Proof. intros H Hd bs ext Hok. specialize (Hd bs ext Hok). now rewrite !H in Hd. Qed.

Lemma any_count_stab {A} (pan : Prop) (P : A -> Prop) (d : dec A) n : stab pan P d ->
  stab pan (fun xs => Forall P xs /\ lenN xs = n) (any_count n d).
Proof.
  intros Hd. induction n as [|n IH] using N.peano_ind.
  - apply (stab_ext _ _ (fun bs => Ok ([], bs))); [reflexivity|]. apply stab_ret. split; [constructor|reflexivity].
  - eapply stab_ext; [intros bs; symmetry; apply any_count_succ|].
    eapply stab_bind; [exact Hd|]. intros x Hx. cbn beta in Hx.
    eapply stab_bind; [exact IH|]. intros xs [Hxs Hl]. apply stab_ret.
    split; [now constructor|]. rewrite lenN_cons. lia.
Qed.

Lemma dany_num_stab p data : stab False (value_ok p) (dany_num data).
Proof.
  pose proof bits_ge8 as H8.
  unfold dany_num. cbn zeta.
  repeat match goal with
  | |- stab _ _ (fun bs => if ?c then _ else _) => destruct c
  end; try apply stab_err;
  first
  [ eapply stab_bind; [apply tunsigned_stab, H8|]; intros n Hn; cbn beta in Hn; apply stab_ret; constructor; exact Hn
  | eapply stab_bind; [apply tsigned_stab, H8|]; intros n Hn; cbn beta in Hn; apply stab_ret; constructor; now apply in_sb_s
  | eapply stab_bind; [apply (tunsigned_stab 32); lia|]; intros n Hn; cbn beta in Hn; apply stab_ret; constructor; exact Hn
  | eapply stab_bind; [apply (tunsigned_stab 64); lia|]; intros n Hn; cbn beta in Hn; apply stab_ret; constructor; exact Hn ].
Qed.

Lemma dany_leaf_stab p o t f : leaf t = true -> t <> TUnit -> wf p t ->
  (forall v x, has_type p t v = true -> f v = Some x -> value_ok p x) ->
  stab False (value_ok p) (dany_leaf p o t f).
Proof.
  intros Hl Hn Hw Hf. unfold dany_leaf.
  eapply stab_bind; [apply (st_leaf (descriptive p o) p (desc_stab_laws p o) t Hl Hn Hw)|].
  intros v Hv. cbn beta in Hv. cbn beta iota. destruct (f v) as [x|] eqn:E; [|apply stab_err].
  apply stab_ret. eauto.
Qed.

Lemma dskip_unit p o b r : dtag_kind b = DMark -> dtag_mark b = M_UNIT -> dskip p o (b :: r) = Ok (tt, r).
Proof.
  intros Hk Hm. unfold dskip. change 1 with (0 + 1). rewrite dskip_unfold. unfold dskip_step. cbn [read_byte bind].
  rewrite Hk, Hm. cbn [M_UNIT M_VARIANT M_SOME M_CHAR N.eqb Pos.eqb bind]. apply dskip_0.
Qed.

Lemma dany_stab p o fuel : stab False (value_ok p) (dany fuel p o).
Proof.
  induction fuel as [|f IH]; [intros bs ext Hok; exact Logic.I|].
  intros bs ext Hok. destruct bs as [|b0 r0]; [exact Logic.I|].
  pose proof (desc_stab_laws p o) as L.
  enough (H : stab False (value_ok p) (fun bs =>
      match dtag_kind b0 with
      | DNumber => match dtag_data b0 with Some d => dany_num d bs | None => Err end
      | DSequence =>
          let* (n, r) := dlen_dec p o DSequence bs in
          let* (xs, r') := any_count n (dany f p o) r in
          Ok (USeq xs, r')
      | DMap =>
          let* (n, r) := dlen_dec p o DMap bs in
          let* (es, r') := any_count n (fun bs => let* (k, r) := dany f p o bs in
                                                  let* (x, r') := dany f p o r in
                                                  Ok ((k, x), r')) r in
          Ok (UMap es, r')
      | DBytes => dany_leaf p o TBytes (fun v => match v with VBytes h => Some (UBytes h) | _ => None end) bs
      | DString => dany_leaf p o TStr (fun v => match v with VBytes h => Some (UStr h) | _ => None end) bs
      | DMark =>
          let m := dtag_mark b0 in
          if (m =? M_TRUE) || (m =? M_FALSE) then
            dany_leaf p o TBool (fun v => match v with VBool b => Some (UBool b) | _ => None end) bs
          else if m =? M_VARIANT then
            let* (_, r) := f_var_dec (descriptive p o) bs in
            let* (k, r') := dany f p o r in
            let* (x, r'') := dany f p o r' in
            Ok (UVariant k x, r'')
          else if (m =? M_SOME) || (m =? M_NONE) then
            let* (some, r) := f_opt_dec (descriptive p o) bs in
            if some : bool then let* (x, r') := dany f p o r in Ok (UOpt (Some x), r')
            else Ok (UOpt None, r)
          else if m =? M_CHAR then
            dany_leaf p o TChar (fun v => match v with VN c => Some (UChar c) | _ => None end) bs
          else if m =? M_UNIT then
            match bs with [] => Err | _ :: r => Ok (UUnit, r) end
          else Err
      | DReserved => Err
      end)).
  { specialize (H (b0 :: r0) ext Hok). cbn [dany app].
    destruct (dtag_kind b0) eqn:Ek; try exact H. cbn zeta in *.
    destruct ((dtag_mark b0 =? M_TRUE) || (dtag_mark b0 =? M_FALSE)); [exact H|].
    destruct (dtag_mark b0 =? M_VARIANT); [exact H|].
    destruct ((dtag_mark b0 =? M_SOME) || (dtag_mark b0 =? M_NONE)); [exact H|].
    destruct (dtag_mark b0 =? M_CHAR); [exact H|].
    destruct (dtag_mark b0 =? M_UNIT) eqn:Em; [|exact H].
    apply N.eqb_eq in Em. unfold dany_leaf. cbn [dleaf_dec].
    rewrite !dskip_unit by assumption. exact H. }
  clear bs ext Hok || clear r0 ext Hok.
  destruct (dtag_kind b0).
  - apply stab_err.
  - destruct (dtag_data b0); [apply dany_num_stab|apply stab_err].
  - eapply stab_bind; [apply dlen_stab|]. intros n Hn. cbn beta in Hn.
    eapply stab_bind; [apply any_count_stab, IH|]. intros xs [Hx Hl]. apply stab_ret. constructor; [assumption|lia].
  - eapply stab_bind; [apply dlen_stab|]. intros n Hn. cbn beta in Hn.
    eapply stab_bind; [apply (any_count_stab False (fun e => value_ok p (fst e) /\ value_ok p (snd e)))|].
    + eapply stab_bind; [apply IH|]. intros k Hk. eapply stab_bind; [apply IH|]. intros x Hx. apply stab_ret. now split.
    + intros es [He Hl]. apply stab_ret. constructor; [assumption|lia].
  - apply dany_leaf_stab; [reflexivity|discriminate|exact Logic.I|]. intros v x Hv E.
    destruct v; try discriminate. inversion E; subst. cbn [has_type] in Hv. unfold len_ok in Hv.
    apply andb_true_iff in Hv. constructor; [tauto|lia].
  - apply dany_leaf_stab; [reflexivity|discriminate|exact Logic.I|]. intros v x Hv E.
    destruct v; try discriminate. inversion E; subst. cbn [has_type] in Hv. unfold len_ok in Hv.
    rewrite !andb_true_iff in Hv. constructor; [tauto|tauto|lia].
  - cbn zeta. destruct (_ || _).
    { apply dany_leaf_stab; [reflexivity|discriminate|exact Logic.I|]. intros v x Hv E.
      destruct v; try discriminate. inversion E; subst. constructor. }
    destruct (_ =? _).
    { eapply stab_bind; [apply (st_var _ _ L)|]. intros u _.
      eapply stab_bind; [apply IH|]. intros k Hk. eapply stab_bind; [apply IH|]. intros x Hx. apply stab_ret. now constructor. }
    destruct (_ || _).
    { eapply stab_bind; [apply (st_opt _ _ L)|]. intros [|] _.
      - eapply stab_bind; [apply IH|]. intros x Hx. apply stab_ret. now constructor.
      - apply stab_ret. constructor. }
    destruct (_ =? _).
    { apply dany_leaf_stab; [reflexivity|discriminate|exact Logic.I|]. intros v x Hv E.
      destruct v; try discriminate. inversion E; subst. constructor. exact Hv. }
    destruct (_ =? _); [|apply stab_err].
    intros [|b r] ext Hok; [exact Logic.I|]. split; [constructor|]. split; [now exists [b]|reflexivity].
Qed.

(** ** Enough fuel *)

Lemma any_count_ext {A} (P : A -> Prop) (d d' : dec A) k n : stab False P d -> forall bs, bytes_ok bs = true ->
  (length bs <= k)%nat ->
  (forall bs', bytes_ok bs' = true -> (length bs' <= k)%nat -> d bs' = d' bs') ->
  any_count n d bs = any_count n d' bs.
Proof.
  intros Hs. induction n as [|n IH] using N.peano_ind; intros bs Hok Hl H; [reflexivity|].
  rewrite !any_count_succ, <- (H bs Hok Hl). pose proof (Hs bs [] Hok) as Hd.
  destruct (d bs) as [[x r]| |]; cbn [bind]; try reflexivity.
  destruct Hd as (_ & [u ->] & _). apply bytes_ok_split in Hok. rewrite app_length in Hl.
  rewrite (IH r (proj2 Hok) ltac:(lia) H). reflexivity.
Qed.

Lemma dlen_strict p o k bs n r : bytes_ok bs = true -> dlen_dec p o k bs = Ok (n, r) ->
  bytes_ok r = true /\ (length r < length bs)%nat.
Proof.
  intros Hok H. destruct bs as [|b bs]; [discriminate|].
  pose proof (dlen_of_stab (pan := False) p o b bs [] ) as Hs.
  cbn [bytes_ok forallb] in Hok. apply andb_true_iff in Hok. specialize (Hs (proj2 Hok)).
  unfold dlen_dec in H. cbn [read_byte bind] in H. destruct (dkind_eqb _ _); [|discriminate].
  rewrite H in Hs. destruct Hs as (_ & [u ->] & _). destruct Hok as [_ Hok]. apply bytes_ok_split in Hok.
  split; [intuition|]. cbn. rewrite app_length. lia.
Qed.

Lemma dany_more p o f : forall bs, bytes_ok bs = true -> (length bs <= f)%nat -> dany (S f) p o bs = dany f p o bs.
Proof.
  induction f as [|f IH]; intros bs Hok Hl.
  - destruct bs; [reflexivity|cbn in Hl; lia].
  - destruct bs as [|b r0]; [reflexivity|].
    assert (Htl : bytes_ok r0 = true) by (cbn in Hok; now apply andb_true_iff in Hok).
    assert (Hl0 : (length r0 <= f)%nat) by (cbn in Hl; lia).
    remember (S f) as g eqn:Eg. cbn [dany]. rewrite Eg at 1. cbn [dany]. subst g.
    destruct (dtag_kind b); try reflexivity.
    + destruct (dlen_dec p o DSequence (b :: r0)) as [[n r]| |] eqn:E; cbn [bind]; try reflexivity.
      apply dlen_strict in E; [|assumption]. cbn in E.
      rewrite (any_count_ext (value_ok p) (dany (S f) p o) (dany f p o) f n (dany_stab p o (S f)) r); [reflexivity|tauto|lia|].
      intros bs' Hok' Hl'. now apply IH.
    + destruct (dlen_dec p o DMap (b :: r0)) as [[n r]| |] eqn:E; cbn [bind]; try reflexivity.
      apply dlen_strict in E; [|assumption]. cbn in E.
      rewrite (any_count_ext (fun _ => True) (fun bs => let* (k, r) := dany (S f) p o bs in
                                                  let* (x, r') := dany (S f) p o r in
                                                  Ok ((k, x), r')) (fun bs => let* (k, r) := dany f p o bs in
                                                  let* (x, r') := dany f p o r in
                                                  Ok ((k, x), r')) f n); [reflexivity| |tauto|lia|].
      * eapply stab_bind; [apply dany_stab|]. intros k _. eapply stab_bind; [apply dany_stab|]. intros x _. now apply stab_ret.
      * intros bs' Hok' Hl'. rewrite (IH bs' Hok' Hl'). pose proof (dany_stab p o f bs' [] Hok') as Hs.
        destruct (dany f p o bs') as [[k r']| |]; cbn [bind]; try reflexivity.
        destruct Hs as (_ & [u ->] & _). apply bytes_ok_split in Hok'. rewrite app_length in Hl'.
        rewrite (IH r') by (try tauto; lia). reflexivity.
    + cbn zeta. destruct (_ || _); [reflexivity|].
      destruct (_ =? M_VARIANT).
      { cbn [descriptive f_var_dec read_byte bind]. destruct (b =? _); cbn [bind]; [|reflexivity].
        rewrite (IH r0 Htl Hl0). pose proof (dany_stab p o f r0 [] Htl) as Hs.
        destruct (dany f p o r0) as [[k r']| |]; cbn [bind]; try reflexivity.
        destruct Hs as (_ & [u ->] & _). apply bytes_ok_split in Htl. rewrite app_length in Hl0.
        rewrite (IH r') by (try tauto; lia). reflexivity. }
      destruct (_ || _); [|reflexivity].
      cbn [descriptive f_opt_dec read_byte bind]. destruct (b =? _); cbn [bind]; [reflexivity|].
      destruct (b =? _); cbn [bind]; [|reflexivity]. rewrite (IH r0 Htl Hl0). reflexivity.
Qed.

Lemma dany_fuel p o f bs : bytes_ok bs = true -> (length bs <= f)%nat -> dany f p o bs = desc_decode_value p o bs.
Proof.
  intros Hok Hl. unfold desc_decode_value. replace f with ((f - length bs) + length bs)%nat by lia.
  induction (f - length bs)%nat as [|k IH]; [reflexivity|]. cbn [Nat.add].
  rewrite dany_more by (try assumption; lia). exact IH.
Qed.

Lemma value_more p o bs ext x r : bytes_ok bs = true -> bytes_ok ext = true ->
  desc_decode_value p o bs = Ok (x, r) -> desc_decode_value p o (bs ++ ext) = Ok (x, r ++ ext).
Proof.
  intros Hb He H. rewrite <- (dany_fuel p o (length (bs ++ ext)) bs) in H by (try assumption; rewrite app_length; lia).
  pose proof (dany_stab p o (length (bs ++ ext)) bs ext Hb) as Hs. rewrite H in Hs.
  unfold desc_decode_value. now destruct Hs as (_ & _ & Hs).
Qed.

(** ** Writing dynamic values *)

Lemma dlen_ok p o k n : lengths_fit p o -> n < 2 ^ usize_bits p -> exists b, dlen_enc p o k n = Ok b /\ bytes_ok b = true.
Proof. intros. now apply dlen_total. Qed.

Lemma desc_value_total p o x : lengths_fit p o -> value_ok p x ->
  exists b, desc_encode_value p o x = Ok b /\ bytes_ok b = true.
Proof.
  intros Hl. pose proof (desc_tot_laws p o Hl) as T. unfold desc_encode_value.
  induction x using value_ind'; intros Hok; inversion Hok; subst; cbn [uenc].
  - apply (t_leaf _ _ T TUnit eq_refl Logic.I VUnit eq_refl).
  - apply (t_leaf _ _ T TBool eq_refl Logic.I (VBool b) eq_refl).
  - apply (t_leaf _ _ T TChar eq_refl Logic.I (VN c)). assumption.
  - destruct n; cbn [num_enc]; cbn [number_ok] in *.
    + apply (t_leaf _ _ T (TU w) eq_refl Logic.I (VN n)). cbn [has_type]. lia.
    + apply (t_leaf _ _ T (TI w) eq_refl Logic.I (VZ z)). assumption.
    + apply (t_leaf _ _ T TUsize eq_refl Logic.I (VN n)). cbn [has_type]. lia.
    + apply (t_leaf _ _ T TIsize eq_refl Logic.I (VZ z)). assumption.
    + apply (t_leaf _ _ T TF32 eq_refl Logic.I (VN bits)). cbn [has_type]. lia.
    + apply (t_leaf _ _ T TF64 eq_refl Logic.I (VN bits)). cbn [has_type]. lia.
  - apply (t_leaf _ _ T TBytes eq_refl Logic.I (VBytes bs)). cbn [has_type]. unfold len_ok. rewrite H0. lia.
  - apply (t_leaf _ _ T TStr eq_refl Logic.I (VBytes bs)). cbn [has_type]. unfold len_ok. rewrite H0, H1. lia.
  - destruct (t_seq _ _ T (lenN xs) H2) as [l [El Ol]]. rewrite El. cbn [bind]. rewrite concat_in_eq.
    assert (HG : exists b, concat_res (uenc (descriptive p o)) xs = Ok b /\ bytes_ok b = true).
    { clear El H2 Hok. induction xs as [|x xs IH]; [exists []; auto|].
      inversion H; inversion H1; subst. destruct (IH H4 H8) as [b [Eb Ob]]. destruct (H3 H7) as [a [Ea Oa]].
      cbn [concat_res]. rewrite Ea. cbn [bind]. rewrite Eb. cbn [bind]. exists (a ++ b).
      split; [reflexivity|]. now rewrite bytes_ok_app, Oa, Ob. }
    destruct HG as [b [Eb Ob]]. rewrite Eb. cbn [bind]. exists (l ++ b). split; [reflexivity|]. now rewrite bytes_ok_app, Ol, Ob.
  - destruct (dlen_ok p o DMap (lenN es) Hl H2) as [l [El Ol]]. cbn [descriptive f_map_enc]. rewrite El. cbn [bind].
    fold (descriptive p o). rewrite concat_in_eq.
    set (f := fun '(k, y) => _).
    assert (HG : exists b, concat_res f es = Ok b /\ bytes_ok b = true).
    { clear El H2 Hok. induction es as [|[k y] es IH]; [exists []; auto|].
      inversion H; inversion H1; subst. destruct (IH H4 H8) as [b [Eb Ob]]. cbn [fst snd] in *.
      destruct H3 as [HK HY], H7 as [OK OY]. destruct (HK OK) as [a [Ea Oa]], (HY OY) as [c [Ec Oc]].
      cbn [concat_res]. unfold f at 1. rewrite Ea. cbn [bind]. rewrite Ec. cbn [bind]. rewrite Eb. cbn [bind].
      exists ((a ++ c) ++ b). split; [reflexivity|]. now rewrite !bytes_ok_app, Oa, Oc, Ob. }
    destruct HG as [b [Eb Ob]]. rewrite Eb. cbn [bind]. exists (l ++ b). split; [reflexivity|]. now rewrite bytes_ok_app, Ol, Ob.
  - destruct (IHx1 H1) as [a [Ea Oa]], (IHx2 H2) as [b [Eb Ob]]. rewrite Ea. cbn [bind]. rewrite Eb. cbn [bind].
    eexists. split; [reflexivity|]. rewrite !bytes_ok_app, Oa, Ob, (t_var _ _ T). reflexivity.
  - eexists. split; [reflexivity|]. apply (t_none _ _ T).
  - destruct (IHx H0) as [a [Ea Oa]]. rewrite Ea. cbn [bind]. eexists. split; [reflexivity|].
    now rewrite bytes_ok_app, Oa, (t_some _ _ T).
Qed.

Lemma norm_sized p x : sized x = true -> norm p x = x.
Proof.
  induction x using value_ind'; cbn [sized norm]; intros Hs; try reflexivity.
  - destruct n; try discriminate; reflexivity.
  - f_equal. induction xs as [|x xs IH]; [reflexivity|]. cbn in Hs. apply andb_true_iff in Hs. inversion H; subst.
    cbn. rewrite IH by tauto. now rewrite H2.
  - f_equal. induction es as [|[k y] es IH]; [reflexivity|]. cbn in Hs. rewrite !andb_true_iff in Hs. inversion H; subst.
    cbn in *. rewrite IH by tauto. destruct H2 as [HK HY]. now rewrite HK, HY.
  - apply andb_true_iff in Hs. now rewrite IHx1, IHx2.
  - now rewrite IHx.
Qed.
