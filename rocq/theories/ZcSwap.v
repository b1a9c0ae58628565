(** Byte swapping: it stays within the type, undoes itself, and turns native
    memory into memory of the requested byte order. *)
From Coq Require Import Lia.
From Verif Require Import Base BaseFacts Options Int IntFacts Utf8 Zc ZcSpec ZcFacts ZcValid.
Local Open Scope N_scope.

Lemma bo_eqb_refl a : bo_eqb a a = true.
Proof. now destruct a. Qed.
Lemma bo_eqb_eq a b : bo_eqb a b = true -> a = b.
Proof. now destruct a, b. Qed.

Fixpoint swap_fields (nb e : ByteOrder) (fs : list zty) (vs : list zval) : list zval :=
  match fs, vs with
  | f :: fs, v :: vs => zswap nb e f v :: swap_fields nb e fs vs
  | _, _ => []
  end.

Lemma zswap_struct nb e pk al fs vs :
  zswap nb e (ZStruct pk al fs) (VSt vs) =
  if bo_eqb nb e then VSt vs else VSt (swap_fields nb e fs vs).
Proof.
  cbn [zswap]. destruct (bo_eqb nb e); auto. f_equal.
  revert vs; induction fs as [|f fs IH]; intros [|v vs]; cbn [swap_fields]; auto. now rewrite <- IH.
Qed.

Lemma zswap_enum nb e dw dal al vars sw i vs d fs :
  nth_error vars i = Some (d, fs) ->
  zswap nb e (ZEnum dw dal al vars sw) (VEn i vs) =
  if bo_eqb nb e then VEn i vs else
  VEn (match sw with Some tbl => nth i tbl i | None => i end) (swap_fields nb e fs vs).
Proof.
  intros NE. cbn [zswap]. destruct (bo_eqb nb e); auto. f_equal.
  revert i NE. induction vars as [|[d' gs] vars IH]; intros [|i] NE; try discriminate.
  - inversion NE; subst. clear.
    revert vs; induction fs as [|f fs IH]; intros [|v vs]; cbn [swap_fields]; auto. now rewrite <- IH.
  - apply (IH i NE).
Qed.

Lemma zswap_native nb t : forall v, zswap nb nb t v = v.
Proof.
  induction t as [w al|w al| | | |t n IH|pk al fs IH|dw dal al vs sw IH|t IH] using zty_ind';
    intros [ ]; cbn [zswap]; rewrite ?bo_eqb_refl; auto; unfold swap_int; rewrite ?bo_eqb_refl; auto.
  f_equal. induction vs as [|v vs IHv]; cbn [map]; rewrite ?IH, ?IHv; auto.
Qed.

Lemma swap_bytes_lt w n : swap_bytes w n < 256 ^ N.of_nat w.
Proof.
  unfold swap_bytes.
  replace (N.of_nat w) with (lenN (rev (to_le w n))).
  - apply of_le_lt. rewrite bytes_ok_rev. apply to_le_bytes_ok.
  - rewrite lenN_rev. unfold lenN. now rewrite to_le_length.
Qed.

Lemma swap_bytes_twice w n : n < 256 ^ N.of_nat w -> swap_bytes w (swap_bytes w n) = n.
Proof.
  intros L. unfold swap_bytes at 1. rewrite swap_bytes_le, rev_involutive. now apply of_le_to_le.
Qed.

Lemma swap_bytes_0 w : swap_bytes w 0 = 0.
Proof.
  assert (Z : to_le w 0 = repeat 0 w) by (induction w; cbn; rewrite ?IHw; auto).
  assert (R : rev (repeat 0 w) = repeat 0 w).
  { clear Z. induction w as [|w IH]; auto. cbn [repeat rev]. rewrite IH. symmetry. apply repeat_cons. }
  unfold swap_bytes. rewrite Z, R. rewrite <- Z. apply of_le_to_le.
  assert (256 ^ N.of_nat w <> 0) by (apply N.pow_nonzero; lia). lia.
Qed.

Lemma swap_bytes_nz w n : n < 256 ^ N.of_nat w -> n <> 0 -> swap_bytes w n <> 0.
Proof.
  intros L NZ E. apply NZ. rewrite <- (swap_bytes_twice w n) by auto. now rewrite E, swap_bytes_0.
Qed.

Lemma int_mem_swap nb e w n : nb <> e -> int_mem nb w (swap_bytes w n) = int_mem e w n.
Proof.
  intros NE. destruct nb, e; try congruence; cbn [int_mem]; rewrite swap_bytes_le; auto.
  apply rev_involutive.
Qed.

Definition sw_good nb e t := forall v, zok t v ->
  zok t (zswap nb e t v) /\ zswap nb e t (zswap nb e t v) = v /\
  (plain t = true -> mem_of nb t (zswap nb e t v) = mem_of e t v).

Lemma swap_fields_good nb e fs vs : Forall (sw_good nb e) fs -> Forall2 zok fs vs ->
  Forall2 zok fs (swap_fields nb e fs vs) /\
  swap_fields nb e fs (swap_fields nb e fs vs) = vs /\
  (forallb plain fs = true -> forall pk off,
     mem_fields nb pk off fs (swap_fields nb e fs vs) = mem_fields e pk off fs vs).
Proof.
  intros G F2. revert G. induction F2 as [|f v fs vs O F2 IH]; intros G; cbn [swap_fields].
  - repeat split; auto.
  - inversion G as [|? ? Gf G']; subst. destruct (Gf v O) as (A & B & C).
    destruct (IH G') as (A' & B' & C'). repeat split.
    + constructor; auto.
    + now rewrite B, B'.
    + cbn [forallb]. intros P pk off. apply andb_prop in P as [P1 P2].
      cbn [mem_fields]. now rewrite C, C'.
Qed.

Lemma forallb_combine_nth {A B} (f : A * B -> bool) l m i x y :
  forallb f (combine l m) = true -> nth_error l i = Some x -> nth_error m i = Some y -> f (x, y) = true.
Proof.
  revert m i; induction l as [|a l IH]; intros [|b m] [|i] F X Y; try discriminate; cbn in *.
  - inversion X; inversion Y; subst. now apply andb_prop in F as [F _].
  - apply andb_prop in F as [_ F]. eauto.
Qed.

Lemma Forall_impl3 {A} (P Q R S : A -> Prop) l :
  Forall (fun x => P x -> Q x -> R x -> S x) l -> Forall P l -> Forall Q l -> Forall R l -> Forall S l.
Proof.
  induction 1; intros F1 F2 F3; constructor; inversion F1; inversion F2; inversion F3; subst; auto.
Qed.

Lemma forallb_Forall_true {A} (f : A -> bool) l : forallb f l = true -> Forall (fun x => f x = true) l.
Proof. intros F. apply Forall_forall. now apply forallb_forall. Qed.

Lemma zswap_spec nb e t : zwf t -> sw_ok t -> can_swap t = true -> sw_good nb e t.
Proof.
  destruct (bo_eqb nb e) eqn:EE.
  { apply bo_eqb_eq in EE. subst e. intros _ _ _ v O. rewrite !zswap_native. auto. }
  assert (NBE : nb <> e) by (intros ->; now rewrite bo_eqb_refl in EE).
  induction t as [w al|w al| | | |t n IH|pk al fs IH|dw dal al vs sw IH|t IH] using zty_ind';
    intros W SO CS v O.
  - inversion O; subst. cbn [zswap]. unfold swap_int. rewrite EE. repeat split.
    + constructor. apply swap_bytes_lt.
    + now rewrite swap_bytes_twice.
    + intros _. cbn [mem_of]. now rewrite (int_mem_swap nb e).
  - inversion O; subst. cbn [zswap]. unfold swap_int. rewrite EE. repeat split.
    + constructor; [apply swap_bytes_lt|]. now apply swap_bytes_nz.
    + now rewrite swap_bytes_twice.
    + intros _. cbn [mem_of]. now rewrite (int_mem_swap nb e).
  - inversion O; subst. repeat split; auto.
  - discriminate.
  - inversion O; subst. repeat split; auto.
  - assert (Wt : zwf t) by (inversion W; auto). assert (St : sw_ok t) by (inversion SO; auto).
    inversion O as [| | | | |? ? vs LE F| | |]; subst. cbn [can_swap] in CS.
    specialize (IH Wt St CS). cbn [zswap plain].
    assert (X : Forall (zok t) (map (zswap nb e t) vs) /\
      map (zswap nb e t) (map (zswap nb e t) vs) = vs /\
      (plain t = true -> map (mem_of nb t) (map (zswap nb e t) vs) = map (mem_of e t) vs)).
    { clear O W SO. induction F as [|v vs Ov F IHF]; cbn [map]; [repeat split; auto|]. destruct (IH v Ov) as (A & B & C).
      destruct IHF as (A' & B' & C'). split; [|split].
      - constructor; auto.
      - now rewrite B, B'.
      - intros P. now rewrite C, C'. }
    destruct X as (A & B & C). repeat split.
    + constructor; auto. now rewrite map_length.
    + now rewrite B.
    + intros P. cbn [mem_of]. now rewrite C.
  - assert (FW : Forall zwf fs) by (inversion W; auto). assert (FS : Forall sw_ok fs) by (inversion SO; auto).
    cbn [can_swap] in CS. apply forallb_Forall_true in CS.
    pose proof (Forall_impl3 _ _ _ _ _ IH FW FS CS) as G.
    inversion O as [| | | | | |? ? ? vs F2| |]; subst.
    destruct (swap_fields_good nb e fs vs G F2) as (A & B & C).
    rewrite !zswap_struct, EE, zswap_struct, EE. repeat split.
    + now constructor.
    + now rewrite B.
    + cbn [plain]. intros P. rewrite !mem_struct. rewrite C by auto. reflexivity.
  - assert (FWs : Forall (fun dv => Forall zwf (snd dv)) vs) by (inversion W; auto).
    assert (FSs : Forall (fun dv => Forall sw_ok (snd dv)) vs) by (inversion SO; auto).
    assert (ND : NoDup (map fst vs)) by (inversion W; auto).
    assert (DL : Forall (fun dv => fst dv < 256 ^ N.of_nat dw) vs) by (inversion W; auto).
    cbn [can_swap] in CS. apply andb_prop in CS as [CT CF].
    destruct sw as [tbl|]; [|discriminate]. apply andb_prop in CT as [CL CT]. apply Nat.eqb_eq in CL.
    assert (SV : forall i j dv, nth_error tbl i = Some j -> nth_error vs i = Some dv ->
                 exists d', nth_error vs j = Some (d', snd dv)) by (inversion SO; eauto).
    inversion O as [| | | | | | |? ? ? ? ? i d fs xs NE F2|]; subst.
    apply forallb_Forall_true in CF.
    pose proof (nth_error_Forall _ _ _ _ FWs NE) as FW. pose proof (nth_error_Forall _ _ _ _ FSs NE) as FS.
    pose proof (nth_error_Forall _ _ _ _ IH NE) as I1. pose proof (nth_error_Forall _ _ _ _ CF NE) as CG.
    cbn [snd] in *. apply forallb_Forall_true in CG.
    pose proof (Forall_impl3 _ _ _ _ _ I1 FW FS CG) as G.
    destruct (swap_fields_good nb e fs xs G F2) as (A & B & C).
    assert (T : forall i d fs, nth_error vs i = Some (d, fs) ->
      exists j d', nth_error tbl i = Some j /\ nth i tbl i = j /\ nth_error vs j = Some (d', fs) /\ d = swap_bytes dw d').
    { clear - SV CT CL. intros i d fs NE.
      destruct (nth_error tbl i) as [j|] eqn:TE.
      - destruct (SV i j _ TE NE) as (d' & NE'). exists j, d'. repeat split; auto.
        + now apply nth_error_nth.
        + pose proof (forallb_combine_nth _ _ _ _ _ _ CT NE TE) as X. cbn in X. rewrite NE' in X.
          cbn in X. now apply N.eqb_eq in X.
      - apply nth_error_None in TE. assert (i < length vs)%nat by (apply nth_error_Some; congruence). lia. }
    destruct (T i d fs NE) as (j & d' & TE & TN & NE' & DE).
    destruct (T j d' fs NE') as (k & d2 & TE2 & TN2 & NE2 & DE2).
    pose proof (nth_error_Forall _ _ _ _ DL NE2) as L2. pose proof (nth_error_Forall _ _ _ _ DL NE') as L1.
    cbn [fst] in *.
    assert (KI : k = i).
    { assert (d2 = d) as -> by (rewrite DE, DE2; symmetry; now apply swap_bytes_twice).
      eapply NoDup_nth_fst; eauto. }
    rewrite (zswap_enum _ _ _ _ _ _ _ _ _ _ _ NE), EE, TN.
    rewrite (zswap_enum _ _ _ _ _ _ _ _ _ _ _ NE'), EE, TN2, KI. repeat split.
    + econstructor; eauto.
    + now rewrite B.
    + cbn [plain]. intros P.
      assert (PF : forallb plain fs = true).
      { rewrite forallb_forall in P. apply (P (d, fs)). eapply nth_error_In; eauto. }
      rewrite (mem_enum _ _ _ _ _ _ _ _ _ _ NE'), (mem_enum _ _ _ _ _ _ _ _ _ _ NE). cbv zeta.
      rewrite C by auto. rewrite DE. rewrite (int_mem_swap e nb) by auto. reflexivity.
  - inversion O; subst. repeat split; auto. discriminate.
Qed.

(** ** A bit pattern denotes at most one value *)

Definition inj_good nb t := forall v1 v2 m, zok t v1 -> zok t v2 ->
  holds (mem_of nb t v1) m -> holds (mem_of nb t v2) m -> v1 = v2.

Lemma int_mem_inj nb w a b m :
  a < 256 ^ N.of_nat w -> b < 256 ^ N.of_nat w ->
  holds (map Some (int_mem nb w a)) m -> holds (map Some (int_mem nb w b)) m -> a = b.
Proof.
  intros A B H1 H2. apply holds_some in H1. apply holds_some in H2.
  rewrite <- (mem_int_mem nb w a), <- (mem_int_mem nb w b) by auto. congruence.
Qed.

Lemma fields_inj nb pk fs : (forall p, pk = Some p -> pow2 p) -> Forall zwf fs -> Forall (inj_good nb) fs ->
  forall off vs1 vs2 m, Forall2 zok fs vs1 -> Forall2 zok fs vs2 ->
  holds (mem_fields nb pk off fs vs1) m -> holds (mem_fields nb pk off fs vs2) m -> vs1 = vs2.
Proof.
  intros P FW G. revert FW. induction G as [|f fs Gf G IH]; intros FW off vs1 vs2 m F1 F2 H1 H2;
    inversion F1; inversion F2; subst; auto. inversion FW; subst.
  cbn [mem_fields] in *.
  apply holds_app in H1 as (p1 & m1 & -> & A1 & H1). apply holds_app in H1 as (b1 & r1 & -> & B1 & H1).
  pose proof (holds_len _ _ A1) as L1. rewrite lenN_pads in L1.
  pose proof (holds_len _ _ B1) as L2. rewrite mem_of_len in L2 by auto.
  apply holds_app_inv in H2 as [_ H2]; [|now rewrite lenN_pads].
  apply holds_app_inv in H2 as [B2 H2]; [|now rewrite mem_of_len].
  f_equal; [eapply Gf|eapply IH]; eauto.
Qed.

Lemma holds_inj nb t : zwf t -> inj_good nb t.
Proof.
  induction t as [w al|w al| | | |t n IH|pk al fs IH|dw dal al vs sw IH|t IH] using zty_ind';
    intros W v1 v2 m O1 O2 H1 H2.
  - inversion O1; inversion O2; subst. f_equal. eapply int_mem_inj; eauto.
  - inversion O1; inversion O2; subst. f_equal. eapply int_mem_inj; eauto.
  - inversion O1 as [| |b1| | | | | |]; inversion O2 as [| |b2| | | | | |]; subst. cbn [mem_of] in *.
    destruct m as [|x m]; [inversion H1|].
    assert (A1 : x = if b1 then 1 else 0) by (inversion H1; auto).
    assert (A2 : x = if b2 then 1 else 0) by (inversion H2; auto).
    destruct b1, b2; auto; subst x; discriminate.
  - inversion O1 as [| | |c1 C1| | | | |]; inversion O2 as [| | |c2 C2| | | | |]; subst. f_equal.
    eapply (int_mem_inj nb 4); eauto; change (256 ^ N.of_nat 4) with 4294967296;
      unfold char_valid, between in *; lia.
  - inversion O1; inversion O2; subst. auto.
  - assert (Wt : zwf t) by (inversion W; auto). specialize (IH Wt).
    inversion O1 as [| | | | |? ? x1 LE1 F1| | |]; inversion O2 as [| | | | |? ? x2 LE2 F2| | |]; subst.
    f_equal. cbn [mem_of] in *. clear O1 O2 W. revert x2 LE2 F2 m H1 H2.
    induction F1 as [|v x1 Ov F1 IHF]; intros [|v' x2] LE2 F2 m H1 H2; try discriminate; auto.
    cbn [map concat] in *. inversion F2; subst.
    apply holds_app in H1 as (b1 & r1 & -> & B1 & H1).
    pose proof (holds_len _ _ B1) as L2. rewrite mem_of_len in L2 by auto.
    apply holds_app_inv in H2 as [B2 H2]; [|now rewrite mem_of_len].
    f_equal; [eapply IH|eapply IHF]; eauto.
  - assert (FW : Forall zwf fs) by (inversion W; auto).
    assert (FP : forall p, pk = Some p -> pow2 p) by (inversion W; auto).
    assert (G : Forall (inj_good nb) fs).
    { clear - IH FW. revert FW. induction IH; intros FW; constructor; inversion FW; auto. }
    inversion O1 as [| | | | | |? ? ? x1 F1| |]; inversion O2 as [| | | | | |? ? ? x2 F2| |]; subst.
    rewrite mem_struct in *.
    apply holds_app in H1 as (b1 & r1 & -> & B1 & _).
    pose proof (holds_len _ _ B1) as L2.
    pose proof (mem_fields_len' nb pk fs x1 FP FW F1 0) as E1.
    pose proof (mem_fields_len' nb pk fs x2 FP FW F2 0) as E2.
    apply holds_app_inv in H2 as [B2 _]; [|lia].
    f_equal. eapply fields_inj; eauto.
  - assert (FWs : Forall (fun dv => Forall zwf (snd dv)) vs) by (inversion W; auto).
    assert (ND : NoDup (map fst vs)) by (inversion W; auto).
    assert (DL : Forall (fun dv => fst dv < 256 ^ N.of_nat dw) vs) by (inversion W; auto).
    inversion O1 as [| | | | | | |? ? ? ? ? i1 d1 f1 x1 N1 F1|]; subst v1.
    inversion O2 as [| | | | | | |? ? ? ? ? i2 d2 f2 x2 N2 F2|]; subst v2.
    rewrite (mem_enum _ _ _ _ _ _ _ _ _ _ N1) in H1. rewrite (mem_enum _ _ _ _ _ _ _ _ _ _ N2) in H2.
    cbv zeta in *. rewrite <- app_assoc in H1, H2.
    apply holds_app in H1 as (db & r1 & -> & D1 & R1).
    pose proof (holds_len _ _ D1) as LD. rewrite lenN_map, int_mem_len in LD.
    apply holds_app_inv in H2 as [D2 R2]; [|now rewrite lenN_map, int_mem_len].
    assert (d1 = d2).
    { eapply int_mem_inj; eauto; [apply (nth_error_Forall _ _ _ _ DL N1)|apply (nth_error_Forall _ _ _ _ DL N2)]. }
    subst d2. pose proof (NoDup_nth_fst _ _ _ _ _ _ ND N1 N2). subst i2.
    assert (f2 = f1) by congruence. subst f2.
    pose proof (nth_error_Forall _ _ _ _ FWs N1) as FW. pose proof (nth_error_Forall _ _ _ _ IH N1) as I1.
    cbn [snd] in *.
    assert (G : Forall (inj_good nb) f1).
    { clear - I1 FW. revert FW. induction I1; intros FW; constructor; inversion FW; auto. }
    apply holds_app in R1 as (b1 & r2 & -> & B1 & _).
    pose proof (holds_len _ _ B1) as L2.
    pose proof (mem_fields_len' nb None f1 x1 ltac:(discriminate) FW F1 (N.of_nat dw)) as E1.
    pose proof (mem_fields_len' nb None f1 x2 ltac:(discriminate) FW F2 (N.of_nat dw)) as E2.
    apply holds_app_inv in R2 as [B2 _]; [|lia].
    f_equal. eapply (fields_inj nb None f1 ltac:(discriminate)); eauto.
  - assert (Wt : zwf t) by (inversion W; auto). inversion O1; inversion O2; subst.
    eapply IH; eauto.
Qed.

(** ** Memory consists of bytes *)

Lemma zeros_ok n : bytes_ok (zeros n) = true.
Proof. unfold zeros. induction (N.to_nat n); cbn; auto. Qed.

Lemma int_mem_ok bo w n : bytes_ok (int_mem bo w n) = true.
Proof. destruct bo; cbn; rewrite ?bytes_ok_rev; apply to_le_bytes_ok. Qed.

Lemma mem_fields_ok bo pk fs : Forall (fun t => forall v, bytes_ok (zeroed (mem_of bo t v)) = true) fs ->
  forall off vs, bytes_ok (zeroed (mem_fields bo pk off fs vs)) = true.
Proof.
  induction 1 as [|f fs A F IH]; intros off [|v vs]; cbn [mem_fields]; auto.
  rewrite !zeroed_app, !bytes_ok_app, zeroed_pads, zeros_ok, A, IH. reflexivity.
Qed.

Lemma mem_ok bo t : forall v, bytes_ok (zeroed (mem_of bo t v)) = true.
Proof.
  induction t as [w al|w al| | | |t n IH|pk al fs IH|dw dal al vs sw IH|t IH] using zty_ind';
    intros [x|b|c| |xs|xs|i xs]; try reflexivity; try (cbn [mem_of]; rewrite zeroed_some; apply int_mem_ok).
  - now destruct b.
  - cbn [mem_of]. induction xs as [|v xs IHx]; cbn [map concat]; auto.
    rewrite zeroed_app, bytes_ok_app, IH, IHx. reflexivity.
  - rewrite mem_struct, zeroed_app, bytes_ok_app, zeroed_pads, zeros_ok, mem_fields_ok; auto.
  - destruct (nth_error vs i) as [[d fs]|] eqn:NE.
    + rewrite (mem_enum _ _ _ _ _ _ _ _ _ _ NE). cbv zeta.
      rewrite !zeroed_app, !bytes_ok_app, zeroed_some, int_mem_ok, zeroed_pads, zeros_ok, mem_fields_ok; auto.
      exact (nth_error_Forall _ _ _ _ IH NE).
    + cbn [mem_of].
      match goal with |- context [(?F ++ pads _)] => assert (E : F = []) end.
      { clear - NE. revert i NE. induction vs as [|[d fs] vs IH]; intros [|i] NE; try discriminate; auto. }
      rewrite E. cbn [app]. rewrite zeroed_pads. apply zeros_ok.
  - apply IH. - apply IH. - apply IH. - apply IH. - apply IH. - apply IH. - apply IH.
Qed.
