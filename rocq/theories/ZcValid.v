(** Validation accepts exactly the valid bit patterns. *)
From Coq Require Import Lia.
From Verif Require Import Base BaseFacts Options Int IntFacts Utf8 Zc ZcSpec ZcFacts.
Local Open Scope N_scope.

Lemma split_len {A} (m : list A) a b : lenN m = a + b ->
  exists x y, m = x ++ y /\ lenN x = a /\ lenN y = b.
Proof.
  intros L. exists (firstn (N.to_nat a) m), (skipn (N.to_nat a) m).
  split; [now rewrite firstn_skipn|]. unfold lenN in *. rewrite firstn_length, skipn_length. lia.
Qed.

Lemma app_split {A} (a b c d : list A) : a ++ b = c ++ d -> length a = length c -> a = c /\ b = d.
Proof.
  revert c; induction a as [|x a IH]; intros [|y c] E L; simpl in *; try discriminate; auto.
  inversion E; subst. destruct (IH c) as [-> ->]; auto.
Qed.

Lemma holds_app_inv a b m1 m2 : holds (a ++ b) (m1 ++ m2) -> lenN m1 = lenN a -> holds a m1 /\ holds b m2.
Proof.
  intros H L. apply holds_app in H as (x & y & E & A & B).
  pose proof (holds_len _ _ A) as LA.
  apply app_split in E as [-> ->]; auto. unfold lenN in *. lia.
Qed.

(** ** Alignment demanded by the validator *)

Lemma valign_pow2 t : zwf t -> pow2 (valign t).
Proof.
  induction t as [w al|w al| | | |t n IH|pk al fs IH|dw dal al vs sw IH|t IH] using zty_ind';
    intros W; cbn [valign]; auto using pow2_1.
  - apply IH. inversion W; auto.
  - assert (FW : Forall zwf fs) by (inversion W; auto).
    assert (FP : forall p, pk = Some p -> pow2 p) by (inversion W; auto).
    clear W IH. induction FW as [|f fs Wf FW IHf]; simpl; auto using pow2_1.
    apply pow2_max; auto. destruct pk; auto using align_pow2.
  - assert (FW : Forall (fun dv => Forall zwf (snd dv)) vs) by (inversion W; auto).
    assert (PD : pow2 dal) by (inversion W; auto).
    clear W IH. induction FW as [|[d fs] vs Wf FW IHf]; simpl in *; auto.
    clear FW. induction Wf; simpl; auto using pow2_max, align_pow2.
  - apply IH. inversion W; auto.
Qed.

Lemma valign_le t : zwf t -> pk_ok t -> valign t <= align_of t.
Proof.
  induction t as [w al|w al| | | |t n IH|pk al fs IH|dw dal al vs sw IH|t IH] using zty_ind';
    intros W PK; cbn [valign align_of]; try lia.
  - pose proof (pow2_pos _ (align_pow2 _ W)) as P. cbn [align_of] in P. lia.
  - pose proof (pow2_pos _ (align_pow2 _ W)) as P. cbn [align_of] in P. lia.
  - apply IH; [inversion W|inversion PK]; auto.
  - assert (PA : forall p f, pk = Some p -> In f fs -> p <= align_of f) by (inversion PK; auto).
    assert (AL : 1 <= opt_al al).
    { destruct al as [a|]; simpl; [|lia].
      assert (pow2 a) as A by (inversion W; auto). apply pow2_pos in A. lia. }
    clear W PK IH. induction fs as [|f fs IHf]; simpl; auto.
    assert (match pk with Some p => p | None => align_of f end <= cap_al pk (align_of f)).
    { destruct pk as [p|]; simpl; [|lia]. specialize (PA p f eq_refl (or_introl eq_refl)). lia. }
    specialize (IHf ltac:(intros; eapply PA; eauto; now right)). lia.
  - assert (AL : dal <= N.max dal (opt_al al)) by lia.
    clear W PK IH. induction vs as [|[d fs] vs IHv]; simpl; auto.
    induction fs as [|f fs IHf]; simpl; auto. lia.
  - apply IH; [inversion W|inversion PK]; auto.
Qed.

Lemma valign_divide t : zwf t -> pk_ok t -> (valign t | align_of t).
Proof. intros W P. apply pow2_divide; auto using valign_pow2, align_pow2, valign_le. Qed.

(** ** Loops *)

Fixpoint v_loop (nb : ByteOrder) (pk : option N) (fs : list zty) (st : N * bytes) : zres (N * bytes) :=
  match fs with
  | [] => ZOk st
  | f :: fs =>
      let+ st := v_with (pad_al pk f) (size_of f) (zvalidate nb f) st in
      v_loop nb pk fs st
  end.

Lemma zvalidate_struct nb pk al fs addr rest :
  zvalidate nb (ZStruct pk al fs) addr rest =
  let+ _ := v_loop nb pk fs (addr, rest) in ZOk tt.
Proof.
  cbn [zvalidate].
  assert (E : forall st,
    (fix go (fs : list zty) (st : N * bytes) {struct fs} : zres (N * bytes) :=
         match fs with
         | [] => ZOk st
         | f :: fs =>
             let+ st := v_with (match pk with Some p => p | None => align_of f end) (size_of f)
                          (zvalidate nb f) st in
             go fs st
         end) fs st = v_loop nb pk fs st).
  { induction fs as [|f fs IH]; intros st; cbn [v_loop]; auto.
    change (match pk with Some p => p | None => align_of f end) with (pad_al pk f).
    destruct (v_with _ _ _ st); cbn [zbind]; auto. }
  now rewrite E.
Qed.

Lemma v_skip_app n addr h t : lenN h = n -> v_skip n (addr, h ++ t) = ZOk (addr + n, t).
Proof. intros <-. unfold v_skip. now rewrite take_opt_app. Qed.

Definition decided (r : zres unit) (P : Prop) : Prop := (r = ZOk tt /\ P) \/ (r = ZErr /\ ~ P).

Definition fields_pattern (nb : ByteOrder) (pk : option N) (off : N) (fs : list zty) (m : bytes) : Prop :=
  exists vs, Forall2 zok fs vs /\ holds (mem_fields nb pk off fs vs) m.

Definition v_good (nb : ByteOrder) (f : zty) : Prop :=
  forall addr m post, (valign f | addr) -> bytes_ok m = true -> lenN m = size_of f ->
    decided (zvalidate nb f addr (m ++ post)) (valid_pattern nb f m).

Lemma mem_fields_len' bo pk fs vs :
  (forall p, pk = Some p -> pow2 p) -> Forall zwf fs -> Forall2 zok fs vs ->
  forall off, off + lenN (mem_fields bo pk off fs vs) = end_of pk off fs.
Proof.
  intros P FW F2 off. apply mem_fields_len; auto.
  clear - F2 FW. revert FW. induction F2; intros I2; constructor;
    inversion I2; subst; auto using mem_of_len.
Qed.

Lemma v_loop_spec nb pk fs :
  (forall p, pk = Some p -> pow2 p) -> Forall zwf fs -> Forall pk_ok fs ->
  (forall p f, pk = Some p -> In f fs -> p <= align_of f) ->
  (forall p f, pk = Some p -> In f fs -> valign f <= p) ->
  Forall (v_good nb) fs ->
  forall addr off m post,
  (forall f, In f fs -> (pad_al pk f | addr)) ->
  bytes_ok m = true -> off + lenN m = end_of pk off fs ->
  (v_loop nb pk fs (addr + off, m ++ post) = ZOk (addr + end_of pk off fs, post)
     /\ fields_pattern nb pk off fs m)
  \/ (v_loop nb pk fs (addr + off, m ++ post) = ZErr /\ ~ fields_pattern nb pk off fs m).
Proof.
  intros P FW FK PA VA G. revert FW FK PA VA. induction G as [|f fs Gf G IH];
    intros FW FK PA VA addr off m post D B L.
  - left. cbn [end_of v_loop] in *. assert (lenN m = 0) by lia.
    destruct m; [|unfold lenN in *; simpl in *; lia]. split; auto.
    exists []. split; constructor.
  - inversion FW as [|? ? Wf FW']; inversion FK as [|? ? Kf FK']; subst.
    cbn [v_loop end_of] in *.
    assert (PE : pad_al pk f = cap_al pk (align_of f)).
    { destruct pk as [p|]; simpl; auto. specialize (PA p f eq_refl ltac:(now left)). lia. }
    assert (P2 : pow2 (pad_al pk f)) by (rewrite PE; apply cap_pow2; auto).
    pose proof (pow2_pos _ P2) as PP.
    assert (GE : off <= place pk off f) by (apply round_up_ge; rewrite <- PE; auto).
    pose proof (end_of_ge pk fs P FW' (place pk off f + size_of f)) as EG.
    destruct (split_len m (place pk off f - off) (lenN m - (place pk off f - off)) ltac:(lia))
      as (pd & m' & -> & Lpd & Lm').
    destruct (split_len m' (size_of f) (lenN m' - size_of f)) as (body & m2 & -> & Lb & Lm2).
    { rewrite lenN_app in Lm', L. lia. }
    rewrite !bytes_ok_app in B. apply andb_prop in B as [B1 B]. apply andb_prop in B as [B2 B3].
    rewrite !lenN_app in *.
    rewrite <- !app_assoc.
    assert (VW : v_with (pad_al pk f) (size_of f) (zvalidate nb f) (addr + off, pd ++ body ++ m2 ++ post)
              = let+ _ := zvalidate nb f (addr + place pk off f) (body ++ m2 ++ post) in
                ZOk (addr + (place pk off f + size_of f), m2 ++ post)).
    { unfold v_with, v_align. cbn [fst].
      rewrite (v_skip_app _ _ pd).
      2: { rewrite padding_to_add by auto using in_eq. rewrite padding_to_spec, PE by auto. auto. }
      cbn [zbind fst snd].
      replace (addr + off + padding_to (addr + off) (pad_al pk f)) with (addr + place pk off f).
      2: { rewrite padding_to_add by auto using in_eq. rewrite padding_to_spec, PE by auto.
           unfold place in *. lia. }
      destruct (zvalidate nb f _ _); cbn [zbind]; auto.
      rewrite v_skip_app by auto. do 2 f_equal. lia. }
    rewrite VW. clear VW.
    assert (DV : (valign f | addr + place pk off f)).
    { assert (DP : (valign f | pad_al pk f)).
      { destruct pk as [p|]; cbn [pad_al].
        - apply pow2_divide; auto using valign_pow2. apply (VA p f eq_refl (or_introl eq_refl)).
        - apply valign_divide; auto. }
      apply N.divide_add_r.
      - eapply N.divide_trans; [exact DP|]. apply D. now left.
      - eapply N.divide_trans; [exact DP|]. rewrite PE. apply round_up_divide. }
    destruct (Gf (addr + place pk off f) body (m2 ++ post) DV B2 Lb) as [[-> V]|[-> V]]; cbn [zbind].
    + destruct (IH FW' FK' ltac:(intros; eapply PA; eauto; now right)
                  ltac:(intros; eapply VA; eauto; now right)
                  addr (place pk off f + size_of f) m2 post ltac:(intros; apply D; now right) B3 ltac:(lia))
        as [[-> (vs & F2 & Hv)]|[-> NV]].
      * left. split; auto. destruct V as (v & Ov & Hb).
        exists (v :: vs). split; [constructor; auto|]. cbn [mem_fields].
        apply holds_app_intro; [apply holds_pads; auto|]. apply holds_app_intro; auto.
      * right. split; auto. intros (vs & F2 & Hv). inversion F2; subst. cbn [mem_fields] in Hv.
        apply holds_app_inv in Hv as [_ Hv]; [|now rewrite lenN_pads].
        apply holds_app_inv in Hv as [_ Hv]; [|now rewrite mem_of_len].
        apply NV. eexists; split; eauto.
    + right. split; auto. intros (vs & F2 & Hv). inversion F2; subst. cbn [mem_fields] in Hv.
      apply holds_app_inv in Hv as [_ Hv]; [|now rewrite lenN_pads].
      apply holds_app_inv in Hv as [Hv _]; [|now rewrite mem_of_len].
      apply V. eexists; split; eauto.
Qed.

Lemma v_array_loop nb f : zwf f -> v_good nb f -> forall n addr m post,
  (valign f | addr) -> (valign f | size_of f) -> bytes_ok m = true -> lenN m = N.of_nat n * size_of f ->
  let r := (fix go (n : nat) (st : N * bytes) : zres (N * bytes) :=
         match n with
         | O => ZOk st
         | S n =>
             let+ _ := zvalidate nb f (fst st) (snd st) in
             let+ st := v_skip (size_of f) st in
             go n st
         end) n (addr, m ++ post) in
  let P := exists vs, length vs = n /\ Forall (zok f) vs /\ holds (concat (map (mem_of nb f) vs)) m in
  (exists st, r = ZOk st /\ P) \/ (r = ZErr /\ ~ P).
Proof.
  intros W G. induction n as [|n IH]; intros addr m post D DS B L; cbv zeta.
  - left. eexists; split; [reflexivity|]. exists []. repeat split; auto.
    simpl. rewrite N.mul_0_l in L. destruct m; [constructor|unfold lenN in L; simpl in L; lia].
  - rewrite Nat2N.inj_succ, N.mul_succ_l, N.add_comm in L.
    destruct (split_len m (size_of f) _ L) as (body & m2 & -> & Lb & Lm).
    rewrite bytes_ok_app in B. apply andb_prop in B as [B1 B2].
    rewrite <- app_assoc. cbn [fst snd].
    destruct (G addr body (m2 ++ post) D B1 Lb) as [[-> V]|[-> V]]; cbn [zbind].
    + rewrite v_skip_app by auto. cbn [zbind].
      specialize (IH (addr + size_of f) m2 post (N.divide_add_r _ _ _ D DS) DS B2 Lm). cbv zeta in IH.
      destruct IH as [(st & -> & vs & <- & F & Hv)|[-> NV]].
      * left. eexists; split; [reflexivity|]. destruct V as (v & Ov & Hb).
        exists (v :: vs). repeat split; auto. cbn [map concat]. now apply holds_app_intro.
      * right. split; auto. intros ([|v vs] & LE & F & Hv); [discriminate|]. cbn [map concat] in Hv.
        inversion F; subst. simpl in LE. inversion LE; subst.
        apply holds_app_inv in Hv as [_ Hv]; [|now rewrite mem_of_len].
        apply NV. eauto.
    + right. split; auto. intros ([|v vs] & LE & F & Hv); [discriminate|]. cbn [map concat] in Hv.
      inversion F; subst.
      apply holds_app_inv in Hv as [Hv _]; [|now rewrite mem_of_len].
      apply V. eexists; eauto.
Qed.

Lemma int_mem_mem bo bs : bytes_ok bs = true -> int_mem bo (length bs) (mem_int bo bs) = bs.
Proof.
  intros B. unfold int_mem, mem_int. destruct bo.
  - now apply to_le_of_le.
  - rewrite <- (rev_length bs). rewrite to_le_of_le.
    + apply rev_involutive.
    + unfold bytes_ok in *. rewrite forallb_forall in *. intros x I. apply B. now apply in_rev.
Qed.

Lemma mem_int_lt bo bs : bytes_ok bs = true -> mem_int bo bs < 256 ^ lenN bs.
Proof.
  intros B. unfold mem_int. destruct bo; [now apply of_le_lt|].
  assert (lenN bs = lenN (rev bs)) as -> by (unfold lenN; now rewrite rev_length).
  apply of_le_lt. unfold bytes_ok in *. rewrite forallb_forall in *. intros x I. apply B. now apply in_rev.
Qed.

Lemma fin_max_le (f : zty) fs a : In f fs -> align_of f <= fold_right (fun f a => N.max (align_of f) a) a fs.
Proof. induction fs as [|g fs IH]; simpl; [intros []|]. intros [->|I]; [lia|]. specialize (IH I). lia. Qed.
Lemma fold_max_ge fs a : a <= fold_right (fun (f : zty) a => N.max (align_of f) a) a fs.
Proof. induction fs as [|g fs IH]; simpl; lia. Qed.

Lemma valign_enum_field vs i d fs f dal :
  nth_error vs i = Some (d, fs) -> In f fs ->
  align_of f <= fold_right (fun (dv : N * list zty) a => fold_right (fun f a => N.max (align_of f) a) a (snd dv)) dal vs.
Proof.
  revert i; induction vs as [|[d' gs] vs IH]; intros [|i] NE I; try discriminate; simpl in *.
  - inversion NE; subst. now apply fin_max_le.
  - specialize (IH i NE I). etransitivity; [exact IH|]. apply fold_max_ge.
Qed.

Lemma valign_enum_dal (vs : list (N * list zty)) dal :
  dal <= fold_right (fun (dv : N * list zty) a => fold_right (fun f a => N.max (align_of f) a) a (snd dv)) dal vs.
Proof.
  induction vs as [|[d gs] vs IH]; simpl; [lia|]. etransitivity; [exact IH|]. apply fold_max_ge.
Qed.

Lemma holds_tail l n m : holds (l ++ pads n) m <-> exists a b, m = a ++ b /\ holds l a /\ lenN b = n.
Proof.
  split.
  - intros H. apply holds_app in H as (a & b & -> & A & B). exists a, b. repeat split; auto.
    now rewrite (holds_len _ _ B), lenN_pads.
  - intros (a & b & -> & A & B). apply holds_app_intro; auto. now apply holds_pads.
Qed.

Definition vsel (nb : ByteOrder) (d : N) (st : N * bytes) : list (N * list zty) -> zres unit :=
  fix sel vs :=
    match vs with
    | [] => ZErr
    | (d', fs) :: r =>
        if d =? d' then let+ _ := v_loop nb None fs st in ZOk tt else sel r
    end.

Lemma zvalidate_enum nb dw dal al vs sw addr rest :
  zvalidate nb (ZEnum dw dal al vs sw) addr rest =
  let+ st := v_align dal (addr, rest) in
  match take_opt (N.of_nat dw) (snd st) with
  | None => ZUb
  | Some (db, rest) => vsel nb (mem_int nb db) (fst st + N.of_nat dw, rest) vs
  end.
Proof.
  cbn [zvalidate].
  assert (E : forall fs st,
    (fix go (fs : list zty) (st : N * bytes) {struct fs} : zres (N * bytes) :=
         match fs with
         | [] => ZOk st
         | f :: fs =>
             let+ st := v_with (align_of f) (size_of f) (zvalidate nb f) st in
             go fs st
         end) fs st = v_loop nb None fs st).
  { clear. induction fs as [|f fs IH]; intros st; cbn [v_loop]; auto.
    change (align_of f) with (pad_al None f).
    destruct (v_with _ _ _ st); cbn [zbind]; auto. }
  destruct (v_align dal (addr, rest)) as [st| | |]; cbn [zbind]; auto.
  destruct (take_opt (N.of_nat dw) (snd st)) as [[db r]|]; auto. cbv zeta.
  induction vs as [|[d' fs] vs IH]; simpl; auto. rewrite E, IH. reflexivity.
Qed.

Lemma vsel_hit nb d st vs i fs : NoDup (map fst vs) -> nth_error vs i = Some (d, fs) ->
  vsel nb d st vs = let+ _ := v_loop nb None fs st in ZOk tt.
Proof.
  revert i; induction vs as [|[d' gs] vs IH]; intros [|i] ND NE; try discriminate; simpl in *.
  - inversion NE; subst. now rewrite N.eqb_refl.
  - inversion ND as [|? ? NI ND']; subst. destruct (N.eqb_spec d d') as [->|_]; eauto.
    exfalso. apply NI. apply nth_error_In in NE. now apply (in_map fst) in NE.
Qed.

Lemma vsel_miss nb d st vs : ~ In d (map fst vs) -> vsel nb d st vs = ZErr.
Proof.
  induction vs as [|[d' gs] vs IH]; simpl; intros H; auto.
  destruct (N.eqb_spec d d') as [->|_]; [tauto|]. apply IH. tauto.
Qed.

Lemma NoDup_nth_fst {A B} (vs : list (A * B)) i j d x y :
  NoDup (map fst vs) -> nth_error vs i = Some (d, x) -> nth_error vs j = Some (d, y) -> i = j.
Proof.
  intros ND I J. pose proof (proj1 (NoDup_nth_error (map fst vs)) ND i j) as H.
  apply H.
  - rewrite map_length. apply nth_error_Some. congruence.
  - now rewrite (map_nth_error fst _ _ I), (map_nth_error fst _ _ J).
Qed.

Lemma zvalidate_spec nb t : zwf t -> pk_ok t -> vpk_ok t -> v_good nb t.
Proof.
  induction t as [w al|w al| | | |t n IH|pk al fs IH|dw dal al vs sw IH|t IH] using zty_ind';
    intros W PK VK addr m post D B L.
  - left. split; auto. cbn [size_of] in L. exists (VI (mem_int nb m)). split.
    + constructor. rewrite <- L. now apply mem_int_lt.
    + cbn [mem_of]. replace w with (length m) by (unfold lenN in L; lia).
      rewrite int_mem_mem by auto. apply holds_some_intro.
  - cbn [size_of] in L. unfold decided. cbn [zvalidate]. rewrite <- L, take_opt_app.
    destruct (N.eqb_spec (mem_int nb m) 0) as [E|E].
    + right. split; auto. intros (v & O & H). inversion O; subst. cbn [mem_of] in H.
      apply holds_some in H. subst m. rewrite mem_int_mem in E by auto. congruence.
    + left. split; auto. exists (VI (mem_int nb m)). split.
      * constructor; auto. rewrite <- L. now apply mem_int_lt.
      * cbn [mem_of]. replace w with (length m) by (unfold lenN in L; lia).
        rewrite int_mem_mem by auto. apply holds_some_intro.
  - cbn [size_of] in L. destruct m as [|b [|]]; try (unfold lenN in L; simpl in L; lia).
    unfold decided. cbn [zvalidate app].
    destruct (N.eqb_spec b 0) as [->|E0]; [|destruct (N.eqb_spec b 1) as [->|E1]]; cbn [orb].
    + left. split; auto. exists (VB false). split; constructor; auto.
    + left. split; auto. exists (VB true). split; constructor; auto.
    + right. split; auto. intros (v & O & H). inversion O; subst. inversion H; subst.
      destruct b0; congruence.
  - cbn [size_of] in L. unfold decided. cbn [zvalidate]. rewrite <- L, take_opt_app.
    destruct (char_valid (mem_int nb m)) eqn:E.
    + left. split; auto. exists (VC (mem_int nb m)). split; [now constructor|].
      cbn [mem_of]. replace 4%nat with (length m) by (unfold lenN in L; lia).
      rewrite int_mem_mem by auto. apply holds_some_intro.
    + right. split; auto. intros (v & O & H). inversion O as [| | |c CV| | | | |]; subst. cbn [mem_of] in H.
      apply holds_some in H. subst m. rewrite mem_int_mem in E; [congruence|].
      change (256 ^ N.of_nat 4) with 4294967296. unfold char_valid, between in CV. lia.
  - left. split; auto. cbn [size_of] in L. exists VU. split; [constructor|].
    destruct m; [constructor|unfold lenN in L; simpl in L; lia].
  - assert (Wt : zwf t) by (inversion W; auto). assert (Kt : pk_ok t) by (inversion PK; auto).
    assert (Vt : vpk_ok t) by (inversion VK; auto).
    cbn [size_of valign] in *.
    assert (DS : (valign t | size_of t)).
    { eapply N.divide_trans; [apply valign_divide; auto|]. now apply size_divide. }
    pose proof (v_array_loop nb t Wt (IH Wt Kt Vt) n addr m post D DS B L) as S. cbv zeta in S.
    unfold decided. cbn [zvalidate].
    destruct S as [(st & E & vs & LE & F & H)|[E NV]].
    + left. split; [bind_with E; reflexivity|]. exists (VArr vs). split; [now constructor|]. exact H.
    + right. split; [bind_with E; reflexivity|]. intros (v & O & H). inversion O; subst. apply NV. eauto.
  - assert (FW : Forall zwf fs) by (inversion W; auto).
    assert (FP : forall p, pk = Some p -> pow2 p) by (inversion W; auto).
    assert (FK : Forall pk_ok fs) by (inversion PK; auto).
    assert (FV : Forall vpk_ok fs) by (inversion VK; auto).
    assert (PA : forall p f, pk = Some p -> In f fs -> p <= align_of f) by (inversion PK; auto).
    assert (VA : forall p f, pk = Some p -> In f fs -> valign f <= p) by (inversion VK; auto).
    assert (G : Forall (v_good nb) fs).
    { clear - IH FW FK FV. revert IH FW FK FV. induction fs; intros I1 I2 I3 I4; constructor;
        inversion I1; inversion I2; inversion I3; inversion I4; subst; auto. }
    assert (PD : forall f, In f fs -> (pad_al pk f | addr)).
    { intros f I. eapply N.divide_trans; [|exact D]. apply pow2_divide; auto using valign_pow2.
      - rewrite Forall_forall in FW. destruct pk; cbn [pad_al]; auto using align_pow2.
      - cbn [valign]. clear - I. induction fs as [|g fs IHf]; simpl in *; [tauto|].
        destruct I as [->|I]; [unfold pad_al; lia|]. specialize (IHf I). lia. }
    pose proof (round_up_ge (end_of pk 0 fs) (align_of (ZStruct pk al fs)) (pow2_pos _ (align_pow2 _ W))) as RG.
    pose proof L as L'. rewrite size_struct in L'.
    destruct (split_len m (end_of pk 0 fs) (lenN m - end_of pk 0 fs) ltac:(lia)) as (b & tl & -> & Lb & Lt).
    rewrite bytes_ok_app in B. apply andb_prop in B as [B1 B2].
    assert (PE : valid_pattern nb (ZStruct pk al fs) (b ++ tl) <-> fields_pattern nb pk 0 fs b).
    { split.
      - intros (v & O & H). inversion O; subst. rewrite mem_struct in H.
        pose proof (mem_fields_len' nb pk fs vs FP FW ltac:(auto) 0) as E.
        apply holds_app_inv in H as [H _]; [|lia]. eexists; eauto.
      - intros (vs & F2 & H). exists (VSt vs). split; [now constructor|]. rewrite mem_struct.
        pose proof (mem_fields_len' nb pk fs vs FP FW F2 0) as E.
        apply holds_app_intro; auto. apply holds_pads. rewrite lenN_app in L. lia. }
    unfold decided. rewrite PE, zvalidate_struct, <- app_assoc.
    destruct (v_loop_spec nb pk fs FP FW FK PA VA G addr 0 b (tl ++ post) PD B1 ltac:(lia)) as [[E V]|[E V]];
      rewrite N.add_0_r in E; [left|right]; (split; [bind_with E; reflexivity|auto]).
  - pose proof (valign_enum_dal vs dal) as VD.
    assert (PD : pow2 dal) by (inversion W; auto).
    assert (DD : (dal | addr)).
    { eapply N.divide_trans; [|exact D]. apply pow2_divide; auto using valign_pow2. }
    assert (ND : NoDup (map fst vs)) by (inversion W; auto).
    assert (DL : Forall (fun dv => fst dv < 256 ^ N.of_nat dw) vs) by (inversion W; auto).
    assert (FWs : Forall (fun dv => Forall zwf (snd dv)) vs) by (inversion W; auto).
    assert (FKs : Forall (fun dv => Forall pk_ok (snd dv)) vs) by (inversion PK; auto).
    assert (FVs : Forall (fun dv => Forall vpk_ok (snd dv)) vs) by (inversion VK; auto).
    pose proof (round_up_ge (vmax (N.of_nat dw) vs) (align_of (ZEnum dw dal al vs sw))
                  (pow2_pos _ (align_pow2 _ W))) as RG.
    pose proof L as L'. rewrite size_enum in L'.
    assert (VG : N.of_nat dw <= vmax (N.of_nat dw) vs).
    { clear. induction vs; simpl; lia. }
    destruct (split_len m (N.of_nat dw) (lenN m - N.of_nat dw) ltac:(lia)) as (db & m' & -> & Ldb & Lm').
    rewrite bytes_ok_app in B. apply andb_prop in B as [B1 B].
    unfold decided. rewrite zvalidate_enum.
    assert (VL : v_align dal (addr, (db ++ m') ++ post) = ZOk (addr, db ++ m' ++ post)).
    { unfold v_align. cbn [fst]. rewrite padding_to_spec, round_up_same, N.sub_diag by auto using pow2_pos.
      rewrite <- app_assoc. change (db ++ m' ++ post) with (([] : bytes) ++ db ++ m' ++ post) at 1.
      rewrite v_skip_app by reflexivity. now rewrite N.add_0_r. }
    unfold bytes in *. rewrite VL. cbn [zbind fst snd]. rewrite <- Ldb, take_opt_app, Ldb.
    assert (DB : int_mem nb dw (mem_int nb db) = db).
    { replace dw with (length db) by (unfold lenN in Ldb; lia). now apply int_mem_mem. }
    set (d := mem_int nb db) in *.
    destruct (in_dec N.eq_dec d (map fst vs)) as [I|NI].
    + apply in_map_iff in I as ([d' fs] & Ed & I). simpl in Ed. subst d'.
      apply In_nth_error in I as (i & NE).
      rewrite (vsel_hit _ _ _ _ _ _ ND NE).
      pose proof (nth_error_Forall _ _ _ _ FWs NE) as FW. pose proof (nth_error_Forall _ _ _ _ FKs NE) as FK.
      pose proof (nth_error_Forall _ _ _ _ FVs NE) as FV. pose proof (nth_error_Forall _ _ _ _ IH NE) as I1.
      cbn [snd] in *.
      assert (G : Forall (v_good nb) fs).
      { clear - I1 FW FK FV. revert I1 FW FK FV. induction fs; intros J1 I2 I3 I4; constructor;
          inversion J1; inversion I2; inversion I3; inversion I4; subst; auto. }
      pose proof (vmax_ge (N.of_nat dw) vs i d fs NE) as VG2.
      pose proof (end_of_ge None fs ltac:(discriminate) FW (N.of_nat dw)) as EG.
      destruct (split_len m' (end_of None (N.of_nat dw) fs - N.of_nat dw)
                  (lenN m' - (end_of None (N.of_nat dw) fs - N.of_nat dw)) ltac:(lia))
        as (b & tl & -> & Lb & Lt).
      rewrite bytes_ok_app in B. apply andb_prop in B as [B2 B3].
      assert (PE : valid_pattern nb (ZEnum dw dal al vs sw) (db ++ b ++ tl)
                   <-> fields_pattern nb None (N.of_nat dw) fs b).
      { split.
        - intros (v & O & H). inversion O as [| | | | | | |? ? ? ? ? j d2 gs xs NE2 F2|]; subst v.
          rewrite (mem_enum _ _ _ _ _ _ _ _ _ _ NE2) in H. cbv zeta in H. rewrite <- app_assoc in H.
          apply holds_app_inv in H as [HD HR]; [|now rewrite lenN_map, int_mem_len].
          apply holds_some in HD.
          assert (d2 = d).
          { unfold d. rewrite HD, mem_int_mem; auto. exact (nth_error_Forall _ _ _ _ DL NE2). }
          subst d2. pose proof (NoDup_nth_fst _ _ _ _ _ _ ND NE NE2). subst j.
          assert (gs = fs) by congruence. subst gs.
          pose proof (mem_fields_len' nb None fs xs ltac:(discriminate) FW F2 (N.of_nat dw)) as E.
          apply holds_app_inv in HR as [HR _]; [|lia]. eexists; eauto.
        - intros (xs & F2 & H). exists (VEn i xs). split; [econstructor; eauto|].
          rewrite (mem_enum _ _ _ _ _ _ _ _ _ _ NE). cbv zeta. rewrite <- app_assoc.
          pose proof (mem_fields_len' nb None fs xs ltac:(discriminate) FW F2 (N.of_nat dw)) as E.
          apply holds_app_intro.
          + rewrite DB. apply holds_some_intro.
          + apply holds_app_intro; auto. apply holds_pads.
            rewrite !lenN_app, lenN_map, int_mem_len in *. lia. }
      rewrite PE, <- app_assoc.
      assert (AD : forall f, In f fs -> (pad_al None f | addr)).
      { intros f If. eapply N.divide_trans; [|exact D]. cbn [pad_al].
        rewrite Forall_forall in FW. apply pow2_divide; auto using valign_pow2, align_pow2.
        cbn [valign]. eapply valign_enum_field; eauto. }
      destruct (v_loop_spec nb None fs ltac:(discriminate) FW FK ltac:(discriminate) ltac:(discriminate) G
                  addr (N.of_nat dw) b (tl ++ post) AD B2 ltac:(lia)) as [[E V]|[E V]];
        [left|right]; (split; [bind_with E; reflexivity|auto]).
    + rewrite vsel_miss by auto. right. split; auto.
      intros (v & O & H). inversion O as [| | | | | | |? ? ? ? ? j d2 gs xs NE2 F2|]; subst v.
      rewrite (mem_enum _ _ _ _ _ _ _ _ _ _ NE2) in H. cbv zeta in H. rewrite <- app_assoc in H.
      apply holds_app_inv in H as [HD HR]; [|now rewrite lenN_map, int_mem_len].
      apply holds_some in HD. apply NI.
      assert (d = d2) as ->.
      { unfold d. rewrite HD, mem_int_mem; auto. exact (nth_error_Forall _ _ _ _ DL NE2). }
      apply nth_error_In in NE2. now apply (in_map fst) in NE2.
  - assert (Wt : zwf t) by (inversion W; auto). assert (Kt : pk_ok t) by (inversion PK; auto).
    assert (Vt : vpk_ok t) by (inversion VK; auto). cbn [valign size_of] in *.
    destruct (IH Wt Kt Vt addr m post D B L) as [[E V]|[E V]].
    + left. split; auto. destruct V as (v & O & H). exists v. split; [now constructor|]. exact H.
    + right. split; auto. intros (v & O & H). apply V. inversion O; subst. exists v. split; auto.
Qed.

(** A type which accepts any bits really does. *)
Lemma any_bits_valid nb t : zwf t -> any_bits t = true -> forall m,
  bytes_ok m = true -> lenN m = size_of t -> valid_pattern nb t m.
Proof.
  induction t as [w al|w al| | | |t n IH|pk al fs IH|dw dal al vs sw IH|t IH] using zty_ind';
    intros W A m B L; try discriminate.
  - cbn [size_of] in L. exists (VI (mem_int nb m)). split.
    + constructor. rewrite <- L. now apply mem_int_lt.
    + cbn [mem_of]. replace w with (length m) by (unfold lenN in L; lia).
      rewrite int_mem_mem by auto. apply holds_some_intro.
  - cbn [size_of] in L. exists VU. split; [constructor|].
    destruct m; [constructor|unfold lenN in L; simpl in L; lia].
  - cbn [any_bits size_of] in *. assert (Wt : zwf t) by (inversion W; auto). clear W.
    assert (E : exists vs, length vs = n /\ Forall (zok t) vs /\ holds (concat (map (mem_of nb t) vs)) m).
    { revert m B L. induction n as [|n IHn]; intros m B L.
      - exists []. repeat split; auto. rewrite N.mul_0_l in L.
        destruct m; [constructor|unfold lenN in L; simpl in L; lia].
      - rewrite Nat2N.inj_succ, N.mul_succ_l, N.add_comm in L.
        destruct (split_len m _ _ L) as (b & m2 & -> & Lb & Lm).
        rewrite bytes_ok_app in B. apply andb_prop in B as [B1 B2].
        destruct (IH Wt A b B1 Lb) as (v & O & H). destruct (IHn m2 B2 Lm) as (vs & <- & F & Hv).
        exists (v :: vs). repeat split; auto. cbn [map concat]. now apply holds_app_intro. }
    destruct E as (vs & LE & F & H). exists (VArr vs). split; [now constructor|]. exact H.
  - cbn [any_bits] in A.
    assert (FW : Forall zwf fs) by (inversion W; auto).
    assert (FP : forall p, pk = Some p -> pow2 p) by (inversion W; auto).
    pose proof (round_up_ge (end_of pk 0 fs) (align_of (ZStruct pk al fs)) (pow2_pos _ (align_pow2 _ W))) as RG.
    pose proof L as L'. rewrite size_struct in L'.
    destruct (split_len m (end_of pk 0 fs) (lenN m - end_of pk 0 fs) ltac:(lia)) as (b & tl & -> & Lb & Lt).
    rewrite bytes_ok_app in B. apply andb_prop in B as [B1 B2].
    assert (E : forall off b, bytes_ok b = true -> off + lenN b = end_of pk off fs -> fields_pattern nb pk off fs b).
    { clear - IH FW FP A. revert IH A. induction FW as [|f fs Wf FW IHf]; intros I A off b B L.
      - exists []. split; [constructor|]. simpl in *. destruct b; [constructor|unfold lenN in L; simpl in L; lia].
      - inversion I as [|? ? If I']; subst. cbn [forallb] in A. apply andb_prop in A as [Af A].
        cbn [end_of] in L.
        assert (GE : off <= place pk off f) by (apply round_up_ge, pow2_pos, cap_pow2; auto).
        pose proof (end_of_ge pk fs FP FW (place pk off f + size_of f)) as EG.
        destruct (split_len b (place pk off f - off) (lenN b - (place pk off f - off)) ltac:(lia))
          as (pd & m' & -> & Lpd & Lm').
        rewrite lenN_app in L, Lm'.
        destruct (split_len m' (size_of f) (lenN m' - size_of f) ltac:(lia)) as (body & m2 & -> & Lb & Lm2).
        rewrite !bytes_ok_app in B. apply andb_prop in B as [B1 B]. apply andb_prop in B as [B2 B3].
        rewrite lenN_app in *.
        destruct (If Wf Af body B2 Lb) as (v & Ov & Hb).
        destruct (IHf I' A (place pk off f + size_of f) m2 B3 ltac:(lia)) as (vs & F2 & Hv).
        exists (v :: vs). split; [constructor; auto|]. cbn [mem_fields].
        apply holds_app_intro; [apply holds_pads; auto|]. apply holds_app_intro; auto. }
    destruct (E 0 b B1 ltac:(lia)) as (vs & F2 & H).
    exists (VSt vs). split; [now constructor|]. rewrite mem_struct.
    pose proof (mem_fields_len' nb pk fs vs FP FW F2 0) as EL.
    apply holds_app_intro; auto. apply holds_pads. rewrite lenN_app in L. lia.
  - cbn [any_bits size_of] in *. assert (Wt : zwf t) by (inversion W; auto).
    destruct (IH Wt A m B L) as (v & O & H). exists v. split; [now constructor|]. exact H.
Qed.
