(** Facts about zero-copy layout, padding, validation and byte swapping. *)
From Coq Require Import Lia.
From Verif Require Import Base BaseFacts Options Int IntFacts Utf8 Zc ZcSpec.
Local Open Scope N_scope.

Section ZtyInd.
  Variable P : zty -> Prop.
  Hypothesis HInt : forall w al, P (ZInt w al).
  Hypothesis HNz : forall w al, P (ZNonZero w al).
  Hypothesis HBool : P ZBool.
  Hypothesis HChar : P ZChar.
  Hypothesis HUnit : P ZUnit.
  Hypothesis HArray : forall t n, P t -> P (ZArray t n).
  Hypothesis HStruct : forall pk al fs, Forall P fs -> P (ZStruct pk al fs).
  Hypothesis HEnum : forall dw dal al vs sw, Forall (fun dv => Forall P (snd dv)) vs -> P (ZEnum dw dal al vs sw).
  Hypothesis HSelf : forall t, P t -> P (ZSelf t).

  Fixpoint zty_ind' (t : zty) : P t :=
    match t with
    | ZInt w al => HInt w al | ZNonZero w al => HNz w al
    | ZBool => HBool | ZChar => HChar | ZUnit => HUnit
    | ZArray t n => HArray t n (zty_ind' t)
    | ZStruct pk al fs =>
        HStruct pk al fs ((fix go fs : Forall P fs :=
          match fs with [] => Forall_nil _ | f :: r => Forall_cons _ (zty_ind' f) (go r) end) fs)
    | ZEnum dw dal al vs sw =>
        HEnum dw dal al vs sw ((fix sel vs : Forall (fun dv => Forall P (snd dv)) vs :=
          match vs with
          | [] => Forall_nil _
          | dv :: r =>
              Forall_cons _ ((fix go fs : Forall P fs :=
                match fs with [] => Forall_nil _ | f :: r => Forall_cons _ (zty_ind' f) (go r) end) (snd dv))
                (sel r)
          end) vs)
    | ZSelf t => HSelf t (zty_ind' t)
    end.
End ZtyInd.

(** ** Arithmetic *)

Lemma pow2_pos a : pow2 a -> 0 < a.
Proof. intros [k ->]. apply N.neq_0_lt_0, N.pow_nonzero. discriminate. Qed.

Lemma pow2_1 : pow2 1.
Proof. now exists 0. Qed.

Lemma pow2_max a b : pow2 a -> pow2 b -> pow2 (N.max a b).
Proof. intros A B. destruct (N.max_spec a b) as [[_ ->]|[_ ->]]; auto. Qed.

Lemma pow2_min a b : pow2 a -> pow2 b -> pow2 (N.min a b).
Proof. intros A B. destruct (N.min_spec a b) as [[_ ->]|[_ ->]]; auto. Qed.

Lemma pow2_divide a b : pow2 a -> pow2 b -> a <= b -> (a | b).
Proof.
  intros [i ->] [j ->] L.
  assert (i <= j).
  { destruct (N.le_gt_cases i j) as [|G]; auto.
    apply (N.pow_lt_mono_r 2) in G; lia. }
  exists (2 ^ (j - i)). rewrite <- N.pow_add_r. f_equal. lia.
Qed.

Lemma round_up_ge n al : 0 < al -> n <= round_up n al.
Proof.
  intros P. unfold round_up.
  pose proof (N.div_mod (n + al - 1) al ltac:(lia)) as D.
  pose proof (N.mod_lt (n + al - 1) al ltac:(lia)) as M. nia.
Qed.

Lemma round_up_divide n al : (al | round_up n al).
Proof. unfold round_up. apply N.divide_factor_r. Qed.

Lemma round_up_same n al : 0 < al -> (al | n) -> round_up n al = n.
Proof.
  intros P [q ->]. unfold round_up.
  replace (q * al + al - 1) with (q * al + (al - 1)) by lia.
  rewrite N.div_add_l by lia. rewrite (N.div_small (al - 1) al) by lia. lia.
Qed.

Lemma round_up_lt n al : 0 < al -> round_up n al < n + al.
Proof.
  intros P. unfold round_up.
  pose proof (N.div_mod (n + al - 1) al ltac:(lia)) as D. nia.
Qed.

Lemma round_up_add n k al : 0 < al -> (al | k) -> round_up (k + n) al = k + round_up n al.
Proof.
  intros P [q ->]. unfold round_up.
  replace (q * al + n + al - 1) with (q * al + (n + al - 1)) by lia.
  rewrite N.div_add_l by lia. lia.
Qed.

Lemma padding_to_spec n al : pow2 al -> padding_to n al = round_up n al - n.
Proof.
  intros [k ->]. unfold padding_to, round_up.
  set (al := 2 ^ k). assert (P : 0 < al) by (apply pow2_pos; now exists k).
  replace (al - 1) with (N.ones k) by (rewrite N.ones_equiv; unfold al; lia).
  rewrite !N.land_ones. fold al.
  pose proof (N.div_mod n al ltac:(lia)) as D.
  pose proof (N.mod_lt n al ltac:(lia)) as M.
  set (q := n / al) in *. set (r := n mod al) in *.
  destruct (N.eq_dec r 0) as [R|R].
  - rewrite R, N.sub_0_r, N.mod_same by lia.
    replace (n + al - 1) with (q * al + (al - 1)) by lia.
    rewrite N.div_add_l by lia. rewrite (N.div_small (al - 1) al) by lia. lia.
  - rewrite N.mod_small by lia.
    replace (n + al - 1) with ((q + 1) * al + (r - 1)) by lia.
    rewrite N.div_add_l by lia. rewrite (N.div_small (r - 1) al) by lia. lia.
Qed.

Lemma padding_to_add n k al : pow2 al -> (al | k) -> padding_to (k + n) al = padding_to n al.
Proof.
  intros P D. pose proof (pow2_pos _ P). rewrite !padding_to_spec by auto.
  rewrite round_up_add by auto. lia.
Qed.

Lemma padding_to_lt n al : pow2 al -> padding_to n al < al.
Proof.
  intros P. pose proof (pow2_pos _ P). rewrite padding_to_spec by auto.
  pose proof (round_up_lt n al ltac:(lia)). pose proof (round_up_ge n al ltac:(lia)). lia.
Qed.

(** ** Named versions of the local loops *)

Definition place (pk : option N) (off : N) (f : zty) : N :=
  round_up off (cap_al pk (align_of f)).

Fixpoint mem_fields (bo : ByteOrder) (pk : option N) (off : N) (fs : list zty) (vs : list zval)
  : list (option N) :=
  match fs, vs with
  | f :: fs, v :: vs =>
      pads (place pk off f - off) ++ mem_of bo f v ++
      mem_fields bo pk (place pk off f + size_of f) fs vs
  | _, _ => []
  end.

Fixpoint end_of (pk : option N) (off : N) (fs : list zty) : N :=
  match fs with
  | [] => off
  | f :: fs => end_of pk (place pk off f + size_of f) fs
  end.

Lemma end_of_fold pk off fs :
  fold_left (fun off f => round_up off (cap_al pk (align_of f)) + size_of f) fs off = end_of pk off fs.
Proof. revert off; induction fs as [|f fs IH]; intros off; simpl; auto. Qed.

Lemma mem_struct bo pk al fs vs :
  mem_of bo (ZStruct pk al fs) (VSt vs) =
  mem_fields bo pk 0 fs vs ++ pads (size_of (ZStruct pk al fs) - lenN (mem_fields bo pk 0 fs vs)).
Proof.
  cbn [mem_of].
  assert (E : forall off,
    (fix go (off : N) (fs : list zty) (vs : list zval) {struct fs} : list (option N) :=
           match fs, vs with
           | f :: fs, v :: vs =>
               let o := round_up off (cap_al pk (align_of f)) in
               pads (o - off) ++ mem_of bo f v ++ go (o + size_of f) fs vs
           | _, _ => []
           end) off fs vs = mem_fields bo pk off fs vs).
  { revert vs; induction fs as [|f fs IH]; intros [|v vs] off; cbn [mem_fields]; auto.
    cbv zeta. now rewrite IH. }
  cbv zeta. now rewrite E.
Qed.

Lemma mem_enum bo dw dal al vars sw i vs d fs :
  nth_error vars i = Some (d, fs) ->
  mem_of bo (ZEnum dw dal al vars sw) (VEn i vs) =
  let body := map Some (int_mem bo dw d) ++ mem_fields bo None (N.of_nat dw) fs vs in
  body ++ pads (size_of (ZEnum dw dal al vars sw) - lenN body).
Proof.
  intros E. cbn [mem_of].
  set (T := size_of _). clearbody T.
  assert (G : forall fs vs off,
    (fix go (off : N) (fs : list zty) (vs : list zval) {struct fs} : list (option N) :=
           match fs, vs with
           | f :: fs, v :: vs =>
               let o := round_up off (align_of f) in
               pads (o - off) ++ mem_of bo f v ++ go (o + size_of f) fs vs
           | _, _ => []
           end) off fs vs = mem_fields bo None off fs vs).
  { clear. induction fs as [|f fs IH]; intros [|v vs] off; cbn [mem_fields]; auto.
    cbv zeta. now rewrite IH. }
  cbv zeta. match goal with |- ?B ++ _ = _ =>
    assert (S : B = map Some (int_mem bo dw d) ++ mem_fields bo None (N.of_nat dw) fs vs)
  end.
  { revert i E; induction vars as [|[d' fs'] vars IH]; intros [|i] E; try discriminate.
    - simpl in E. inversion E; subst. now rewrite G.
    - simpl in E. apply IH in E. exact E. }
  cbv zeta. now rewrite S.
Qed.

(** ** Sizes and alignments *)

Lemma align_pow2 t : zwf t -> pow2 (align_of t).
Proof.
  induction t as [w al|w al| | | |t n IH|pk al fs IH|dw dal al vs sw IH|t IH] using zty_ind';
    intros W; inversion W as [? ? ? ?|? ? ? ?| | | |? ? W'|? ? ? P1 P2 F|? ? ? ? ? P1 P2 P3 P4 P5 F|? W'];
    subst; simpl; auto using pow2_1.
  - now exists 2.
  - clear W. induction fs as [|f fs IHf]; simpl.
    + destruct al; simpl; auto using pow2_1.
    + inversion IH; inversion F; subst. apply pow2_max; auto.
      destruct pk; simpl; auto. apply pow2_min; auto.
  - clear W P4 P5. induction vs as [|[d fs] vs IHv]; simpl.
    + apply pow2_max; auto. destruct al; simpl; auto using pow2_1.
    + inversion IH as [|? ? I1 I2]; inversion F as [|? ? F1 F2]; subst. specialize (IHv I2 F2).
      clear - IHv I1 F1. simpl in *. induction fs as [|f fs IHf]; simpl; auto.
      inversion I1; inversion F1; subst. apply pow2_max; auto.
Qed.

Lemma size_divide t : zwf t -> (align_of t | size_of t).
Proof.
  induction t as [w al|w al| | | |t n IH|pk al fs IH|dw dal al vs sw IH|t IH] using zty_ind';
    intros W; inversion W; subst; simpl size_of; auto.
  - exists 1; reflexivity.
  - exists 1; reflexivity.
  - exists 0; reflexivity.
  - simpl. apply N.divide_mul_r. auto.
  - apply round_up_divide.
  - apply round_up_divide.
Qed.

Lemma cap_pow2 pk f : (forall p, pk = Some p -> pow2 p) -> zwf f -> pow2 (cap_al pk (align_of f)).
Proof.
  intros P W. pose proof (align_pow2 _ W). destruct pk; simpl; auto. apply pow2_min; auto.
Qed.

Lemma end_of_ge pk fs : (forall p, pk = Some p -> pow2 p) -> Forall zwf fs ->
  forall off, off <= end_of pk off fs.
Proof.
  intros P F. induction F as [|f fs W F IH]; intros off; cbn [end_of]; [lia|].
  specialize (IH (place pk off f + size_of f)). unfold place in *.
  pose proof (round_up_ge off (cap_al pk (align_of f)) (pow2_pos _ (cap_pow2 _ _ P W))). lia.
Qed.

Lemma lenN_pads n : lenN (pads n) = n.
Proof. unfold lenN, pads. rewrite repeat_length. lia. Qed.

Lemma lenN_map {A B} (f : A -> B) l : lenN (map f l) = lenN l.
Proof. unfold lenN. now rewrite map_length. Qed.

Lemma int_mem_len bo w n : lenN (int_mem bo w n) = N.of_nat w.
Proof. unfold int_mem, lenN. destruct bo; rewrite ?rev_length, to_le_length; auto. Qed.

Definition vmax (dw : N) (vs : list (N * list zty)) : N :=
  fold_right (fun dv m => N.max (end_of None dw (snd dv)) m) dw vs.

Lemma vmax_fold dw (vs : list (N * list zty)) :
  fold_right (fun dv m =>
    N.max (fold_left (fun off f => round_up off (align_of f) + size_of f) (snd dv) dw) m) dw vs
  = vmax dw vs.
Proof.
  induction vs as [|dv vs IH]; simpl; auto. rewrite IH. f_equal.
  exact (end_of_fold None dw (snd dv)).
Qed.

Lemma vmax_ge dw vs i d fs : nth_error vs i = Some (d, fs) -> end_of None dw fs <= vmax dw vs.
Proof.
  revert i; induction vs as [|dv vs IH]; intros [|i] E; try discriminate; simpl in *.
  - inversion E; subst. simpl. lia.
  - apply IH in E. lia.
Qed.

Lemma size_struct pk al fs :
  size_of (ZStruct pk al fs) = round_up (end_of pk 0 fs) (align_of (ZStruct pk al fs)).
Proof. cbn [size_of]. now rewrite end_of_fold. Qed.

Lemma size_enum dw dal al vs sw :
  size_of (ZEnum dw dal al vs sw) =
  round_up (vmax (N.of_nat dw) vs) (align_of (ZEnum dw dal al vs sw)).
Proof. cbn [size_of]. now rewrite vmax_fold. Qed.

Lemma nth_error_Forall {A} (P : A -> Prop) l i x : Forall P l -> nth_error l i = Some x -> P x.
Proof. intros F E. rewrite Forall_forall in F. apply F. eapply nth_error_In; eauto. Qed.

Lemma mem_fields_len bo pk fs vs :
  (forall p, pk = Some p -> pow2 p) -> Forall zwf fs ->
  Forall2 (fun f v => lenN (mem_of bo f v) = size_of f) fs vs ->
  forall off, off + lenN (mem_fields bo pk off fs vs) = end_of pk off fs.
Proof.
  intros P F L. induction L as [|f v fs vs Lf L IH]; intros off; cbn [mem_fields end_of].
  { unfold lenN; simpl; lia. }
  inversion F; subst. rewrite !lenN_app, lenN_pads, Lf.
  specialize (IH ltac:(auto) (place pk off f + size_of f)).
  assert (off <= place pk off f) by (apply round_up_ge, pow2_pos, cap_pow2; auto). lia.
Qed.

Lemma mem_of_len bo t : zwf t -> forall v, zok t v -> lenN (mem_of bo t v) = size_of t.
Proof.
  induction t as [w al|w al| | | |t n IH|pk al fs IH|dw dal al vs sw IH|t IH] using zty_ind';
    intros W v O; inversion O; inversion W; subst; try reflexivity.
  - cbn [mem_of size_of]. rewrite lenN_map. apply int_mem_len.
  - cbn [mem_of size_of]. rewrite lenN_map. apply int_mem_len.
  - cbn [mem_of size_of]. rewrite lenN_map. now rewrite int_mem_len.
  - cbn [mem_of size_of].
    match goal with H : Forall (zok t) ?l |- _ => revert H; clear O W; induction l as [|x l IHl]; intros Hl end.
    + reflexivity.
    + cbn [map concat length]. rewrite lenN_app. inversion Hl; subst.
      rewrite IH, IHl by auto. rewrite Nat2N.inj_succ, N.mul_succ_l. lia.
  - rewrite mem_struct, lenN_app, lenN_pads, size_struct.
    match goal with H : Forall2 zok fs ?vs |- _ => rename H into F2; rename vs into xs end.
    assert (FW : Forall zwf fs) by (inversion W; auto).
    assert (L : Forall2 (fun f v => lenN (mem_of bo f v) = size_of f) fs xs).
    { clear - IH F2 FW. revert IH FW. induction F2; intros I1 I2; constructor;
        inversion I1; inversion I2; subst; auto. }
    pose proof (mem_fields_len bo pk fs xs ltac:(auto) ltac:(auto) L 0) as E.
    pose proof (round_up_ge (end_of pk 0 fs) (align_of (ZStruct pk al fs)) (pow2_pos _ (align_pow2 _ W))).
    lia.
  - match goal with H : nth_error vs i = Some _ |- _ => rename H into NE end.
    rewrite (mem_enum _ _ _ _ _ _ _ _ _ _ NE). cbv zeta.
    rewrite !lenN_app, lenN_pads, lenN_map, int_mem_len, size_enum.
    match goal with H : Forall2 zok ?f ?vs |- _ => rename H into F2; rename vs into xs; rename f into gs end.
    pose proof (nth_error_Forall _ _ _ _ IH NE) as I1. simpl in I1.
    match goal with H : Forall (fun dv => Forall zwf _) _ |- _ => pose proof (nth_error_Forall _ _ _ _ H NE) as I2 end.
    simpl in I2.
    assert (L : Forall2 (fun f v => lenN (mem_of bo f v) = size_of f) gs xs).
    { clear - I1 I2 F2. revert I1 I2. induction F2; intros I1 I2; constructor;
        inversion I1; inversion I2; subst; auto. }
    pose proof (mem_fields_len bo None gs xs ltac:(discriminate) ltac:(auto) L (N.of_nat dw)) as E.
    pose proof (vmax_ge (N.of_nat dw) vs i d gs NE).
    pose proof (round_up_ge (vmax (N.of_nat dw) vs) (align_of (ZEnum dw dal al vs sw))
                  (pow2_pos _ (align_pow2 _ W))).
    lia.
  - cbn [mem_of size_of]. auto.
Qed.

(** ** Layouts without padding *)

Definition full (l : list (option N)) : Prop := map Some (zeroed l) = l.

Lemma zeroed_app a b : zeroed (a ++ b) = zeroed a ++ zeroed b.
Proof. apply map_app. Qed.
Lemma zeroed_some l : zeroed (map Some l) = l.
Proof. unfold zeroed. rewrite map_map. apply map_id. Qed.
Lemma zeroed_pads n : zeroed (pads n) = zeros n.
Proof. unfold zeroed, pads, zeros. induction (N.to_nat n); simpl; congruence. Qed.
Lemma zeroed_len l : lenN (zeroed l) = lenN l.
Proof. apply lenN_map. Qed.
Lemma full_app a b : full a -> full b -> full (a ++ b).
Proof. unfold full. intros A B. now rewrite zeroed_app, map_app, A, B. Qed.
Lemma full_some l : full (map Some l).
Proof. unfold full. now rewrite zeroed_some. Qed.

Lemma holds_app a b m : holds (a ++ b) m -> exists m1 m2, m = m1 ++ m2 /\ holds a m1 /\ holds b m2.
Proof. intros H. apply Forall2_app_inv_l in H as (m1 & m2 & A & B & ->). eauto. Qed.
Lemma holds_app_intro a b m1 m2 : holds a m1 -> holds b m2 -> holds (a ++ b) (m1 ++ m2).
Proof. apply Forall2_app. Qed.
Lemma F2_length {A B} (R : A -> B -> Prop) l m : Forall2 R l m -> length l = length m.
Proof. induction 1; simpl; auto. Qed.
Lemma holds_len l m : holds l m -> lenN m = lenN l.
Proof. intros H. apply F2_length in H. unfold lenN. now rewrite H. Qed.
Lemma holds_some l m : holds (map Some l) m -> m = l.
Proof.
  revert m; induction l as [|x l IH]; intros m H; inversion H; subst; auto. f_equal. now apply IH.
Qed.
Lemma holds_some_intro l : holds (map Some l) l.
Proof. induction l; constructor; auto. Qed.
Lemma holds_pads n m : lenN m = n -> holds (pads n) m.
Proof.
  intros <-. unfold pads, lenN. rewrite Nat2N.id. induction m; simpl; constructor; auto.
Qed.
Lemma holds_full l m : full l -> holds l m -> m = zeroed l.
Proof. intros F H. rewrite <- F in H. now apply holds_some in H. Qed.
Lemma holds_zeroed l : holds l (zeroed l).
Proof. induction l as [|[x|] l IH]; simpl; constructor; auto. Qed.

Fixpoint ssum (off : N) (fs : list zty) : N :=
  match fs with [] => off | f :: fs => ssum (off + size_of f) fs end.
Lemma ssum_fold off fs : fold_left (fun s f => s + size_of f) fs off = ssum off fs.
Proof. revert off; induction fs as [|f fs IH]; intros off; simpl; auto. Qed.
Lemma ssum_add off k fs : ssum (k + off) fs = k + ssum off fs.
Proof.
  revert off; induction fs as [|f fs IH]; intros off; cbn [ssum]; auto.
  rewrite <- IH. f_equal. lia.
Qed.

Lemma ssum_le pk fs : (forall p, pk = Some p -> pow2 p) -> Forall zwf fs ->
  forall off, ssum off fs <= end_of pk off fs.
Proof.
  intros P F. induction F as [|f fs W F IH]; intros off; cbn [ssum end_of]; [lia|].
  specialize (IH (place pk off f + size_of f)).
  assert (off <= place pk off f) by (apply round_up_ge, pow2_pos, cap_pow2; auto).
  replace (place pk off f + size_of f) with ((place pk off f - off) + (off + size_of f)) in IH at 1 by lia.
  rewrite ssum_add in IH. lia.
Qed.

Lemma mem_fields_full bo pk fs vs :
  (forall p, pk = Some p -> pow2 p) -> Forall zwf fs ->
  Forall2 (fun f v => full (mem_of bo f v)) fs vs ->
  forall off, end_of pk off fs <= ssum off fs -> full (mem_fields bo pk off fs vs).
Proof.
  intros P F L. induction L as [|f v fs vs Lf L IH]; intros off E; cbn [mem_fields]; [reflexivity|].
  inversion F; subst. cbn [ssum end_of] in E.
  assert (G : off <= place pk off f) by (apply round_up_ge, pow2_pos, cap_pow2; auto).
  pose proof (ssum_le pk fs P ltac:(auto) (place pk off f + size_of f)) as S.
  replace (place pk off f + size_of f) with ((place pk off f - off) + (off + size_of f)) in S at 1 by lia.
  rewrite ssum_add in S.
  assert (Z : place pk off f - off = 0) by lia. rewrite Z. unfold pads at 1; simpl.
  apply full_app; auto. apply IH; auto.
  assert (place pk off f = off) as -> by lia.
  replace (place pk off f) with off in E by lia. lia.
Qed.

Lemma existsb_false_Forall {A} (f : A -> bool) l : existsb f l = false -> Forall (fun x => f x = false) l.
Proof.
  induction l as [|x l IH]; simpl; intros H; constructor; apply Bool.orb_false_iff in H; tauto.
Qed.

Lemma not_padded_full bo t : zwf t -> padded t = false -> forall v, zok t v -> full (mem_of bo t v).
Proof.
  induction t as [w al|w al| | | |t n IH|pk al fs IH|dw dal al vs sw IH|t IH] using zty_ind';
    intros W PD v O; inversion O; subst; cbn [mem_of]; try apply full_some; try reflexivity.
  - match goal with H : Forall (zok t) _ |- _ => rename H into F end.
    cbn in PD. assert (zwf t) by (inversion W; auto). clear W O.
    induction F as [|x l Hx F IHl]; simpl; [reflexivity|]. apply full_app; auto.
  - match goal with H : Forall2 zok fs ?vs |- _ => rename H into F2; rename vs into xs end.
    change (full (mem_of bo (ZStruct pk al fs) (VSt xs))). rewrite mem_struct.
    assert (FW : Forall zwf fs) by (inversion W; auto).
    assert (FP : forall p, pk = Some p -> pow2 p) by (inversion W; auto).
    pose proof (mem_of_len bo _ W _ O) as LN. rewrite mem_struct, lenN_app, lenN_pads in LN.
    cbn [padded] in PD. apply Bool.orb_false_iff in PD as [PD PF].
    rewrite ssum_fold in PD. apply N.ltb_ge in PD. apply existsb_false_Forall in PF.
    assert (L : Forall2 (fun f v => lenN (mem_of bo f v) = size_of f) fs xs).
    { clear - F2 FW. revert FW. induction F2; intros I2; constructor;
        inversion I2; subst; auto using mem_of_len. }
    pose proof (mem_fields_len bo pk fs xs FP FW L 0) as LM. rewrite N.add_0_l in LM.
    pose proof (ssum_le pk fs FP FW 0) as SL.
    rewrite size_struct in *.
    pose proof (round_up_ge (end_of pk 0 fs) (align_of (ZStruct pk al fs)) (pow2_pos _ (align_pow2 _ W))) as RG.
    set (R := round_up (end_of pk 0 fs) (align_of (ZStruct pk al fs))) in *. clearbody R.
    apply full_app.
    + apply mem_fields_full; auto; [|lia].
      clear - IH F2 FW PF. revert IH FW PF. induction F2; intros I1 I2 I3; constructor;
        inversion I1; inversion I2; inversion I3; subst; auto.
    + replace (R - lenN (mem_fields bo pk 0 fs xs)) with 0 by lia. reflexivity.
  - match goal with H : Forall2 zok ?f ?vs |- _ => rename H into F2; rename vs into xs; rename f into gs end.
    match goal with H : nth_error vs i = Some _ |- _ => rename H into NE end.
    change (full (mem_of bo (ZEnum dw dal al vs sw) (VEn i xs))).
    pose proof (mem_of_len bo _ W _ O) as LN.
    rewrite (mem_enum _ _ _ _ _ _ _ _ _ _ NE) in *. cbv zeta in *.
    rewrite lenN_app, lenN_pads in LN.
    assert (FW : Forall zwf gs).
    { inversion W; subst. match goal with H : Forall (fun dv => Forall zwf _) _ |- _ =>
        exact (nth_error_Forall _ _ _ _ H NE) end. }
    pose proof (nth_error_Forall _ _ _ _ IH NE) as I1. simpl in I1.
    cbn [padded] in PD. apply existsb_false_Forall in PD.
    pose proof (nth_error_Forall _ _ _ _ PD NE) as PV. cbn [snd] in PV.
    apply Bool.orb_false_iff in PV as [PV PF].
    rewrite ssum_fold in PV. apply N.ltb_ge in PV. apply existsb_false_Forall in PF.
    assert (L : Forall2 (fun f v => lenN (mem_of bo f v) = size_of f) gs xs).
    { clear - F2 FW. revert FW. induction F2; intros I2; constructor;
        inversion I2; subst; auto using mem_of_len. }
    pose proof (mem_fields_len bo None gs xs ltac:(discriminate) FW L (N.of_nat dw)) as LM.
    pose proof (ssum_le None gs ltac:(discriminate) FW (N.of_nat dw)) as SL.
    rewrite size_enum in *.
    pose proof (vmax_ge (N.of_nat dw) vs i d gs NE) as VG.
    pose proof (round_up_ge (vmax (N.of_nat dw) vs) (align_of (ZEnum dw dal al vs sw))
                  (pow2_pos _ (align_pow2 _ W))) as RG.
    set (R := round_up (vmax (N.of_nat dw) vs) (align_of (ZEnum dw dal al vs sw))) in *. clearbody R.
    apply full_app; [apply full_app; [apply full_some|]|].
    + apply mem_fields_full; auto; [discriminate| |lia].
      clear - I1 F2 FW PF. revert I1 FW PF. induction F2; intros J1 I2 I3; constructor;
        inversion J1; inversion I2; inversion I3; subst; auto.
    + rewrite lenN_app, lenN_map, int_mem_len in *.
      match goal with |- full (pads ?x) => replace x with 0 by lia end. reflexivity.
  - apply IH; auto. inversion W; auto.
Qed.

(** ** Padding writes *)

Definition pad_al (pk : option N) (f : zty) : N :=
  match pk with Some p => p | None => align_of f end.

Definition padF (nb : ByteOrder) (f : zty) (r : bytes) : zres bytes :=
  if padded f then zpad nb f r else ZOk r.

Fixpoint pad_loop (nb : ByteOrder) (pk : option N) (fs : list zty) (st : N * bytes * bytes)
  : zres (N * bytes * bytes) :=
  match fs with
  | [] => ZOk st
  | f :: fs =>
      let+ st := pad_with (pad_al pk f) (size_of f) (padF nb f) st in
      pad_loop nb pk fs st
  end.

Lemma zpad_struct nb pk al fs m :
  zpad nb (ZStruct pk al fs) m =
  let+ st := pad_loop nb pk fs (0, [], m) in remaining (size_of (ZStruct pk al fs)) st.
Proof.
  cbn [zpad].
  assert (E : forall st,
    (fix go (fs : list zty) st {struct fs} : zres (N * bytes * bytes) :=
         match fs with
         | [] => ZOk st
         | f :: fs =>
             let+ st := pad_with (match pk with Some p => p | None => align_of f end) (size_of f)
                          (fun r => if padded f then zpad nb f r else ZOk r) st in
             go fs st
         end) fs st = pad_loop nb pk fs st).
  { induction fs as [|f fs IH]; intros st; cbn [pad_loop]; auto.
    change (pad_with (match pk with Some p => p | None => align_of f end) (size_of f)
              (fun r => if padded f then zpad nb f r else ZOk r) st)
      with (pad_with (pad_al pk f) (size_of f) (padF nb f) st).
    destruct (pad_with _ _ _ st); cbn [zbind]; auto. }
  now rewrite E.
Qed.

Lemma pad_with_spec al sz F (off : N) (pre : bytes) (l : list (option N)) (pd body post : bytes) :
  lenN pd = padding_to off al ->
  F (body ++ post) = ZOk (zeroed l ++ post) -> lenN l = sz ->
  pad_with al sz F (off, pre, pd ++ body ++ post) =
  ZOk (off + padding_to off al + sz, pre ++ zeros (padding_to off al) ++ zeroed l, post).
Proof.
  intros L E S. unfold pad_with. rewrite <- L at 1. rewrite take_opt_app, E. cbn [zbind].
  replace sz with (lenN (zeroed l)) at 1 by (rewrite zeroed_len; auto).
  rewrite take_opt_app. reflexivity.
Qed.

Lemma pad_loop_spec nb pk fs vs :
  (forall p, pk = Some p -> pow2 p) -> Forall zwf fs ->
  (forall p f, pk = Some p -> In f fs -> p <= align_of f) ->
  Forall2 (fun f v => lenN (mem_of nb f v) = size_of f) fs vs ->
  Forall2 (fun f v => forall m post, holds (mem_of nb f v) m ->
             padF nb f (m ++ post) = ZOk (zeroed (mem_of nb f v) ++ post)) fs vs ->
  forall off pre m post, holds (mem_fields nb pk off fs vs) m ->
  pad_loop nb pk fs (off, pre, m ++ post) =
  ZOk (end_of pk off fs, pre ++ zeroed (mem_fields nb pk off fs vs), post).
Proof.
  intros P FW PK L F. revert L. induction F as [|f v fs vs Ff F IH]; intros L off pre m post H.
  - simpl in *. inversion H; subst. simpl. now rewrite app_nil_r.
  - cbn [mem_fields pad_loop end_of] in *. inversion FW; subst. inversion L; subst.
    apply holds_app in H as (pd & m' & -> & Hpd & H).
    apply holds_app in H as (body & rest & -> & Hb & H).
    assert (PA : pad_al pk f = cap_al pk (align_of f)).
    { destruct pk as [p|]; simpl; auto. specialize (PK p f eq_refl ltac:(now left)). lia. }
    assert (P2 : pow2 (pad_al pk f)) by (rewrite PA; apply cap_pow2; auto).
    pose proof (pow2_pos _ P2) as PP.
    assert (LP : lenN pd = padding_to off (pad_al pk f)).
    { rewrite (holds_len _ _ Hpd), lenN_pads, padding_to_spec, PA by auto. reflexivity. }
    rewrite <- !app_assoc.
    rewrite (pad_with_spec _ _ _ _ _ (mem_of nb f v)); auto. cbn [zbind].
    rewrite padding_to_spec, PA by auto. rewrite PA in PP.
    pose proof (round_up_ge off _ PP) as RG.
    change (round_up off (cap_al pk (align_of f))) with (place pk off f) in *.
    replace (off + (place pk off f - off) + size_of f) with (place pk off f + size_of f) by lia.
    rewrite (IH ltac:(auto) ltac:(intros; eapply PK; eauto; now right) ltac:(auto) _ _ _ _ H).
    rewrite !zeroed_app, zeroed_pads, <- !app_assoc. reflexivity.
Qed.

Lemma remaining_spec size off pre tail post :
  lenN tail = size - off -> off <= size ->
  remaining size (off, pre, tail ++ post) = ZOk (pre ++ zeros (size - off) ++ post).
Proof.
  intros L G. unfold remaining. destruct (N.ltb_spec size off); [lia|].
  now rewrite <- L, take_opt_app.
Qed.

Ltac bind_with E :=
  let T := type of E in
  match T with ?L = _ => match goal with |- zbind _ ?k = ?R => change (zbind L k = R) end end;
  rewrite E; clear E; cbn [zbind].

Definition pad_good (nb : ByteOrder) (t : zty) (v : zval) : Prop :=
  forall m post, holds (mem_of nb t v) m ->
    padF nb t (m ++ post) = ZOk (zeroed (mem_of nb t v) ++ post).

Lemma pad_array_loop nb f n vs :
  zwf f -> length vs = n -> Forall (fun v => lenN (mem_of nb f v) = size_of f) vs ->
  Forall (fun v => pad_good nb f v) vs ->
  forall off pre m post, (align_of f | off) -> holds (concat (map (mem_of nb f) vs)) m ->
  (fix go (n : nat) st : zres (N * bytes * bytes) :=
         match n with
         | O => ZOk st
         | S n =>
             let+ st := pad_with (align_of f) (size_of f)
                          (fun r => if padded f then zpad nb f r else ZOk r) st in
             go n st
         end) n (off, pre, m ++ post) =
  ZOk (off + N.of_nat n * size_of f, pre ++ zeroed (concat (map (mem_of nb f) vs)), post).
Proof.
  intros W <- L F. induction F as [|v vs Fv F IH]; intros off pre m post D H.
  - inversion H; subst. simpl. now rewrite app_nil_r, N.add_0_r.
  - cbn [length map concat] in *. inversion L; subst.
    apply holds_app in H as (body & rest & -> & Hb & H).
    pose proof (align_pow2 _ W) as P2. pose proof (pow2_pos _ P2) as PP.
    assert (Z : padding_to off (align_of f) = 0).
    { rewrite padding_to_spec, round_up_same by auto. lia. }
    rewrite <- app_assoc. change (body ++ rest ++ post) with (([] : bytes) ++ body ++ rest ++ post).
    change (fun r => if padded f then zpad nb f r else ZOk r) with (padF nb f).
    rewrite (pad_with_spec _ _ _ _ _ (mem_of nb f v)); auto. cbn [zbind].
    rewrite Z. change (zeros 0) with (@nil N). cbn [app].
    change (padF nb f) with (fun r => if padded f then zpad nb f r else ZOk r).
    replace (off + 0 + size_of f) with (off + size_of f) by lia.
    rewrite (IH ltac:(auto)); auto.
    + rewrite zeroed_app, <- app_assoc. rewrite Nat2N.inj_succ, N.mul_succ_l.
      do 2 f_equal. f_equal. lia.
    + apply N.divide_add_r; auto using size_divide.
Qed.

Lemma mem_int_mem bo w n : n < 256 ^ N.of_nat w -> mem_int bo (int_mem bo w n) = n.
Proof.
  intros L. unfold mem_int, int_mem. destruct bo; rewrite ?rev_involutive; now apply of_le_to_le.
Qed.

Lemma zpad_sel nb dw db rest sz d fs :
  forall vs i, NoDup (map fst vs) -> nth_error vs i = Some (d, fs) ->
  (fix sel (vs : list (N * list zty)) {struct vs} : zres bytes :=
             match vs with
             | [] => ZPanic
             | (d', fs) :: r =>
                 if d =? d' then
                   let+ st := (fix go (fs : list zty) st {struct fs} : zres (N * bytes * bytes) :=
                      match fs with
                      | [] => ZOk st
                      | f :: fs =>
                          let+ st := pad_with (align_of f) (size_of f)
                                       (fun r => if padded f then zpad nb f r else ZOk r) st in
                          go fs st
                      end) fs (dw, db, rest) in
                   remaining sz st
                 else sel r
             end) vs =
  let+ st := pad_loop nb None fs (dw, db, rest) in remaining sz st.
Proof.
  assert (E : forall fs st,
    (fix go (fs : list zty) st {struct fs} : zres (N * bytes * bytes) :=
         match fs with
         | [] => ZOk st
         | f :: fs =>
             let+ st := pad_with (align_of f) (size_of f)
                          (fun r => if padded f then zpad nb f r else ZOk r) st in
             go fs st
         end) fs st = pad_loop nb None fs st).
  { clear. induction fs as [|f fs IH]; intros st; cbn [pad_loop]; auto.
    change (pad_with (align_of f) (size_of f)
              (fun r => if padded f then zpad nb f r else ZOk r) st)
      with (pad_with (pad_al None f) (size_of f) (padF nb f) st).
    destruct (pad_with _ _ _ st); cbn [zbind]; auto. }
  induction vs as [|[d' fs'] vs IH]; intros [|i] ND NE; try discriminate; simpl in NE.
  - inversion NE; subst. rewrite N.eqb_refl, E. reflexivity.
  - inversion ND as [|? ? NI ND']; subst. destruct (N.eqb_spec d d') as [->|_].
    + exfalso. apply NI. apply nth_error_In in NE. now apply (in_map fst) in NE.
    + now apply (IH i).
Qed.

Lemma zpad_spec nb t : zwf t -> pk_ok t -> forall v, zok t v -> pad_good nb t v.
Proof.
  induction t as [w al|w al| | | |t n IH|pk al fs IH|dw dal al vs sw IH|t IH] using zty_ind';
    intros W PK v O m post H; unfold padF; try (cbn [padded]; rewrite (holds_full _ _ (not_padded_full nb _ W eq_refl _ O) H); reflexivity).
  - destruct (padded (ZArray t n)) eqn:PD.
    2: { rewrite (holds_full _ _ (not_padded_full nb _ W PD _ O) H); reflexivity. }
    inversion O; subst. cbn [mem_of] in *. cbn [zpad].
    assert (Wt : zwf t) by (inversion W; auto). assert (Pt : pk_ok t) by (inversion PK; auto).
    match goal with H : Forall (zok t) _ |- _ => rename H into FZ end.
    assert (FL : Forall (fun v => lenN (mem_of nb t v) = size_of t) vs).
    { eapply Forall_impl; [|eassumption]. intros; apply mem_of_len; auto. }
    assert (FG : Forall (fun v => pad_good nb t v) vs).
    { eapply Forall_impl; [|exact FZ]. intros; apply IH; auto. }
    pose proof (pad_array_loop nb t (length vs) vs Wt eq_refl FL FG 0 [] m post
                  ltac:(exists 0; reflexivity) H) as E.
    bind_with E. rewrite N.add_0_l.
    change post with (([] : bytes) ++ post) at 1.
    rewrite remaining_spec; cbn [size_of]; [| |lia].
    + rewrite N.sub_diag. reflexivity.
    + rewrite N.sub_diag. reflexivity.
  - destruct (padded (ZStruct pk al fs)) eqn:PD.
    2: { rewrite (holds_full _ _ (not_padded_full nb _ W PD _ O) H); reflexivity. }
    inversion O; subst.
    match goal with H : Forall2 zok fs ?vs |- _ => rename H into F2; rename vs into xs end.
    assert (FW : Forall zwf fs) by (inversion W; auto).
    assert (FP : forall p, pk = Some p -> pow2 p) by (inversion W; auto).
    assert (FK : Forall pk_ok fs) by (inversion PK; auto).
    assert (PA : forall p f, pk = Some p -> In f fs -> p <= align_of f) by (inversion PK; auto).
    assert (L : Forall2 (fun f v => lenN (mem_of nb f v) = size_of f) fs xs).
    { clear - F2 FW. revert FW. induction F2; intros I2; constructor;
        inversion I2; subst; auto using mem_of_len. }
    assert (G : Forall2 (fun f v => pad_good nb f v) fs xs).
    { clear - IH F2 FW FK. revert IH FW FK. induction F2; intros I1 I2 I3; constructor;
        inversion I1; inversion I2; inversion I3; subst; auto. }
    rewrite mem_struct in *. apply holds_app in H as (body & tail & -> & Hb & Ht).
    rewrite zpad_struct, <- app_assoc.
    pose proof (pad_loop_spec nb pk fs xs FP FW PA L G 0 [] body (tail ++ post) Hb) as E.
    bind_with E.
    pose proof (mem_fields_len nb pk fs xs FP FW L 0) as LM. rewrite N.add_0_l in LM.
    pose proof (holds_len _ _ Ht) as LT. rewrite lenN_pads, LM in LT.
    rewrite remaining_spec; auto.
    + rewrite zeroed_app, zeroed_pads, LM, <- !app_assoc. reflexivity.
    + rewrite size_struct. apply round_up_ge, pow2_pos, align_pow2; auto.
  - destruct (padded (ZEnum dw dal al vs sw)) eqn:PD.
    2: { rewrite (holds_full _ _ (not_padded_full nb _ W PD _ O) H); reflexivity. }
    inversion O; subst.
    match goal with H : Forall2 zok ?f ?vs |- _ => rename H into F2; rename vs into xs; rename f into gs end.
    match goal with H : nth_error vs i = Some _ |- _ => rename H into NE end.
    rewrite (mem_enum _ _ _ _ _ _ _ _ _ _ NE) in *. cbv zeta in *.
    assert (FW : Forall zwf gs).
    { inversion W; subst. match goal with H : Forall (fun dv => Forall zwf _) _ |- _ =>
        exact (nth_error_Forall _ _ _ _ H NE) end. }
    assert (FK : Forall pk_ok gs).
    { inversion PK; subst. match goal with H : Forall (fun dv => Forall pk_ok _) _ |- _ =>
        exact (nth_error_Forall _ _ _ _ H NE) end. }
    assert (ND : NoDup (map fst vs)) by (inversion W; auto).
    assert (DL : d < 256 ^ N.of_nat dw).
    { inversion W; subst. match goal with H : Forall (fun dv => fst dv < _) _ |- _ =>
        exact (nth_error_Forall _ _ _ _ H NE) end. }
    pose proof (nth_error_Forall _ _ _ _ IH NE) as I1. simpl in I1.
    assert (L : Forall2 (fun f v => lenN (mem_of nb f v) = size_of f) gs xs).
    { clear - F2 FW. revert FW. induction F2; intros I2; constructor;
        inversion I2; subst; auto using mem_of_len. }
    assert (G : Forall2 (fun f v => pad_good nb f v) gs xs).
    { clear - I1 F2 FW FK. revert I1 FW FK. induction F2; intros J1 I2 I3; constructor;
        inversion J1; inversion I2; inversion I3; subst; auto. }
    rewrite <- app_assoc in H.
    apply holds_app in H as (db & H' & -> & Hd & H). apply holds_some in Hd. subst db.
    apply holds_app in H as (body & tail & -> & Hb & Ht).
    cbn [zpad]. rewrite <- !app_assoc.
    rewrite <- (int_mem_len nb dw d) at 1. rewrite take_opt_app.
    rewrite mem_int_mem by auto. cbv zeta.
    rewrite (zpad_sel nb _ _ _ _ d gs vs i ND NE).
    pose proof (pad_loop_spec nb None gs xs ltac:(discriminate) FW ltac:(discriminate) L G
      (N.of_nat dw) (int_mem nb dw d) body (tail ++ post) Hb) as E.
    bind_with E.
    pose proof (mem_fields_len nb None gs xs ltac:(discriminate) FW L (N.of_nat dw)) as LM.
    pose proof (holds_len _ _ Ht) as LT. rewrite lenN_pads, lenN_app, lenN_map, int_mem_len, LM in LT.
    change (fold_right _ _ vs) with (fold_right (fun dv a => fold_right (fun f a => N.max (align_of f) a) a (snd dv))
        (N.max dal (opt_al al)) vs) in *.
    rewrite remaining_spec; auto.
    + rewrite !zeroed_app, zeroed_pads, zeroed_some, lenN_app, lenN_map, int_mem_len, LM, <- !app_assoc. reflexivity.
    + rewrite size_enum. pose proof (vmax_ge (N.of_nat dw) vs i d gs NE).
      pose proof (round_up_ge (vmax (N.of_nat dw) vs) (align_of (ZEnum dw dal al vs sw))
                  (pow2_pos _ (align_pow2 _ W))). lia.
  - inversion O; inversion W; inversion PK; subst. cbn [mem_of padded zpad] in *.
    exact (IH ltac:(auto) ltac:(auto) v ltac:(auto) m post H).
Qed.

Lemma store_mem_spec nb t v m :
  zwf t -> pk_ok t -> zok t v -> holds (mem_of nb t v) m ->
  store_mem nb t m = ZOk (zeroed (mem_of nb t v)).
Proof.
  intros W P O H. pose proof (zpad_spec nb t W P v O m [] H) as S.
  rewrite !app_nil_r in S. exact S.
Qed.
