(** Everything the encoder writes is JSON text for the value. *)
From Verif Require Import Base Options Int Utf8 Types Json JsonSpec BaseFacts Utf8Facts TypesFacts
  IntFacts StorageFacts JsonFacts JsonText JsonDec.
From Verif Require Export ItoaFacts.
From Verif Require FloatSpec FloatTextSpec Dec2flt FloatFast JsonFloat.
From Coq Require Import ZifyBool ZifyNat ZifyN.
Local Open Scope N_scope.

(** ** Strings *)

Lemma body_ascii cs : Forall (fun c => 32 <= c < 128 /\ c <> 34 /\ c <> 92) cs -> body cs cs.
Proof.
  induction 1 as [|c cs Hc _ IH]; [constructor|].
  replace (c :: cs) with (utf8_enc c ++ cs) at 2.
  - constructor; try assumption; try lia. apply char_valid_iff. lia.
  - unfold utf8_enc. destruct (c <? 128) eqn:E; [reflexivity|lia].
Qed.

Lemma int_text_body neg n s : int_text n s -> body (sign neg ++ s) (sign neg ++ s).
Proof.
  intros (_ & H & _). apply body_ascii. apply Forall_app. split.
  - destruct neg; repeat constructor; lia.
  - eapply Forall_impl; [|exact H]. unfold digit. cbn. intros; lia.
Qed.

Lemma hex_of d : d < 16 -> hex (hex_digit d) d.
Proof.
  intros H. unfold hex_digit. destruct (d <? 10) eqn:E; [apply hex_d|apply hex_l]; lia.
Qed.

Lemma escape_high bs : Forall (fun b => 128 <= b) bs -> flat_map escape_byte bs = bs.
Proof.
  induction 1 as [|b bs Hb _ IH]; cbn [flat_map]; [reflexivity|]. rewrite IH.
  unfold escape_byte.
  repeat match goal with |- context [if ?c then _ else _] => destruct c eqn:?; [lia|] end. reflexivity.
Qed.

Lemma escape_body cs : Forall (fun c => char_valid c = true) cs ->
  body cs (flat_map escape_byte (str_bytes cs)).
Proof.
  induction 1 as [|c cs Hc _ IH]; cbn [str_bytes flat_map]; [constructor|].
  fold (str_bytes cs). rewrite flat_map_app.
  destruct (c <? 128) eqn:E.
  - assert (U : utf8_enc c = [c]) by (unfold utf8_enc; now rewrite E). rewrite U.
    cbn [flat_map]. rewrite app_nil_r. unfold escape_byte at 1.
    Ltac short n := let E := fresh in destruct (_ =? n) eqn:E;
      [apply N.eqb_eq in E; subst; cbn [app]; apply body_short; [cbn; tauto|assumption]|].
    short 8. short 9. short 10. short 12. short 13.
    destruct (c <? 32) eqn:Hlt; [|short 34; short 92].
    + change ([92; 117; 48; 48; hex_digit (c / 16); hex_digit (c mod 16)] ++ flat_map escape_byte (str_bytes cs))
        with (92 :: 117 :: [48; 48; hex_digit (c / 16); hex_digit (c mod 16)] ++ flat_map escape_byte (str_bytes cs)).
      apply body_u; try assumption.
      exists 48, 48, (hex_digit (c / 16)), (hex_digit (c mod 16)), 0, 0, (c / 16), (c mod 16).
      repeat split; try (now apply (hex_d 0)); try (apply hex_of; lia). lia.
    + rewrite <- U. apply body_plain; try assumption; lia.
  - rewrite escape_high; [|destruct (utf8_enc_high c Hc) as [[_ K]|[_ K]]; [exfalso; lia|exact K]]. apply body_plain; try assumption; lia.
Qed.

Lemma utf8_str s : bytes_ok s = true -> utf8_valid s = true ->
  exists cs, Forall (fun c => char_valid c = true) cs /\ s = str_bytes cs.
Proof. intros Hb H. now apply utf8_chars. Qed.

(** ** Arrays and objects *)

Section Tight.
Context {tight : bool}.
Local Notation text := (gtext tight).
Local Notation elems := (gelems tight).
Local Notation members := (gmembers tight).
Local Notation member := (gmember tight).

Lemma elems_sep l bs : Forall2 text l bs -> elems l (comma_sep bs).
Proof.
  induction 1 as [|j b l bs Hj Hl IH]; cbn [comma_sep]; [constructor; constructor|].
  inversion Hl; subst.
  - pose proof (elems_one [] j b [] space_nil Hj space_nil) as K. cbn [app] in K. now rewrite app_nil_r in K.
  - refine (elems_more [] j b [] (_ :: _) _ space_nil Hj space_nil IH _). discriminate.
Qed.

Lemma members_sep l bs : Forall2 member l bs -> members l (comma_sep bs).
Proof.
  induction 1 as [|j b l bs Hj Hl IH]; cbn [comma_sep]; [constructor; constructor|].
  inversion Hl; subst; [now constructor|]. constructor; [assumption..|discriminate].
Qed.

Lemma member_pair k ks j b : body k ks -> text j b -> member (k, j) (pair (34 :: ks ++ [34]) b).
Proof.
  intros Hk Hj. pose proof (member_intro [] k ks [] [] j b [] space_nil Hk space_nil space_nil (fun _ => eq_refl) Hj space_nil) as K.
  cbn [app] in K. rewrite app_nil_r in K. unfold pair. exact K.
Qed.

End Tight.

(** ** Keys *)

Lemma jkenc_ok p t : keyable t = true -> wf p t -> forall v, has_type p t v = true ->
  exists cs s, jkenc p t v = Ok (34 :: s ++ [34]) /\ body cs s /\ key_means p t cs v.
Proof.
  assert (Hun : forall n, body (itoa n) (itoa n)).
  { intros n. apply (int_text_body false n), itoa_text. }
  assert (Hsi : forall z, exists neg n s, itoa_z z = sign neg ++ s /\ int_text n s /\ z = z_of neg n /\
                          body (sign neg ++ s) (sign neg ++ s)).
  { intros z. destruct (itoa_z_text z) as (neg & n & s & H1 & H2 & H3). exists neg, n, s. repeat split; auto;
      try apply H2. now apply int_text_body with n. }
  induction t using ty_ind'; cbn [keyable]; try discriminate; intros Hk Hwf v Hv; cbn [has_type] in Hv;
    cbn [jkenc key_means].
  - destruct v; try discriminate. exists (itoa n), (itoa n). repeat split; auto. exists n.
    split; [apply itoa_text|]. split; [lia|reflexivity].
  - destruct v; try discriminate. destruct (Hsi z) as (neg & n & s & E & Hi & Hz & Hb).
    exists (sign neg ++ s), (sign neg ++ s). rewrite E. split; [reflexivity|]. split; [assumption|].
    exists neg, n, s. subst z. auto.
  - destruct v; try discriminate. exists (itoa n), (itoa n). repeat split; auto. exists n.
    split; [apply itoa_text|]. split; [lia|reflexivity].
  - destruct v; try discriminate. destruct (Hsi z) as (neg & n & s & E & Hi & Hz & Hb).
    exists (sign neg ++ s), (sign neg ++ s). rewrite E. split; [reflexivity|]. split; [assumption|].
    exists neg, n, s. subst z. auto.
  - destruct v; try discriminate. exists (itoa n), (itoa n). repeat split; auto.
    + exists n. split; [apply itoa_text|]. split; [lia|reflexivity].
    + intros E. injection E as ->. cbn in Hv. rewrite andb_false_r in Hv. discriminate.
  - destruct v; try discriminate. apply andb_true_iff in Hv. destruct Hv as [Hv _].
    apply andb_true_iff in Hv. destruct Hv as [H1 H2]. destruct (utf8_str _ H1 H2) as (cs & Hc & ->).
    exists cs, (flat_map escape_byte (str_bytes cs)). split; [reflexivity|]. split; [now apply escape_body|reflexivity].
  - now apply IHt.
  - destruct v as [| | | | | | | | |i x]; try discriminate. destruct x; try discriminate.
    apply Nat.ltb_lt in Hv. cbn [wf] in Hwf. destruct Hwf as (Hw & Ht & Hd).
    destruct (nth_error tags i) as [k|] eqn:E; [|apply nth_error_None in E; lia].
    rewrite forallb_forall in Ht. destruct (IHt Hk Hw k (Ht k (nth_error_In _ _ E))) as (cs & s & H1 & H2 & H3).
    exists cs, s. split; [assumption|]. split; [assumption|]. exists i, k. auto.
Qed.

Lemma int_text_fun n m s : int_text n s -> int_text m s -> n = m.
Proof. unfold int_text. intuition congruence. Qed.

Lemma sign_text_fun neg n s neg' n' s' : int_text n s -> int_text n' s' -> sign neg ++ s = sign neg' ++ s' ->
  z_of neg n = z_of neg' n'.
Proof.
  intros H H' E.
  assert (Hd : forall k t, int_text k t -> t <> [] /\ hd 0 t <> 45).
  { intros k t Hk. destruct (not_minus k t [] Hk) as (b & r & Eb & Hb). rewrite app_nil_r in Eb. subst t.
    split; [discriminate|exact Hb]. }
  destruct (Hd _ _ H) as [_ H1], (Hd _ _ H') as [_ H2].
  destruct neg, neg'; cbn [sign app] in E.
  - injection E as E. subst s'. now rewrite (int_text_fun _ _ _ H H').
  - subst s'. cbn [hd] in H2. congruence.
  - subst s. cbn [hd] in H1. congruence.
  - subst s'. now rewrite (int_text_fun _ _ _ H H').
Qed.

Lemma key_means_fun p t : wf p t -> forall cs v v', key_means p t cs v -> key_means p t cs v' -> v = v'.
Proof.
  induction t using ty_ind'; cbn [wf key_means]; intros Hw cs v v' H1 H2; try contradiction.
  - destruct H1 as (n & A & _ & ->), H2 as (m & B & _ & ->). now rewrite (int_text_fun _ _ _ A B).
  - destruct H1 as (ng & n & s & -> & A & _ & ->), H2 as (ng' & m & s' & E & B & _ & ->).
    now rewrite (sign_text_fun _ _ _ _ _ _ A B E).
  - destruct H1 as (n & A & _ & ->), H2 as (m & B & _ & ->). now rewrite (int_text_fun _ _ _ A B).
  - destruct H1 as (ng & n & s & -> & A & _ & ->), H2 as (ng' & m & s' & E & B & _ & ->).
    now rewrite (sign_text_fun _ _ _ _ _ _ A B E).
  - destruct H1 as ((n & A & _ & ->) & _), H2 as ((m & B & _ & ->) & _). now rewrite (int_text_fun _ _ _ A B).
  - congruence.
  - now apply (IHt Hw cs).
  - destruct Hw as (Hw & _ & Hd). apply distinct_NoDup in Hd.
    destruct H1 as (i & k & -> & Ei & A), H2 as (i' & k' & -> & Ei' & B).
    rewrite <- (IHt Hw cs k k' A B) in Ei'.
    assert (i = i'); [|congruence]. apply (proj1 (NoDup_nth_error _) Hd); [|congruence].
    apply nth_error_Some. congruence.
Qed.

Lemma NoDup_names {A B C D} (R : A * B -> C * D -> Prop) l m :
  (forall a b b', (exists x y, R (a, x) (b, y)) -> (exists x y, R (a, x) (b', y)) -> b = b') ->
  Forall2 R l m -> NoDup (map fst m) -> NoDup (map fst l).
Proof.
  intros Hf H. induction H as [|[a x] [b y] l m Hab HR IH]; cbn [map fst]; intros Hd; [constructor|].
  inversion Hd as [|? ? Hn Hd']; subst. constructor; [|now apply IH].
  intros Hin. apply Hn. clear - Hf Hab HR Hin. induction HR as [|[a' x'] [b' y'] l m Hab' _ IH]; [contradiction|].
  cbn [map fst] in Hin |- *. destruct Hin as [->|Hin]; [left|right; now apply IH].
  apply (Hf a); eauto.
Qed.

(** ** Values *)

Lemma small_unsigned tb n : tb <= 128 -> n < 2 ^ tb -> small_int false n = true.
Proof.
  intros H Hn. unfold small_int. assert (2 ^ tb <= 2 ^ 128) by (apply N.pow_le_mono_r; lia). lia.
Qed.

Lemma small_signed tb neg n : 1 <= tb <= 128 -> in_sb tb (z_of neg n) = true -> small_int neg n = true.
Proof.
  intros H Hn. apply in_sb_iff in Hn. unfold small_int.
  assert (2 ^ (Z.of_N tb - 1) <= 2 ^ 127)%Z by (apply Z.pow_le_mono_r; lia).
  change (2 ^ 127)%Z with (Z.of_N (2 ^ 127)) in *. assert (2 ^ 127 < 2 ^ 128) by reflexivity. unfold z_of in Hn. destruct neg; lia.
Qed.

Lemma small_byte n : n < 256 -> small_int false n = true.
Proof. intros H. apply (small_unsigned 8); [lia|exact H]. Qed.

Lemma bits_le w : bits w <= 128.
Proof. destruct w; cbn [bits]; lia. Qed.

Definition encodes (p : plat) (t : ty) (e : val -> res bytes) : Prop :=
  forall v, has_type p t v = true -> finite t v = true ->
  exists j bs, e v = Ok bs /\ gtext true j bs /\ means p t j v /\ ((nullish t = false -> j <> JNull) /\ unrepeated j) /\
    (has_float t = false -> small j = true).

Lemma map_res_ok p t e vs : encodes p t e -> forallb (has_type p t) vs = true -> forallb (finite t) vs = true ->
  exists l bs, map_res e vs = Ok bs /\ Forall2 (gtext true) l bs /\ Forall2 (means p t) l vs /\ allP (map unrepeated l) /\ (has_float t = false -> forallb small l = true).
Proof.
  intros He. induction vs as [|v vs IH]; cbn [forallb map_res]; intros H HF.
  - exists [], []. repeat split; constructor.
  - apply andb_true_iff in H. destruct H as [Hv Hvs]. apply andb_true_iff in HF. destruct HF as [HF HFs].
    destruct (He v Hv HF) as (j & b & H1 & H2 & H3 & [_ Hun] & Hsm). destruct (IH Hvs HFs) as (l & bs & H4 & H5 & H6 & Hul & H7).
    exists (j :: l), (b :: bs). rewrite H1. cbn [bind]. rewrite H4. split; [reflexivity|].
    split; [now constructor|]. split; [now constructor|]. split; [split; assumption|]. intros N. cbn [forallb]. rewrite Hsm; auto.
Qed.

Lemma zip_res_ok {B} p (ts : list B) (g : B -> ty) (e : B -> val -> res bytes) :
  Forall (fun t => encodes p (g t) (e t)) ts -> forall vs, all2 (map (fun t => has_type p (g t)) ts) vs = true ->
  all2 (map (fun t => finite (g t)) ts) vs = true ->
  exists l bs, zip_res (map e ts) vs = Ok bs /\ Forall2 (gtext true) l bs /\ each (map (fun t => means p (g t)) ts) l vs /\ allP (map unrepeated l) /\
    (existsb (fun t => has_float (g t)) ts = false -> forallb small l = true).
Proof.
  induction 1 as [|t ts Ht _ IH]; intros [|v vs] H HF; cbn in H, HF; try discriminate.
  - exists [], []. repeat split; constructor.
  - apply andb_true_iff in H. destruct H as [Hv Hvs]. apply andb_true_iff in HF. destruct HF as [HF HFs].
    destruct (Ht v Hv HF) as (j & b & H1 & H2 & H3 & [_ Hun] & Hsm). destruct (IH vs Hvs HFs) as (l & bs & H4 & H5 & H6 & Hul & H7).
    exists (j :: l), (b :: bs). cbn [map zip_res]. rewrite H1. cbn [bind]. rewrite H4. split; [reflexivity|].
    split; [now constructor|]. split; [now constructor|]. split; [split; assumption|]. cbn [existsb forallb]. intros N. apply orb_false_iff in N. destruct N. rewrite Hsm; auto.
Qed.

Lemma fold_set vs : forall acc, NoDup (acc ++ vs) -> fold_left (fun s x => set_insert x s) vs acc = acc ++ vs.
Proof.
  induction vs as [|v vs IH]; intros acc H; cbn [fold_left]; [now rewrite app_nil_r|].
  rewrite set_insert_fresh.
  - replace (acc ++ v :: vs) with ((acc ++ [v]) ++ vs) in * by now rewrite <- app_assoc. now apply IH.
  - apply NoDup_remove in H. intros Hin. apply (proj2 H). apply in_or_app. now left.
Qed.

Lemma fold_map kvs : forall acc, NoDup (map fst (acc ++ kvs)) ->
  fold_left (fun s kv => map_insert (fst kv) (snd kv) s) kvs acc = acc ++ kvs.
Proof.
  induction kvs as [|[k v] kvs IH]; intros acc H; cbn [fold_left]; [now rewrite app_nil_r|].
  cbn [fst snd]. rewrite map_insert_fresh.
  - replace (acc ++ (k, v) :: kvs) with ((acc ++ [(k, v)]) ++ kvs) in * by now rewrite <- app_assoc. now apply IH.
  - rewrite map_app in H. cbn in H. apply NoDup_remove in H. intros Hin. apply (proj2 H). apply in_or_app. now left.
Qed.

Lemma octets_ok s : bytes_ok s = true -> exists l, Forall2 (gtext true) l (map itoa s) /\
  Forall2 (fun j b => j = JInt false b /\ b < 256) l s.
Proof.
  induction s as [|b s IH]; cbn [map]; intros H.
  - exists []. split; constructor.
  - rewrite bytes_ok_cons in H. apply andb_true_iff in H. destruct H as [Hb Hs]. unfold byte_ok in Hb.
    destruct (IH Hs) as (l & H1 & H2).
    exists (JInt false b :: l). split; constructor; auto; [apply (text_int false b), itoa_text|]. split; [reflexivity|lia].
Qed.

Lemma octets_unrepeated l s : Forall2 (fun j b => j = JInt false b /\ b < 256) l s -> allP (map unrepeated l).
Proof. induction 1 as [|j b l s [-> _] _ IH]; [exact I|]. split; [exact I|exact IH]. Qed.

Lemma octets_small l s : Forall2 (fun j b => j = JInt false b /\ b < 256) l s -> forallb small l = true.
Proof. induction 1 as [|j b l s [-> Hb] _ IH]; [reflexivity|]. cbn [forallb small]. now rewrite small_byte. Qed.

(** *** Structs *)

Definition entries_of (fs : list (finfo * ty)) (vs : list val) : list (val * val) :=
  concat (map (fun fv => if fskip (fst (fst fv)) (snd fv) then [] else [(fname (fst (fst fv)), snd fv)])
              (combine fs vs)).

Lemma entries_in fs : forall vs k, In k (map fst (entries_of fs vs)) -> In k (map (fun ft => fname (fst ft)) fs).
Proof.
  unfold entries_of. induction fs as [|ft fs IH]; intros [|v vs] k; cbn; try tauto.
  rewrite map_app, in_app_iff. intros [H|H]; [|right; now apply (IH vs)].
  destruct (fskip (fst ft) v); cbn in H; [tauto|]. destruct H as [H|[]]. now left.
Qed.

Lemma entries_NoDup fs : NoDup (map (fun ft => fname (fst ft)) fs) -> forall vs, NoDup (map fst (entries_of fs vs)).
Proof.
  induction fs as [|ft fs IH]; cbn [map]; intros Hd [|v vs]; try constructor.
  inversion Hd as [|? ? Hn Hd']; subst.
  change (entries_of (ft :: fs) (v :: vs)) with
    ((if fskip (fst ft) v then [] else [(fname (fst ft), v)]) ++ entries_of fs vs).
  destruct (fskip (fst ft) v); cbn [app map fst]; [now apply IH|]. constructor; [|now apply IH].
  intros Hin. apply entries_in in Hin. contradiction.
Qed.

Lemma field_value_app f pre kvs x : ~ In (fname f) (map fst pre) -> field_value f kvs x -> field_value f (pre ++ kvs) x.
Proof.
  intros Hn [(l1 & l2 & -> & H)|[H1 H2]].
  - left. exists (pre ++ l1), l2. now rewrite <- app_assoc.
  - right. split; [|assumption]. rewrite map_app, in_app_iff. tauto.
Qed.

Lemma Forall2_impl_in {A B} (P Q : A -> B -> Prop) l m :
  (forall a b, In a l -> P a b -> Q a b) -> Forall2 P l m -> Forall2 Q l m.
Proof.
  intros H F. induction F as [|a b l m Hab _ IH]; constructor.
  - apply H; [now left|assumption].
  - apply IH. intros; apply H; [now right|assumption].
Qed.

Lemma entries_fields fs : NoDup (map (fun ft => fname (fst ft)) fs) ->
  (forall ft v, In ft fs -> fskip (fst ft) v = true -> fdefault (fst ft) = Some v) ->
  forall vs, length fs = length vs -> Forall2 (fun ft x => field_value (fst ft) (entries_of fs vs) x) fs vs.
Proof.
  induction fs as [|ft fs IH]; intros Hd Hs [|v vs] Hl; cbn in Hl; try discriminate; [constructor|].
  cbn in Hd. inversion Hd as [|? ? Hn Hd']; subst.
  assert (Hni : ~ In (fname (fst ft)) (map fst (entries_of fs vs))).
  { intros H. apply entries_in in H. contradiction. }
  change (entries_of (ft :: fs) (v :: vs)) with
    ((if fskip (fst ft) v then [] else [(fname (fst ft), v)]) ++ entries_of fs vs).
  constructor.
  - destruct (fskip (fst ft) v) eqn:E.
    + right. split; [exact Hni|]. apply Hs with (1 := or_introl eq_refl). exact E.
    + left. exists [], (entries_of fs vs). split; [reflexivity|exact Hni].
  - eapply Forall2_impl_in; [|apply IH; auto; intros ft' v' Hin; apply Hs; now right].
    cbn. intros ft' x Hin. apply field_value_app.
    destruct (fskip (fst ft) v); cbn; [tauto|]. intros [E|[]]. apply Hn. rewrite E.
    now apply (in_map (fun ft => fname (fst ft))).
Qed.

Lemma jenc_fields_ok p kt (fs : list (finfo * ty)) (e : finfo * ty -> val -> res bytes) :
  keyable kt = true -> wf p kt -> forallb (fun ft => has_type p kt (fname (fst ft))) fs = true ->
  Forall (fun ft => encodes p (snd ft) (e ft)) fs ->
  forall vs, all2 (map (fun ft => has_type p (snd ft)) fs) vs = true ->
  all2 (map (fun ft => finite (snd ft)) fs) vs = true ->
  exists l bs, jenc_fields (jkenc p kt) (map (fun ft => (fst ft, e ft)) fs) vs = Ok bs /\
    Forall2 (gmember true) l bs /\
    Forall2 (fun m kv => key_means p kt (fst m) (fst kv) /\
                         exists ft, In ft fs /\ fname (fst ft) = fst kv /\ means p (snd ft) (snd m) (snd kv))
            l (entries_of fs vs) /\ allP (map (fun m => unrepeated (snd m)) l) /\
    (existsb (fun ft => has_float (snd ft)) fs = false -> forallb (fun m => small (snd m)) l = true).
Proof.
  intros Hk Hw Hn H. induction H as [|ft fs He _ IH]; intros [|v vs] Ha HF; cbn in Ha, HF; try discriminate.
  - exists [], []. repeat split; constructor.
  - apply andb_true_iff in Ha. destruct Ha as [Hv Ha]. cbn in Hn. apply andb_true_iff in Hn. destruct Hn as [Hn0 Hn].
    apply andb_true_iff in HF. destruct HF as [HF HFs].
    destruct (IH Hn vs Ha HFs) as (l & bs & H1 & H2 & H3 & Hul & Hsl).
    assert (Hsl' : existsb (fun ft => has_float (snd ft)) (ft :: fs) = false -> forallb (fun m => small (snd m)) l = true).
    { cbn [existsb]. intros N. apply orb_false_iff in N. now apply Hsl. }
    assert (H3' : Forall2 (fun m kv => key_means p kt (fst m) (fst kv) /\
                         exists ft', In ft' (ft :: fs) /\ fname (fst ft') = fst kv /\ means p (snd ft') (snd m) (snd kv))
            l (entries_of fs vs)).
    { eapply Forall2_impl_in; [|exact H3]. cbn. intros m kv _ (A & ft' & B & C). split; [assumption|]. exists ft'. tauto. }
    cbn [map jenc_fields].
    change (entries_of (ft :: fs) (v :: vs)) with
      ((if fskip (fst ft) v then [] else [(fname (fst ft), v)]) ++ entries_of fs vs).
    destruct (fskip (fst ft) v) eqn:E.
    + exists l, bs. auto.
    + destruct (jkenc_ok p kt Hk Hw _ Hn0) as (cs & s & K1 & K2 & K3).
      destruct (He v Hv HF) as (j & b & J1 & J2 & J3 & [_ Jun] & Jsm).
      exists ((cs, j) :: l), (pair (34 :: s ++ [34]) b :: bs).
      rewrite K1. cbn [bind]. rewrite J1. cbn [bind]. rewrite H1. split; [reflexivity|].
      split; [constructor; auto; now apply member_pair|]. cbn [app]. split; [|split; [split; assumption|]; cbn [existsb forallb snd]; intros N; apply orb_false_iff in N; destruct N; rewrite Jsm; auto]. constructor; [|assumption].
      cbn. split; [assumption|]. exists ft. auto.
Qed.

Theorem jenc_ok p t : jsonable t = true -> wf p t -> encodes p t (jenc p t).
Proof.
  pose proof (usize_bits_ge p) as Hu1. assert (Hu2 : usize_bits p <= 64) by (unfold usize_bits; destruct (ptr p); cbn; lia).
  induction t using ty_ind'; intros Hj Hwf v Hv HF; cbn [jsonable] in Hj; cbn [wf] in Hwf; try discriminate;
    cbn [has_type] in Hv; cbn [finite] in HF; cbn [jenc means nullish small has_float].
  - destruct v; try discriminate. exists JNull, lit_null. repeat split; auto; [constructor|discriminate].
  - destruct v; try discriminate. exists (JBool b), (if b then lit_true else lit_false).
    repeat split; auto; [destruct b; constructor|now exists b|discriminate].
  - destruct v; try discriminate. exists (JStr [n]), (encode_string (utf8_enc n)). split; [reflexivity|].
    repeat split; [|exists n; auto|discriminate].
    pose proof (escape_body [n]) as K. unfold str_bytes in K. cbn [flat_map] in K. rewrite app_nil_r in K.
    apply (text_str [n]). apply K. now constructor.
  - destruct v; try discriminate. exists (JInt false n), (itoa n). split; [reflexivity|].
    split; [apply (text_int false n), itoa_text|]. split; [exists n; repeat split; lia|]. split; [split; [discriminate|exact I]|]. intros _. apply (small_unsigned (bits w)); [apply bits_le|lia].
  - destruct v; try discriminate. destruct (itoa_z_text z) as (neg & n & s & E & Hi & Hz).
    exists (JInt neg n), (sign neg ++ s). rewrite E. split; [reflexivity|].
    split; [now apply text_int|]. split; [exists neg, n; subst z; auto|]. split; [split; [discriminate|exact I]|]. intros _. subst z. pose proof (bits_le w). pose proof (bits_ge w). apply (small_signed (bits w)); [lia|assumption].
  - destruct v; try discriminate. exists (JInt false n), (itoa n). split; [reflexivity|].
    split; [apply (text_int false n), itoa_text|]. split; [exists n; repeat split; lia|]. split; [split; [discriminate|exact I]|]. intros _. apply (small_unsigned (usize_bits p)); lia.
  - destruct v; try discriminate. destruct (itoa_z_text z) as (neg & n & s & E & Hi & Hz).
    exists (JInt neg n), (sign neg ++ s). rewrite E. split; [reflexivity|].
    split; [now apply text_int|]. split; [exists neg, n; subst z; auto|]. split; [split; [discriminate|exact I]|]. intros _. subst z. apply (small_signed (usize_bits p)); [lia|assumption].
  - destruct v; try discriminate. destruct (JsonFloat.float_text_json Dec2flt.F32 13 (-6) n true) as (neg & ds & fs & e & b & K1 & K2 & K3);
      [now left|lia|exact (proj1 (N.ltb_lt _ _) Hv)|exact HF|].
    exists (JNum neg ds fs e), (text_f32 n). split; [reflexivity|]. split; [exact K1|].
    split; [exists neg, b; split; [now rewrite K2|exact K3]|]. split; [split; [discriminate|exact I]|discriminate].
  - destruct v; try discriminate. destruct (JsonFloat.float_text_json Dec2flt.F64 16 (-5) n true) as (neg & ds & fs & e & b & K1 & K2 & K3);
      [now right|lia|exact (proj1 (N.ltb_lt _ _) Hv)|exact HF|].
    exists (JNum neg ds fs e), (text_f64 n). split; [reflexivity|]. split; [exact K1|].
    split; [exists neg, b; split; [now rewrite K2|exact K3]|]. split; [split; [discriminate|exact I]|discriminate].
  - destruct v; try discriminate. exists (JInt false n), (itoa n). split; [reflexivity|].
    split; [apply (text_int false n), itoa_text|].
    split; [split; [exists n; repeat split; lia|]|split; [split; [discriminate|exact I]|intros _; apply (small_unsigned (bits w)); [apply bits_le|lia]]].
    intros E. injection E as ->. cbn in Hv. rewrite andb_false_r in Hv. discriminate.
  - destruct v; try discriminate. apply andb_true_iff in Hv. destruct Hv as [Hv _].
    apply andb_true_iff in Hv. destruct Hv as [H1 H2]. destruct (utf8_str _ H1 H2) as (cs & Hc & ->).
    exists (JStr cs), (encode_string (str_bytes cs)). split; [reflexivity|].
    split; [apply (text_str cs); now apply escape_body|]. split; [now exists cs|]. split; [split; [discriminate|exact I]|reflexivity].
  - destruct v; try discriminate. apply andb_true_iff in Hv. destruct Hv as [Hv _].
    destruct (octets_ok _ Hv) as (l & H1 & H2). exists (JArr l). eexists. split; [reflexivity|].
    split; [apply (text_arr l); now apply elems_sep|]. split; [|split; [split; [discriminate|now apply octets_unrepeated in H2]|intros _; now apply octets_small in H2]].
    exists bs. split; [now exists l|reflexivity].
  - destruct v; try discriminate. apply andb_true_iff in Hv. destruct Hv as [Hv Hn].
    destruct (octets_ok _ Hv) as (l & H1 & H2). exists (JArr l). eexists. split; [reflexivity|].
    split; [apply (text_arr l); now apply elems_sep|]. split; [|split; [split; [discriminate|now apply octets_unrepeated in H2]|intros _; now apply octets_small in H2]].
    exists bs. split; [now exists l|]. split; [lia|reflexivity].
  - apply andb_true_iff in Hj. destruct Hj as [Hj Hn]. apply negb_true_iff in Hn.
    destruct v; try discriminate.
    + exists JNull, lit_null. split; [reflexivity|]. split; [constructor|]. split; [now left|]. split; [split; [discriminate|exact I]|reflexivity].
    + destruct (IHt Hj Hwf v Hv HF) as (j & bs & H1 & H2 & H3 & [H4 Hun] & H5). exists j, bs. split; [assumption|].
      split; [assumption|]. split; [|split; [split; [discriminate|assumption]|assumption]]. right. split; [now apply H4|]. now exists v.
  - now apply IHt.
  - destruct v; try discriminate. apply andb_true_iff in Hv. destruct Hv as [Hv _].
    destruct (map_res_ok p t _ vs (IHt Hj Hwf) Hv HF) as (l & bs & H1 & H2 & H3 & Hun & H4). rewrite H1.
    exists (JArr l). eexists. split; [reflexivity|]. split; [apply (text_arr l); now apply elems_sep|].
    split; [now exists l, vs|]. split; [split; [discriminate|exact Hun]|exact H4].
  - destruct v; try discriminate. apply andb_true_iff in Hv. destruct Hv as [Hv Hn].
    destruct (map_res_ok p t _ vs (IHt Hj (proj1 Hwf)) Hv HF) as (l & bs & H1 & H2 & H3 & Hun & H4). rewrite H1.
    exists (JArr l). eexists. split; [reflexivity|]. split; [apply (text_arr l); now apply elems_sep|].
    split; [exists l, vs; repeat split; auto; lia|]. split; [split; [discriminate|exact Hun]|exact H4].
  - destruct v; try discriminate. apply andb_true_iff in Hv. destruct Hv as [Hv Hd].
    apply andb_true_iff in Hv. destruct Hv as [Hv _].
    destruct (map_res_ok p t _ vs (IHt Hj Hwf) Hv HF) as (l & bs & H1 & H2 & H3 & Hun & H4). rewrite H1.
    exists (JArr l). eexists. split; [reflexivity|]. split; [apply (text_arr l); now apply elems_sep|].
    split; [|split; [split; [discriminate|exact Hun]|exact H4]]. exists l, vs. repeat split; auto.
    rewrite (fold_set vs []); [reflexivity|]. now apply distinct_NoDup.
  - destruct v; try discriminate. destruct Hwf as [Hwf _]. apply allP_Forall in Hwf.
    destruct (zip_res_ok p ts (fun t => t) (jenc p)) with (vs := vs) as (l & bs & H1 & H2 & H3 & Hun & H4); [|assumption|exact HF|].
    { rewrite forallb_forall in Hj. rewrite Forall_forall in *. intros t Ht. apply H; auto. }
    rewrite H1. exists (JArr l). eexists. split; [reflexivity|]. split; [apply (text_arr l); now apply elems_sep|].
    split; [|split; [split; [discriminate|exact Hun]|exact H4]]. exists l, [], vs. now rewrite app_nil_r.
  - destruct v; try discriminate. destruct Hwf as [Hw1 Hw2]. apply andb_true_iff in Hj. destruct Hj as [Hj1 Hj2].
    apply andb_true_iff in Hv. destruct Hv as [Hv Hd]. apply andb_true_iff in Hv. destruct Hv as [Hv _].
    assert (K : exists l bs, map_res (fun kv => let* a := jkenc p t1 (fst kv) in
                       let* b := jenc p t2 (snd kv) in Ok (pair a b)) kvs = Ok bs /\ Forall2 (gmember true) l bs /\
              Forall2 (fun m kv => key_means p t1 (fst m) (fst kv) /\ means p t2 (snd m) (snd kv)) l kvs /\ allP (map (fun m => unrepeated (snd m)) l) /\ (has_float t2 = false -> forallb (fun m => small (snd m)) l = true)).
    { clear Hd. induction kvs as [|[k v] kvs IH]; cbn [forallb map_res fst snd] in *.
      - exists [], []. repeat split; constructor.
      - apply andb_true_iff in Hv. destruct Hv as [Hkv Hv]. apply andb_true_iff in Hkv. destruct Hkv as [Hk0 Hv0].
        apply andb_true_iff in HF. destruct HF as [HF HFs].
        destruct (IH Hv HFs) as (l & bs & H1 & H2 & H3 & Hul & H4).
        destruct (jkenc_ok p t1 Hj1 Hw1 k Hk0) as (cs & s & K1 & K2 & K3).
        destruct (IHt2 Hj2 Hw2 v Hv0 HF) as (j & b & J1 & J2 & J3 & [_ Jun] & Jsm).
        exists ((cs, j) :: l), (pair (34 :: s ++ [34]) b :: bs).
        rewrite K1. cbn [bind]. rewrite J1. cbn [bind]. rewrite H1. split; [reflexivity|].
        split; [constructor; auto; now apply member_pair|]. split; [constructor; auto|]. split; [split; assumption|]. intros N. cbn [forallb snd]. rewrite Jsm; auto. }
    destruct K as (l & bs & H1 & H2 & H3 & Hul & H4). rewrite H1.
    apply distinct_NoDup in Hd.
    assert (Hun : unrepeated (JObj l)).
    { split; [|exact Hul]. refine (NoDup_names _ l kvs _ H3 Hd). cbn. intros a b b' (? & ? & A & _) (? & ? & B & _).
      exact (key_means_fun p t1 Hw1 a b b' A B). }
    exists (JObj l). eexists. split; [reflexivity|]. split; [apply (text_obj l); now apply members_sep|].
    split; [|split; [split; [discriminate|exact Hun]|exact H4]]. exists l, kvs. repeat split; auto.
    rewrite (fold_map kvs []); [reflexivity|]. exact Hd.
  - destruct v; try discriminate. destruct Hwf as [Hwf _]. apply allP_Forall in Hwf.
    destruct (zip_res_ok p fs snd (fun ft => jenc p (snd ft))) with (vs := vs) as (l & bs & H1 & H2 & H3 & Hun & H4); [|assumption|exact HF|].
    { rewrite forallb_forall in Hj. rewrite Forall_forall in *. intros t Ht. apply H; auto. }
    rewrite H1. exists (JArr l). eexists. split; [reflexivity|]. split; [apply (text_arr l); now apply elems_sep|].
    split; [|split; [split; [discriminate|exact Hun]|exact H4]]. exists l, [], vs. now rewrite app_nil_r.
  - destruct v; try discriminate. destruct Hwf as (Hk & Hf & _ & Hnt & Hd & _ & Hs). apply allP_Forall in Hf.
    apply andb_true_iff in Hj. destruct Hj as [Hj1 Hj2].
    destruct (jenc_fields_ok p t fs (fun ft => jenc p (snd ft)) Hj1 Hk Hnt) with (vs := vs)
      as (l & bs & H1 & H2 & H3 & Hun & H4); [|assumption|exact HF|].
    { rewrite forallb_forall in Hj2. rewrite Forall_forall in *. intros ft Ht. apply H; auto. }
    apply distinct_NoDup in Hd. assert (Hob : unrepeated (JObj l)).
    { split; [|exact Hun]. refine (NoDup_names _ l (entries_of fs vs) _ H3 (entries_NoDup fs Hd vs)). cbn.
      intros a b b' (? & ? & A & _) (? & ? & B & _). exact (key_means_fun p t Hk a b b' A B). }
    rewrite H1. exists (JObj l). eexists. split; [reflexivity|]. split; [apply (text_obj l); now apply members_sep|].
    split; [|split; [split; [discriminate|exact Hob]|exact H4]]. exists l, (entries_of fs vs), vs.
    apply all2_length in Hv. rewrite map_length in Hv.
    repeat split; auto; [|now apply entries_fields].
    eapply Forall2_impl_in; [|exact H3]. cbn. intros [k j] [a x] _ (A & ft & B & C & D). cbn [fst snd] in *.
    split; [assumption|]. intros R HR. apply in_map_iff in HR. destruct HR as (ft' & E & Hin).
    injection E as E1 <-. assert (ft' = ft).
    { rewrite <- C in E1. apply In_nth_error in B. apply In_nth_error in Hin. destruct B as [i Bi], Hin as [i' Bi'].
      assert (i' = i).
      { eapply (proj1 (NoDup_nth_error _) Hd).
        - rewrite map_length. apply nth_error_Some. congruence.
        - rewrite !nth_error_map, Bi, Bi'. cbn. now rewrite E1. }
      congruence. }
    now subst ft'.
  - destruct v as [| | | | | | | | |i x]; try discriminate. destruct x; try discriminate.
    apply Nat.ltb_lt in Hv. destruct Hwf as (Hw & Ht & Hd).
    destruct (nth_error tags i) as [k|] eqn:E; [|apply nth_error_None in E; lia].
    rewrite forallb_forall in Ht. destruct (IHt Hj Hw k (Ht k (nth_error_In _ _ E)) HF) as (j & s & H1 & H2 & H3 & H4 & H5).
    exists j, s. split; [assumption|]. split; [assumption|]. split; [exists i, k; auto|split; assumption].
  - destruct v as [| | | | | | | | |i x]; try discriminate.
    destruct Hwf as (Hk & Hf & Hnt & Hd). apply allP_Forall in Hf. apply andb_true_iff in Hj. destruct Hj as [Hj1 Hj2].
    rewrite nth_error_map in Hv, HF |- *. destruct (nth_error vs i) as [tv|] eqn:En; [|discriminate].
    cbn [option_map] in Hv, HF |- *. assert (Hin : In tv vs) by (apply nth_error_In in En; exact En).
    rewrite forallb_forall in Hj2, Hnt. rewrite Forall_forall in H, Hf.
    destruct (jkenc_ok p t Hj1 Hk _ (Hnt tv Hin)) as (cs & s & K1 & K2 & K3).
    destruct (H tv Hin (Hj2 tv Hin) (Hf tv Hin) x Hv HF) as (j & b & J1 & J2 & J3 & [_ Jun] & Jsm).
    rewrite K1. cbn [bind]. rewrite J1. cbn [bind]. exists (JObj [(cs, j)]). eexists. split; [reflexivity|].
    split; [apply (text_obj [(cs, j)]); constructor; now apply member_pair|].
    split; [|split; [split; [discriminate|split; [repeat constructor; intros []|split; [assumption|exact I]]]|intros N; cbn [small forallb snd]; rewrite Jsm; [reflexivity|]; destruct (has_float (snd tv)) eqn:Z; [|reflexivity]; rewrite <- N; symmetry; apply existsb_exists; exists tv; auto]].
    exists cs, j, i, (fst tv), (means p (snd tv)), x. repeat split; auto. rewrite nth_error_map, En. reflexivity.
Qed.
