(** Lemmas about [JsonValue]. *)
From Verif Require Import Base Options Int Utf8 Types Storage FloatSpec Json JsonNum JsonSpec Value ValueSpec Any JsonAny JsonAnySpec JsonValue JsonValueSpec
  BaseFacts IntFacts TypesFacts ItoaFacts AnyFacts JsonFacts JsonText JsonEnc JsonSafe JsonMore JsonNumFacts JsonAnyFacts JsonDec.
From Coq Require Import ZifyBool ZifyNat ZifyN.
Local Open Scope N_scope.

Lemma integer_text n z : integer_of n = Some z -> exists neg k s, z = z_of neg k /\ int_text k s /\ jnum_enc n = sign neg ++ s /\ (neg = true -> k <> 0).
Proof.
  intros H.
  assert (HN : forall m, jnum_enc n = itoa m -> z = Z.of_N m -> exists neg k s, z = z_of neg k /\ int_text k s /\ jnum_enc n = sign neg ++ s /\ (neg = true -> k <> 0)).
  { intros m -> ->. exists false, m, (itoa m). split; [reflexivity|]. split; [apply itoa_text|]. split; [reflexivity|discriminate]. }
  assert (HZ : forall y, jnum_enc n = itoa_z y -> z = y -> exists neg k s, z = z_of neg k /\ int_text k s /\ jnum_enc n = sign neg ++ s /\ (neg = true -> k <> 0)).
  { intros y -> ->. destruct y as [|q|q]; unfold itoa_z.
    - exists false, 0, [48]. split; [reflexivity|]. split; [exact (itoa_text 0)|]. split; [reflexivity|discriminate].
    - exists false, (Npos q), (itoa (Npos q)). split; [reflexivity|]. split; [apply itoa_text|]. split; [reflexivity|discriminate].
    - exists true, (Npos q), (itoa (Npos q)). split; [reflexivity|]. split; [apply itoa_text|]. split; [reflexivity|discriminate]. }
  destruct n; cbn in H; try discriminate; injection H as <-; cbn [jnum_enc] in *; eauto.
Qed.

Lemma jkey_int n : jkey_enc (UNum n) = match integer_of n with Some _ => Ok (quoted (jnum_enc n)) | None => Err end.
Proof. destruct n; reflexivity. Qed.

Lemma jkey_ok p k a : value_ok p k -> jkey_enc k = Ok a -> exists cs s k',
  named k cs /\ body cs s /\ a = 34 :: s ++ [34] /\ key_remains k k' /\ k' = UStr (str_bytes cs).
Proof.
  intros Hk H. destruct k as [| | |n| |s| | | |]; try discriminate.
  - rewrite jkey_int in H. destruct (integer_of n) as [z|] eqn:E; [|discriminate]. injection H as <-.
    destruct (integer_text n z E) as (neg & m & s & -> & Hs & Et & Hz). rewrite Et.
    exists (sign neg ++ s), (sign neg ++ s), (UStr (sign neg ++ s)). split; [econstructor; eassumption|].
    split; [eapply int_text_body; eassumption|]. split; [reflexivity|]. split; [econstructor; eassumption|].
    f_equal. clear - Hs. destruct Hs as (_ & H & _).
    assert (A : forall l, Forall (fun c => c < 128) l -> str_bytes l = l).
    { induction 1 as [|c l Hc _ IH]; [reflexivity|]. unfold str_bytes in *. cbn [flat_map]. rewrite IH.
      unfold utf8_enc. now rewrite (proj2 (N.ltb_lt _ _) Hc). }
    symmetry. apply A. apply Forall_app. split; [destruct neg; repeat constructor|].
    eapply Forall_impl; [|exact H]. unfold digit. cbn. intros; lia.
  - injection H as <-. inversion Hk as [| | | | |bs H1 H2 H3| | | | |]; subst. destruct (utf8_str _ H1 H2) as (cs & Hc & ->).
    exists cs, (flat_map escape_byte (str_bytes cs)), (UStr (str_bytes cs)). split; [now constructor|].
    split; [now apply escape_body|]. split; [reflexivity|]. split; constructor.
Qed.

Lemma z_of_inj neg k neg' k' : z_of neg k = z_of neg' k' -> (neg = true -> k <> 0) -> (neg' = true -> k' <> 0) -> neg = neg' /\ k = k'.
Proof.
  unfold z_of. intros H A B. destruct neg, neg'; try specialize (A eq_refl); try specialize (B eq_refl);
    (split; [|lia]); try reflexivity; exfalso; lia.
Qed.

Lemma number_left p n neg k : number_ok p n -> integer_of n = Some (z_of neg k) -> exists y, number_of neg k y.
Proof.
  intros Hn E. pose proof (usize_bits_ge p). assert (Hu2 : usize_bits p <= 64) by (unfold usize_bits; destruct (ptr p); cbn; lia).
  assert (K : small_int neg k = true).
  { destruct n as [w x|w z|x|z|x|x]; cbn in E, Hn; try discriminate; injection E as E.
    - pose proof (small_unsigned (bits w) x (bits_le w) Hn) as K. unfold small_int in *. unfold z_of in E. destruct neg; [|assert (x = k) by lia; now subst].
      assert (k = 0) by lia. subst. reflexivity.
    - subst z. pose proof (bits_le w). pose proof (bits_ge w). apply (small_signed (bits w)); [lia|assumption].
    - assert (usize_bits p <= 128) as L by lia. pose proof (small_unsigned (usize_bits p) x L Hn) as K. unfold small_int in *. unfold z_of in E. destruct neg; [|assert (x = k) by lia; now subst].
      assert (k = 0) by lia. subst. reflexivity.
    - subst z. apply (small_signed (usize_bits p)); [lia|assumption]. }
  unfold small_int in K. destruct neg.
  - exists (least_signed (- Z.of_N k)). apply number_neg_ok. apply in_sb_iff. change (Z.of_N 128 - 1)%Z with 127%Z.
    apply N.leb_le in K. change (2 ^ 127)%Z with (Z.of_N (2 ^ 127)). lia.
  - exists (least_unsigned k). apply least_unsigned_ok. now apply N.ltb_lt in K.
Qed.

Definition good (p : plat) (x : value) (bs : bytes) : Prop :=
  exists j, document p x j /\ gtext true j bs /\ numeric j = a_number x /\
    (numbers whole_number x = true -> exists y, remains x y /\ jvalue j y).

Lemma map_in_good p xs : Forall (fun x => forall bs, value_ok p x -> numbers finite_number x = true -> json_encode_value x = Ok bs -> good p x bs) xs ->
  Forall (value_ok p) xs -> forallb (numbers finite_number) xs = true -> forall bs, map_in json_encode_value xs = Ok bs ->
  exists l, Forall2 (document p) xs l /\ Forall2 (gtext true) l bs /\
    (forallb (numbers whole_number) xs = true -> exists ys, Forall2 remains xs ys /\ Forall2 jvalue l ys).
Proof.
  induction 1 as [|x xs Hx _ IH]; intros Hok HF bs H; cbn [map_in] in H.
  - injection H as <-. exists []. split; [constructor|]. split; [constructor|]. intros _. exists []. split; constructor.
  - inversion Hok; subst. cbn [forallb] in HF. apply andb_true_iff in HF. destruct HF as [HF1 HF2].
    apply bind_ok in H. destruct H as (a & Ha & H). apply bind_ok in H. destruct H as (b & Hb & H). injection H as <-.
    destruct (Hx a) as (j & D & T & _ & R); try assumption.
    destruct (IH ltac:(assumption) HF2 b Hb) as (l & D' & T' & R').
    exists (j :: l). split; [now constructor|]. split; [now constructor|]. cbn [forallb]. intros W. apply andb_true_iff in W. destruct W as [W1 W2].
    destruct (R W1) as (y & R1 & R2), (R' W2) as (ys & R3 & R4). exists (y :: ys). split; now constructor.
Qed.

Lemma pair_good p k x a b : value_ok p k -> jkey_enc k = Ok a -> good p x b ->
  exists cs j, named k cs /\ document p x j /\ gmember true (cs, j) (pair a b) /\
    (numbers whole_number x = true -> exists y, key_remains k (UStr (str_bytes cs)) /\ remains x y /\ jvalue j y).
Proof.
  intros Hk Ha (j & D & T & _ & R). destruct (jkey_ok p k a Hk Ha) as (cs & s & k' & N1 & B & -> & K & ->).
  exists cs, j. split; [assumption|]. split; [assumption|]. split; [now apply member_pair|].
  intros W. destruct (R W) as (y & R1 & R2). eauto.
Qed.

Lemma entries_good p es :
  Forall (fun e => forall bs, value_ok p (snd e) -> numbers finite_number (snd e) = true -> json_encode_value (snd e) = Ok bs -> good p (snd e) bs) es ->
  Forall (fun kv => value_ok p (fst kv) /\ value_ok p (snd kv)) es ->
  forallb (fun e => numbers finite_number (fst e) && numbers finite_number (snd e)) es = true ->
  forall bs, map_in (fun '(k, y) => let* a := jkey_enc k in let* b := json_encode_value y in Ok (pair a b)) es = Ok bs ->
  exists l, Forall2 (fun e m => named (fst e) (fst m) /\ document p (snd e) (snd m)) es l /\ Forall2 (gmember true) l bs /\
    (forallb (fun e => numbers whole_number (fst e) && numbers whole_number (snd e)) es = true ->
     exists fs, Forall2 (fun e f => key_remains (fst e) (fst f) /\ remains (snd e) (snd f)) es fs /\
       Forall2 (fun m x => fst x = UStr (str_bytes (fst m)) /\ jvalue (snd m) (snd x)) l fs).
Proof.
  induction 1 as [|[k x] es Hx _ IH]; intros Hok HF bs H; cbn [map_in] in H.
  - injection H as <-. exists []. split; [constructor|]. split; [constructor|]. intros _. exists []. split; constructor.
  - inversion Hok as [|? ? [Ok1 Ok2]]; subst. cbn [forallb fst snd] in *. apply andb_true_iff in HF. destruct HF as [HF1 HF2].
    apply andb_true_iff in HF1. destruct HF1 as [_ HF1].
    apply bind_ok in H. destruct H as (a & Ha & H). apply bind_ok in H. destruct H as (b & Hb & H). injection H as <-.
    apply bind_ok in Ha. destruct Ha as (c & Hc & Ha). apply bind_ok in Ha. destruct Ha as (d & Hd & Ha). injection Ha as <-.
    destruct (pair_good p k x c d Ok1 Hc (Hx d Ok2 HF1 Hd)) as (cs & j & N1 & D & M & R).
    destruct (IH ltac:(assumption) HF2 b Hb) as (l & D' & T' & R').
    exists ((cs, j) :: l). split; [constructor; [split; assumption|assumption]|]. split; [now constructor|]. intros W.
    apply andb_true_iff in W. destruct W as [W1 W2]. apply andb_true_iff in W1. destruct W1 as [_ W1].
    destruct (R W1) as (y & K & R1 & R2), (R' W2) as (ys & R3 & R4). exists ((UStr (str_bytes cs), y) :: ys).
    split; constructor; auto.
Qed.

Lemma json_encode_value_good p x : forall bs, value_ok p x -> numbers finite_number x = true -> json_encode_value x = Ok bs -> good p x bs.
Proof.
  induction x using value_ind'; intros out Hok HF H0; cbn [json_encode_value] in H0; cbn [numbers] in HF; unfold good; cbn [numbers a_number].
  - injection H0 as <-. exists JNull. split; [constructor|]. split; [constructor|]. split; [reflexivity|]. intros _. exists UUnit. split; constructor.
  - injection H0 as <-. exists (JBool b). split; [constructor|]. split; [destruct b; constructor|]. split; [reflexivity|]. intros _. exists (UBool b). split; constructor.
  - injection H0 as <-. inversion Hok; subst. exists (JStr [c]). split; [constructor|].
    assert (E : str_bytes [c] = utf8_enc c) by (unfold str_bytes; cbn [flat_map]; now rewrite app_nil_r).
    split; [|split; [reflexivity|]].
    + pose proof (escape_body [c]) as K. rewrite E in K. apply (text_str [c]). apply K. now constructor.
    + intros _. exists (UStr (utf8_enc c)). split; [constructor|]. rewrite <- E. constructor.
  - injection H0 as <-. inversion Hok as [| | |? Hn| | | | | | |]; subst. destruct (integer_of n) as [z|] eqn:E.
    + destruct (integer_text n z E) as (neg & k & s & -> & Hs & Et & Hz). rewrite Et. exists (JInt neg k).
      split; [now constructor|]. split; [now constructor|]. split; [reflexivity|]. intros _.
      destruct (number_left p n neg k Hn E) as (y & Hy). exists (UNum y). split; [econstructor; eassumption|now constructor].
    + destruct n as [| | | |b|b]; try discriminate; cbn [jnum_enc]; cbn [finite_number] in HF.
      * destruct (JsonFloat.float_text_json Dec2flt.F32 13 (-6) b true) as (neg & ds & fs & e & b' & K1 & K2 & K3);
          [now left|lia|exact Hn|exact HF|].
        exists (JNum neg ds fs e). split; [|split; [exact K1|split; [reflexivity|discriminate]]].
        apply doc_f32. cbn [means]. exists neg, b'. split; [now rewrite K2|exact K3].
      * destruct (JsonFloat.float_text_json Dec2flt.F64 16 (-5) b true) as (neg & ds & fs & e & b' & K1 & K2 & K3);
          [now right|lia|exact Hn|exact HF|].
        exists (JNum neg ds fs e). split; [|split; [exact K1|split; [reflexivity|discriminate]]].
        apply doc_f64. cbn [means]. exists neg, b'. split; [now rewrite K2|exact K3].
  - injection H0 as <-. inversion Hok; subst. destruct (octets_ok bs) as (l & P1 & P2); [assumption|].
    exists (JArr l). split; [constructor; clear - P2; induction P2 as [|? ? ? ? [-> _] _ IH]; now constructor|].
    split; [apply (text_arr l); now apply elems_sep|]. split; [reflexivity|]. intros _. eexists. split; [constructor; clear - P2; induction P2 as [|? ? ? ? [_ Hb] _ IH]; now constructor|].
    constructor. clear - P2. induction P2 as [|? b ? ? [-> Hb] _ IH]; cbn [map]; constructor; [|assumption].
    constructor. replace (NU W8 b) with (least_unsigned b); [apply least_unsigned_ok; eapply N.lt_trans; [exact Hb|reflexivity]|].
    unfold least_unsigned. change (2 ^ 8) with 256. now rewrite (proj2 (N.ltb_lt _ _) Hb).
  - injection H0 as <-. inversion Hok as [| | | | |? A B C| | | | |]; subst. destruct (utf8_str _ A B) as (cs & Hc & ->).
    exists (JStr cs). split; [now constructor|]. split; [apply (text_str cs); now apply escape_body|]. split; [reflexivity|].
    intros _. eexists. split; constructor.
  - apply bind_ok in H0. destruct H0 as (l & Hl & E). injection E as <-. inversion Hok; subst.
    destruct (map_in_good p xs) with (bs := l) as (js & D & T & R); try assumption.
    exists (JArr js). split; [now constructor|]. split; [apply (text_arr js); now apply elems_sep|]. split; [reflexivity|].
    intros W. destruct (R W) as (ys & R1 & R2). exists (USeq ys). split; now constructor.
  - apply bind_ok in H0. destruct H0 as (l & Hl & E). injection E as <-. inversion Hok; subst.
    destruct (entries_good p es) with (bs := l) as (js & D & T & R); try assumption.
    { eapply Forall_impl; [|exact H]. intros e [_ He]. exact He. }
    exists (JObj js). split; [now constructor|]. split; [apply (text_obj js); now apply members_sep|]. split; [reflexivity|].
    intros W. destruct (R W) as (ys & R1 & R2). exists (UMap ys). split; now constructor.
  - apply bind_ok in H0. destruct H0 as (a & Ha & H0). apply bind_ok in H0. destruct H0 as (b & Hb & E). injection E as <-.
    inversion Hok; subst. apply andb_true_iff in HF. destruct HF as [_ HF].
    destruct (pair_good p x1 x2 a b) as (cs & j & N1 & D & M & R); try assumption; [now apply IHx2|].
    exists (JObj [(cs, j)]). split; [now constructor|].
    split; [apply (text_obj [(cs, j)]), members_sep; now repeat constructor|]. split; [reflexivity|].
    intros W. apply andb_true_iff in W. destruct W as [_ W]. destruct (R W) as (y & K & R1 & R2).
    exists (UMap [(UStr (str_bytes cs), y)]). split; [now constructor|]. constructor. constructor; [|constructor]. split; [reflexivity|assumption].
  - injection H0 as <-. exists JNull. split; [constructor|]. split; [constructor|]. split; [reflexivity|]. intros _. exists UUnit. split; constructor.
  - inversion Hok; subst. destruct (IHx out) as (j & D & T & Nm & R); try assumption.
    exists j. split; [now constructor|]. split; [assumption|]. split; [assumption|]. intros W. destruct (R W) as (y & R1 & R2).
    exists y. split; [now constructor|assumption].
Qed.

(** ** When it succeeds *)

Lemma jkey_enc_iff k : match jkey_enc k with Ok _ => key_like k = true | Err => key_like k = false | Panic => False end.
Proof. destruct k as [| | |n| | | | | |]; try reflexivity. rewrite jkey_int. cbn [key_like]. destruct (integer_of n); reflexivity. Qed.

Lemma encodes_iff x : match json_encode_value x with Ok _ => keys_like x = true | Err => keys_like x = false | Panic => False end.
Proof.
  induction x using value_ind'; cbn [json_encode_value keys_like]; try reflexivity.
  - assert (K : match map_in json_encode_value xs with Ok _ => forallb keys_like xs = true | Err => forallb keys_like xs = false | Panic => False end).
    { induction H as [|x xs Hx _ IH]; cbn [map_in forallb]; [reflexivity|].
      destruct (json_encode_value x); cbn [bind]; rewrite ?Hx; try reflexivity; try contradiction.
      destruct (map_in json_encode_value xs); cbn [bind]; rewrite ?IH; try reflexivity; contradiction. }
    destruct (map_in json_encode_value xs); exact K.
  - set (f := fun '(k, y) => let* a := jkey_enc k in let* b := json_encode_value y in Ok (pair a b)).
    assert (K : match map_in f es with Ok _ => forallb (fun e => key_like (fst e) && keys_like (snd e)) es = true
                | Err => forallb (fun e => key_like (fst e) && keys_like (snd e)) es = false | Panic => False end).
    { induction H as [|[k x] es [_ Hx] _ IH]; cbn [map_in forallb fst snd]; [reflexivity|]. unfold f at 1. cbn [fst snd] in Hx. pose proof (jkey_enc_iff k) as Hk.
      destruct (jkey_enc k); cbn [bind]; rewrite ?Hk; try reflexivity; try contradiction.
      destruct (json_encode_value x); cbn [bind]; rewrite ?Hx; try reflexivity; try contradiction.
      destruct (map_in f es); cbn [bind]; rewrite ?IH; try reflexivity; contradiction. }
    destruct (map_in f es); exact K.
  - pose proof (jkey_enc_iff x1) as Hk. destruct (jkey_enc x1); cbn [bind]; rewrite ?Hk; try reflexivity; try contradiction.
    destruct (json_encode_value x2); cbn [bind]; rewrite ?IHx2; try reflexivity; contradiction.
  - exact IHx.
Qed.

(** ** What remains *)

Lemma number_of_integer neg k y : number_of neg k y -> integer_of y = Some (z_of neg k).
Proof. intros [n w _|n w _]; reflexivity. Qed.

Lemma number_of_fun neg k y y' : number_of neg k y -> number_of neg k y' -> y = y'.
Proof.
  intros H H'. destruct neg; [apply least_signed_inv in H; apply least_signed_inv in H'|apply least_unsigned_inv in H; apply least_unsigned_inv in H'];
    destruct H as [_ ->], H' as [_ ->]; reflexivity.
Qed.

Lemma value_snoc l d : JsonNumSpec.value (l ++ [d]) = JsonNumSpec.value l * 10 + (d - 48).
Proof. rewrite value_app. reflexivity. Qed.

Lemma digits_inj s : Forall digit s -> forall s', Forall digit s' -> length s = length s' -> JsonNumSpec.value s = JsonNumSpec.value s' -> s = s'.
Proof.
  induction s as [|d s IH] using rev_ind; intros Hs s' Hs' L E.
  - destruct s'; [reflexivity|discriminate].
  - destruct s' as [|d' s' _] using rev_ind; [rewrite app_length in L; cbn in L; lia|].
    rewrite !app_length in L. cbn [length] in L. rewrite !value_snoc in E.
    apply Forall_app in Hs. destruct Hs as [Hs Hd]. apply Forall_app in Hs'. destruct Hs' as [Hs' Hd'].
    inversion Hd as [|? ? D _]; subst. inversion Hd' as [|? ? D' _]; subst. unfold digit in D, D'.
    assert (d = d') by lia. subst. f_equal. apply IH; [assumption|assumption|lia|lia].
Qed.

Lemma int_text_low n s : int_text n s -> s <> [48] -> 10 ^ (lenN s - 1) <= n.
Proof.
  intros (Hne & Hd & Hz & <-) H. destruct s as [|d s]; [contradiction|]. inversion Hd as [|? ? D _]; subst. unfold digit in D. cbn [hd] in Hz.
  change (d :: s) with ([d] ++ s). rewrite value_app. change (JsonNumSpec.value [d]) with (0 + (d - 48)).
  rewrite lenN_app. change (lenN [d]) with 1. replace (1 + lenN s - 1) with (lenN s) by lia.
  assert (d <> 48) by (intros ->; apply H; now apply Hz). nia.
Qed.

Lemma int_text_eq k s s' : int_text k s -> int_text k s' -> s = s'.
Proof.
  intros H H'.
  assert (Z : forall t, int_text k t -> t = [48] -> k = 0) by (intros t (_ & _ & _ & <-) ->; reflexivity).
  assert (Z' : forall t, int_text k t -> k = 0 -> t = [48]).
  { intros t Ht ->. destruct (list_eq_dec N.eq_dec t [48]) as [E|E]; [assumption|]. pose proof (int_text_low 0 t Ht E). pose proof (pow10_pos (lenN t - 1)). lia. }
  destruct (N.eq_dec k 0) as [E|E]; [now rewrite (Z' s H E), (Z' s' H' E)|].
  assert (N1 : s <> [48]) by (intros ->; apply E; now apply (Z [48])). assert (N2 : s' <> [48]) by (intros ->; apply E; now apply (Z [48])).
  pose proof (int_text_low k s H N1) as L1. pose proof (int_text_low k s' H' N2) as L2.
  destruct H as (Hne & Hd & _ & V), H' as (Hne' & Hd' & _ & V'). pose proof (value_lt s Hd) as U1. pose proof (value_lt s' Hd') as U2. rewrite V in U1. rewrite V' in U2.
  assert (P1 : 1 <= lenN s) by (unfold lenN; destruct s; [contradiction|cbn [length]; lia]).
  assert (P2 : 1 <= lenN s') by (unfold lenN; destruct s'; [contradiction|cbn [length]; lia]).
  assert (A : lenN s - 1 < lenN s') by (apply (N.pow_lt_mono_r_iff 10); [lia|]; lia).
  assert (B : lenN s' - 1 < lenN s) by (apply (N.pow_lt_mono_r_iff 10); [lia|]; lia).
  apply digits_inj; try assumption; [unfold lenN in *; lia|congruence].
Qed.

Lemma key_remains_fun k a b : key_remains k a -> key_remains k b -> a = b.
Proof.
  intros H H'. inversion H as [|n neg i s E1 Z1 T1]; subst; inversion H' as [|n' neg' i' s' E2 Z2 T2]; subst; [reflexivity|].
  rewrite E1 in E2. injection E2 as E2. destruct (z_of_inj _ _ _ _ E2 Z1 Z2) as [-> ->]. now rewrite (int_text_eq _ _ _ T1 T2).
Qed.

Lemma remains_fun x : forall a b, remains x a -> remains x b -> a = b.
Proof.
  induction x using value_ind'; intros u v Hu Hv.
  - inversion Hu; inversion Hv; congruence.
  - inversion Hu; inversion Hv; congruence.
  - inversion Hu; inversion Hv; congruence.
  - inversion Hu as [| | |? neg k y E1 Z1 T1| | | | | | |]; subst; inversion Hv as [| | |? neg' k' y' E2 Z2 T2| | | | | | |]; subst.
    rewrite E1 in E2. injection E2 as E2. destruct (z_of_inj _ _ _ _ E2 Z1 Z2) as [-> ->]. now rewrite (number_of_fun _ _ _ _ T1 T2).
  - inversion Hu; inversion Hv; congruence.
  - inversion Hu; inversion Hv; congruence.
  - inversion Hu as [| | | | | |? ys A| | | |]; subst; inversion Hv as [| | | | | |? zs B| | | |]; subst. f_equal. clear Hu Hv. revert zs B.
    induction A as [|x y xs ys Hxy _ IH]; intros zs B; inversion B; subst; [reflexivity|]. inversion H; subst. f_equal; [eauto|]. apply IH; assumption.
  - inversion Hu as [| | | | | | |? ys A| | |]; subst; inversion Hv as [| | | | | | |? zs B| | |]; subst. f_equal. clear Hu Hv. revert zs B.
    induction A as [|[k x] [k1 y] es ys [K R] _ IH]; intros zs B; inversion B as [|? [k2 z] ? zs' [K' R'] B']; subst; [reflexivity|]. inversion H as [|? ? [_ Hx] H']; subst.
    cbn [fst snd] in *. rewrite (key_remains_fun _ _ _ K K'), (Hx _ _ R R'). f_equal. now apply IH.
  - inversion Hu as [| | | | | | | |? ? k1 y1 K R| |]; subst; inversion Hv as [| | | | | | | |? ? k2 y2 K' R'| |]; subst.
    now rewrite (key_remains_fun _ _ _ K K'), (IHx2 _ _ R R').
  - inversion Hu; inversion Hv; congruence.
  - inversion Hu; inversion Hv; subst. eauto.
Qed.

(** What remains is written in the same way and remains as it is. *)
Lemma key_remains_settled k k' : key_remains k k' -> key_remains k' k' /\ jkey_enc k' = jkey_enc k.
Proof.
  intros H. inversion H as [|n neg i s E Z T]; subst; [split; [constructor|reflexivity]|]. split; [constructor|].
  rewrite jkey_int, E. destruct (integer_text n _ E) as (neg' & i' & s' & Ez & T' & -> & Z'). cbn [jkey_enc].
  destruct (z_of_inj _ _ _ _ Ez Z Z') as [<- <-]. rewrite (int_text_eq _ _ _ T' T). unfold encode_string, quoted. f_equal. f_equal. f_equal.
  assert (A : forall l, Forall (fun b => 45 <= b <= 57) l -> flat_map escape_byte l = l).
  { induction 1 as [|b l Hb _ IH]; cbn [flat_map]; [reflexivity|]. rewrite IH. unfold escape_byte.
    repeat match goal with |- context [if ?c then _ else _] => destruct c eqn:?; [lia|] end. reflexivity. }
  apply A. apply Forall_app. split; [destruct neg; repeat constructor; lia|]. destruct T as (_ & T & _). eapply Forall_impl; [|exact T]. unfold digit. cbn. intros; lia.
Qed.

Lemma number_settled neg k y : number_of neg k y -> (neg = true -> k <> 0) -> remains (UNum y) (UNum y).
Proof. intros H Z. econstructor; [exact (number_of_integer _ _ _ H)|assumption|assumption]. Qed.

Lemma octet_number b : b < 256 -> number_of false b (NU W8 b).
Proof.
  intros Hb. replace (NU W8 b) with (least_unsigned b); [apply least_unsigned_ok; eapply N.lt_trans; [exact Hb|reflexivity]|].
  unfold least_unsigned. change (2 ^ 8) with 256. now rewrite (proj2 (N.ltb_lt _ _) Hb).
Qed.
Lemma octet_settled b : b < 256 -> remains (UNum (NU W8 b)) (UNum (NU W8 b)).
Proof. intros Hb. apply (number_settled false b); [now apply octet_number|discriminate]. Qed.

Lemma number_text n neg k y : integer_of n = Some (z_of neg k) -> (neg = true -> k <> 0) -> number_of neg k y -> jnum_enc y = jnum_enc n.
Proof.
  intros E Z H. pose proof (number_of_integer _ _ _ H) as E'.
  destruct (integer_text n _ E) as (n1 & i1 & s1 & A1 & T1 & -> & Z1), (integer_text y _ E') as (n2 & i2 & s2 & A2 & T2 & -> & Z2).
  destruct (z_of_inj _ _ _ _ A1 Z Z1) as [<- <-], (z_of_inj _ _ _ _ A2 Z Z2) as [<- <-]. now rewrite (int_text_eq _ _ _ T1 T2).
Qed.

Lemma remains_settled x : forall y, remains x y -> remains y y /\ json_encode_value y = json_encode_value x.
Proof.
  induction x using value_ind'; intros v Hv.
  - inversion Hv; subst. split; [constructor|reflexivity].
  - inversion Hv; subst. split; [constructor|reflexivity].
  - inversion Hv; subst. split; [constructor|reflexivity].
  - inversion Hv as [| | |? neg k y E Z T| | | | | | |]; subst. split; [now apply number_settled in T|]. cbn [json_encode_value]. f_equal. now apply (number_text n neg k).
  - inversion Hv as [| | | |? Hb| | | | | |]; subst. clear Hv. cbn [json_encode_value].
    assert (K : Forall2 remains (map (fun b => UNum (NU W8 b)) bs) (map (fun b => UNum (NU W8 b)) bs) /\
      map_in json_encode_value (map (fun b => UNum (NU W8 b)) bs) = Ok (map itoa bs)).
    { induction Hb as [|b bs Hb _ [I1 I2]]; cbn [map]; [split; [constructor|reflexivity]|].
      split; [constructor; [now apply octet_settled|assumption]|]. cbn [map_in]. now rewrite I2. }
    destruct K as [K1 K2]. split; [now constructor|]. now rewrite K2.
  - inversion Hv; subst. split; [constructor|reflexivity].
  - inversion Hv as [| | | | | |? ys A| | | |]; subst. clear Hv.
    assert (K : Forall2 remains ys ys /\ map_in json_encode_value ys = map_in json_encode_value xs).
    { induction A as [|x y xs ys Hxy _ IH]; [split; [constructor|reflexivity]|]. inversion H as [|? ? Hx H']; subst.
      destruct (IH H') as [I1 I2], (Hx _ Hxy) as [J1 J2]. split; [now constructor|]. cbn [map_in]. now rewrite J2, I2. }
    destruct K as [K1 K2]. split; [now constructor|]. cbn [json_encode_value]. now rewrite K2.
  - inversion Hv as [| | | | | | |? ys A| | |]; subst. clear Hv. cbn [json_encode_value].
    set (f := fun '(k, y) => let* a := jkey_enc k in let* b := json_encode_value y in Ok (pair a b)).
    assert (K : Forall2 (fun e f => key_remains (fst e) (fst f) /\ remains (snd e) (snd f)) ys ys /\ map_in f ys = map_in f es).
    { induction A as [|[k x] [k' y] es ys [Hk Hxy] _ IH]; [split; [constructor|reflexivity]|]. inversion H as [|? ? [_ Hx] H']; subst. cbn [fst snd] in *.
      destruct (IH H') as [I1 I2], (Hx _ Hxy) as [J1 J2], (key_remains_settled _ _ Hk) as [L1 L2].
      split; [constructor; [split; assumption|assumption]|]. cbn [map_in]. rewrite I2. unfold f at 1 3. now rewrite L2, J2. }
    destruct K as [K1 K2]. split; [now constructor|]. now rewrite K2.
  - inversion Hv as [| | | | | | | |? ? k' y K R| |]; subst. destruct (IHx2 _ R) as [J1 J2], (key_remains_settled _ _ K) as [L1 L2].
    split; [constructor; constructor; [split; assumption|constructor]|]. cbn [json_encode_value map_in]. rewrite L2, J2.
    destruct (jkey_enc x1); try reflexivity. destruct (json_encode_value x2); reflexivity.
  - inversion Hv; subst. split; [constructor|reflexivity].
  - inversion Hv; subst. cbn [json_encode_value]. auto.
Qed.

Lemma jvalue_settled y : forall j, jvalue j y -> numbers not_minus_zero y = true -> remains y y.
Proof.
  induction y using value_ind'; intros j Hj W; cbn [numbers] in W; inversion Hj as [|b'|neg n' a Ha|cs|l ys Hl|l ys Hl]; subst; try constructor.
  - apply (number_settled neg n'); [assumption|]. intros -> ->. inversion Ha as [|? w Hw E1 E2]; subst. discriminate W.
  - clear Hj. revert W. induction Hl as [|j y l ys Hjy _ IH]; cbn [forallb]; intros W; [constructor|]. inversion H as [|? ? Hy H']; subst.
    apply andb_true_iff in W. destruct W as [W1 W2]. constructor; eauto.
  - clear Hj. revert W. induction Hl as [|j [k y] l ys [Hk Hjy] _ IH]; cbn [forallb]; intros W; [constructor|]. inversion H as [|? ? [_ Hy] H']; subst.
    cbn [fst snd] in *. apply andb_true_iff in W. destruct W as [W1 W2]. apply andb_true_iff in W1. destruct W1 as [_ W1]. subst k.
    constructor; [|now apply IH]. split; [constructor|]. cbn [snd]. eauto.
Qed.

Lemma jvalue_written y : forall j, jvalue j y -> keys_like y = true /\ numbers whole_number y = true.
Proof.
  induction y using value_ind'; intros j Hj; cbn [numbers keys_like]; inversion Hj as [|b'|neg n' a Ha|cs|l ys Hl|l ys Hl]; subst; try (split; reflexivity).
  - split; [reflexivity|]. unfold whole_number. now rewrite (number_of_integer _ _ _ Ha).
  - clear Hj. induction Hl as [|j y l ys Hjy _ IH]; cbn [forallb]; [split; reflexivity|]. inversion H as [|? ? Hy H']; subst.
    destruct (IH H') as [-> ->], (Hy _ Hjy) as [-> ->]. split; reflexivity.
  - clear Hj. induction Hl as [|j [k y] l ys [Hk Hjy] _ IH]; cbn [forallb]; [split; reflexivity|]. inversion H as [|? ? [_ Hy] H']; subst.
    cbn [fst snd] in *. destruct (IH H') as [-> ->], (Hy _ Hjy) as [-> ->]. subst k. split; reflexivity.
Qed.
