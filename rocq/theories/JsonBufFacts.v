(** Decoding through a buffered value: [vdec] on the value of a JSON document. *)
From Verif Require Import Base Options Int Utf8 Types Json JsonNum JsonSpec JsonNumSpec Value ValueSpec JsonAny JsonAnySpec BaseFacts
  Utf8Facts TypesFacts JsonFacts JsonText JsonDec JsonSafe JsonMore JsonNumFacts JsonAnyFacts JsonEnc JsonFinite Tagged TaggedSpec.
From Coq Require Import ZifyBool ZifyNat ZifyN.
Local Open Scope N_scope.

(** ** Integers in keys *)

Lemma vdigits_ok s : Forall digit s -> forall acc, Value.digits (Z.of_N acc) s = Some (Z.of_N (value_from acc s)).
Proof.
  induction 1 as [|c s Hc _ IH]; intros acc; cbn [Value.digits]; [reflexivity|]. red in Hc.
  destruct (_ && _) eqn:E; [|lia].
  replace (10 * Z.of_N acc + (Z.of_N c - 48))%Z with (Z.of_N (10 * acc + (c - 48))) by lia. rewrite IH. reflexivity.
Qed.

Lemma vdigits_value s : Forall digit s -> Value.digits 0 s = Some (Z.of_N (JsonNumSpec.value s)).
Proof. intros H. exact (vdigits_ok s H 0). Qed.

Lemma parse_int_pos sg b n s : int_text n s -> int_fits sg b (Z.of_N n) = true -> parse_int sg b s = Some (Z.of_N n).
Proof.
  intros (Hne & Hd & _ & Hn) Hf. pose proof (vdigits_value s Hd) as V. destruct s as [|c s]; [congruence|]. inversion Hd as [|? ? Hc _]; subst.
  red in Hc. assert (E : parse_int sg b (c :: s) =
    match Value.digits 0 (c :: s) with Some z => if int_fits sg b z then Some z else None | None => None end).
  { unfold parse_int. destruct c as [|q]; [lia|]. do 6 (destruct q as [q|q|]; try reflexivity; try lia). }
  rewrite E, V. now rewrite Hf.
Qed.

Lemma parse_int_neg b n s : int_text n s -> int_fits true b (- Z.of_N n) = true -> parse_int true b (45 :: s) = Some (- Z.of_N n)%Z.
Proof.
  intros (Hne & Hd & _ & Hn) Hf. pose proof (vdigits_value s Hd) as V. destruct s as [|c s]; [congruence|].
  unfold parse_int. rewrite V, Hn, Hf. reflexivity.
Qed.

Lemma fits_unsigned b n : n < 2 ^ b -> int_fits false b (Z.of_N n) = true.
Proof.
  intros H. unfold int_fits, int_min, int_max. assert (Z.of_N n < Z.of_N (2 ^ b))%Z by lia. rewrite N2Z.inj_pow in H0.
  change (Z.of_N 2) with 2%Z in H0. lia.
Qed.

Lemma fits_signed b z : in_sb b z = true -> int_fits true b z = true.
Proof. intros H. apply in_sb_iff in H. unfold int_fits, int_min, int_max. lia. Qed.

Lemma str_int n s : int_text n s -> str_bytes s = s.
Proof. intros H. apply str_bytes_ascii. now apply int_text_ascii in H. Qed.

Lemma str_signed neg n s : int_text n s -> str_bytes (sign neg ++ s) = sign neg ++ s.
Proof.
  intros H. apply str_bytes_ascii. apply Forall_app. split; [destruct neg; [constructor; [reflexivity|constructor]|constructor]|].
  now apply int_text_ascii in H.
Qed.

Lemma as_int_key_unsigned b n cs : int_text n cs -> n < 2 ^ b -> as_int true false b (UStr (str_bytes cs)) = Ok (Z.of_N n).
Proof.
  intros H1 H2. unfold as_int. rewrite (str_int n) by assumption. rewrite (parse_int_pos false b n); [reflexivity|assumption|now apply fits_unsigned].
Qed.

Lemma as_int_key_signed b neg n s : int_text n s -> in_sb b (z_of neg n) = true ->
  as_int true true b (UStr (str_bytes (sign neg ++ s))) = Ok (z_of neg n).
Proof.
  intros H1 H2. unfold as_int. rewrite (str_signed neg n) by assumption. unfold z_of in *. destruct neg; cbn [sign app].
  - rewrite (parse_int_neg b n); [reflexivity|assumption|now apply fits_signed].
  - rewrite (parse_int_pos true b n); [reflexivity|assumption|now apply fits_signed].
Qed.

Lemma vdec_key p o keys t : wf p t -> forall cs v, key_means p t cs v -> vdec p o keys true t (UStr (str_bytes cs)) = Ok v.
Proof.
  induction t using ty_ind'; intros Hwf cs v Hm; cbn [key_means] in Hm; try contradiction; cbn [vdec vleaf_dec].
  - destruct Hm as (n & Hi & Hn & ->). rewrite (as_int_key_unsigned _ n) by assumption. cbn [bind]. now rewrite N2Z.id.
  - destruct Hm as (neg & n & s0 & -> & Hi & Hn & ->). now rewrite (as_int_key_signed _ neg n).
  - destruct Hm as (n & Hi & Hn & ->). rewrite (as_int_key_unsigned _ n) by assumption. cbn [bind]. now rewrite N2Z.id.
  - destruct Hm as (neg & n & s0 & -> & Hi & Hn & ->). now rewrite (as_int_key_signed _ neg n).
  - destruct Hm as ((n & Hi & Hn & ->) & Hz). rewrite (as_int_key_unsigned _ n) by assumption. cbn [bind]. rewrite N2Z.id.
    destruct (Z.of_N n =? 0)%Z eqn:E; [|reflexivity]. assert (n = 0) by lia. subst. congruence.
  - now subst v.
  - cbn [wf] in Hwf. now apply IHt.
  - destruct Hm as (i & k & -> & Hk & Hm). cbn [wf] in Hwf. destruct Hwf as (Hk1 & _ & Hd).
    rewrite (IHt Hk1 cs k) by assumption. cbn [bind].
    rewrite (find_name_nth tags i k); [reflexivity|now apply distinct_NoDup|assumption].
Qed.

(** ** Everything *)

Lemma from_number_of sg b neg n x : number_of neg n x -> int_fits sg b (z_of neg n) = true -> from_number sg b x = Some (z_of neg n).
Proof. intros Hx Hf. inversion Hx; subst; cbn [from_number z_of] in *; now rewrite Hf. Qed.

Lemma as_int_unsigned key b n x : number_of false n x -> n < 2 ^ b -> as_int key false b (UNum x) = Ok (Z.of_N n).
Proof. intros Hx Hn. unfold as_int. rewrite (from_number_of false b false n x Hx); [reflexivity|now apply fits_unsigned]. Qed.

Lemma as_int_signed key b neg n x : number_of neg n x -> in_sb b (z_of neg n) = true -> as_int key true b (UNum x) = Ok (z_of neg n).
Proof. intros Hx Hn. unfold as_int. rewrite (from_number_of true b neg n x Hx); [reflexivity|now apply fits_signed]. Qed.

Lemma Forall2_same {A B} (R : A -> B -> Prop) l m : Forall2 R l m -> length l = length m.
Proof. induction 1; cbn; congruence. Qed.

Lemma vdec_each_ok (R : jtree -> val -> Prop) (d : Value.value -> res val) : (forall j v x, R j v -> jvalue j x -> d x = Ok v) ->
  forall l vs, Forall2 R l vs -> forall xs, Forall2 jvalue l xs -> vdec_each d xs = Ok vs.
Proof.
  intros Hd l vs H. induction H as [|j v l vs Hj _ IH]; intros xs Hx; inversion Hx; subst; cbn [vdec_each]; [reflexivity|].
  rewrite (Hd j v) by assumption. cbn [bind]. rewrite IH by assumption. reflexivity.
Qed.

Lemma vfold_ok {A B S} (R : A -> B -> Prop) (Y : A -> Value.value * Value.value -> Prop) (f : S -> B -> S)
    (d : S -> Value.value * Value.value -> res S) :
  (forall a b y s, R a b -> Y a y -> d s y = Ok (f s b)) ->
  forall l vs, Forall2 R l vs -> forall ys s, Forall2 Y l ys -> vfold d s ys = Ok (fold_left f vs s).
Proof.
  intros Hd l vs H. induction H as [|a b l vs Ha _ IH]; intros ys s Hy; inversion Hy; subst; cbn [vfold fold_left]; [reflexivity|].
  rewrite (Hd a b) by assumption. cbn [bind]. now apply IH.
Qed.

Lemma vfold_seq {S} (R : jtree -> val -> Prop) (f : S -> val -> S) (d : S -> Value.value -> res S) :
  (forall a b y s, R a b -> jvalue a y -> d s y = Ok (f s b)) ->
  forall l vs, Forall2 R l vs -> forall ys s, Forall2 jvalue l ys -> vfold d s ys = Ok (fold_left f vs s).
Proof.
  intros Hd l vs H. induction H as [|a b l vs Ha _ IH]; intros ys s Hy; inversion Hy; subst; cbn [vfold fold_left]; [reflexivity|].
  rewrite (Hd a b) by assumption. cbn [bind]. now apply IH.
Qed.

Definition buffers (p : plat) (o : N) (t : ty) : Prop :=
  forall key j v x, means p t j v -> jvalue j x -> vdec p o true key t x = Ok v.

Lemma vdec_list_ok p o ts : Forall (buffers p o) ts -> forall l vs extra xs, each (map (means p) ts) l vs ->
  Forall2 jvalue (l ++ extra) xs -> vdec_list (map (vdec p o true false) ts) xs = Ok vs.
Proof.
  intros H. induction H as [|t ts Ht _ IH]; cbn [map]; intros l vs extra xs He Hx; inversion He as [|R Rs a l0 b m Ra Hm]; subst; cbn [vdec_list]; [reflexivity|].
  cbn [app] in Hx. inversion Hx; subst. rewrite (Ht false a b) by assumption. cbn [bind]. erewrite IH by eassumption. reflexivity.
Qed.

Lemma vdec_struct_entries p o kt fs l kvs xs :
  wf p kt -> Forall (fun ft => buffers p o (snd ft)) fs ->
  Forall2 (fun m kv => key_means p kt (fst m) (fst kv) /\
    (forall R, In (fst kv, R) (map (fun ft => (fname (fst ft), means p (snd ft))) fs) -> R (snd m) (snd kv))) l kvs ->
  Forall2 (fun m x => fst x = UStr (str_bytes (fst m)) /\ jvalue (snd m) (snd x)) l xs ->
  forall s, vfold (vdec_field (vdec p o true true kt) (map (fun ft => fname (fst ft)) fs) (map (fun ft => vdec p o true false (snd ft)) fs)) s xs
    = Ok (fold_left (put (map (fun ft => fname (fst ft)) fs)) kvs s).
Proof.
  intros Hk Hf H Hx s. set (names := map (fun ft => fname (fst ft)) fs).
  eapply vfold_ok; [|exact H|exact Hx].
  intros [ks j] [a x] [kx y] s0 [H1 H2] [H3 H4]. cbn [fst snd] in *. subst kx. unfold vdec_field. cbn [fst snd].
  rewrite (vdec_key p o true kt Hk ks a H1). cbn [bind]. unfold put. cbn [fst snd].
  destruct (find_name a names) as [i|] eqn:Ei; [|reflexivity].
  apply find_name_some in Ei. unfold names in Ei. rewrite nth_error_map in Ei.
  destruct (nth_error fs i) as [ft|] eqn:En; [|discriminate]. cbn in Ei. injection Ei as <-.
  rewrite nth_error_map, En. cbn [option_map]. assert (Hin : In ft fs) by (apply nth_error_In in En; exact En).
  rewrite Forall_forall in Hf. rewrite (Hf ft Hin false j x y); [reflexivity| |assumption].
  apply H2. apply in_map_iff. exists ft. auto.
Qed.

Lemma buffers_all p o t : wf p t -> jbuf t = true -> buffers p o t.
Proof.
  unfold buffers.
  induction t using ty_ind'; intros Hwf Hb key j v x Hm Hx; cbn [jbuf] in Hb; try discriminate Hb; cbn [means] in Hm; cbn [vdec vleaf_dec].
  - destruct Hm as (b & -> & ->). now inversion Hx.
  - destruct Hm as (n & -> & Hn & ->). inversion Hx; subst. rewrite (as_int_unsigned _ _ n) by assumption. cbn [bind]. now rewrite N2Z.id.
  - destruct Hm as (neg & n & -> & Hn & ->). inversion Hx; subst. now rewrite (as_int_signed _ _ neg n).
  - destruct Hm as (n & -> & Hn & ->). inversion Hx; subst. rewrite (as_int_unsigned _ _ n) by assumption. cbn [bind]. now rewrite N2Z.id.
  - destruct Hm as (neg & n & -> & Hn & ->). inversion Hx; subst. now rewrite (as_int_signed _ _ neg n).
  - destruct Hm as ((n & -> & Hn & ->) & Hz). inversion Hx; subst. rewrite (as_int_unsigned _ _ n) by assumption. cbn [bind]. rewrite N2Z.id.
    destruct (Z.of_N n =? 0)%Z eqn:E; [|reflexivity]. assert (n = 0) by lia. subst. congruence.
  - destruct Hm as (cs & -> & ->). now inversion Hx.
  - cbn [wf] in Hwf. now apply (IHt Hwf Hb key j).
  - destruct Hm as (l & vs & -> & Hl & ->). inversion Hx; subst.
    rewrite (vdec_each_ok (means p t) _ (fun j v x => IHt Hwf Hb false j v x) l vs) by assumption. reflexivity.
  - destruct Hm as (l & vs & -> & Hl & Hn & ->). destruct Hwf as [Hwf _]. inversion Hx as [| | | |l0 xs Hxs|]; subst.
    assert (L : lenN xs = lenN vs).
    { apply Forall2_same in Hl. apply Forall2_same in Hxs. unfold lenN. lia. }
    rewrite L. rewrite N.min_l by lia. rewrite <- L. unfold lenN at 1. rewrite Nat2N.id, firstn_all.
    rewrite (vdec_each_ok (means p t) _ (fun j v x => IHt Hwf Hb false j v x) l vs) by assumption. cbn [bind]. rewrite L, N.eqb_refl. reflexivity.
  - destruct Hm as (l & vs & -> & Hl & ->). inversion Hx; subst.
    rewrite (vfold_seq (means p t) (fun s x => set_insert x s)) with (l := l) (vs := vs); [reflexivity| |assumption|assumption].
    intros a b y s Ha Hy. rewrite (IHt Hwf Hb false a b y Ha Hy). reflexivity.
  - destruct Hm as (l & extra & vs & -> & -> & Hl). destruct Hwf as [Hwf _]. apply allP_Forall in Hwf.
    rewrite forallb_forall in Hb. inversion Hx; subst.
    erewrite vdec_list_ok; [reflexivity| |eassumption|eassumption].
    rewrite Forall_forall in *. intros t Ht'. unfold buffers. apply H; auto.
  - destruct Hm as (l & kvs & -> & Hl & ->). destruct Hwf as [Hk Hv]. inversion Hx; subst.
    erewrite (vfold_ok _ _ (fun s kv => map_insert (fst kv) (snd kv) s)); [reflexivity| |exact Hl|eassumption].
    intros [ks j] [a b] [kx y] s [H1 H2] [H3 H4]. cbn [fst snd] in *. subst kx.
    rewrite (vdec_key p o true t1 Hk ks a H1). cbn [bind]. rewrite (IHt2 Hv Hb false j b y) by assumption. reflexivity.
  - destruct Hm as (l & kvs & vs & -> & -> & Hl & Hvs).
    destruct Hwf as (Hk & Hf & _ & _ & Hd & _). apply allP_Forall in Hf. apply distinct_NoDup in Hd.
    inversion Hx as [| | | | |l0 xs Hxs]; subst. rewrite forallb_forall in Hb.
    destruct fs as [|ft0 fs0] eqn:Efs; [inversion Hvs; reflexivity|]. rewrite <- Efs in *. clear Efs ft0 fs0.
    assert (I0 : map (fun _ : finfo * ty => @None val) fs = map (fun _ => None) (map (fun ft => fname (fst ft)) fs)) by now rewrite map_map.
    assert (Hbf : Forall (fun ft => buffers p o (snd ft)) fs).
    { rewrite Forall_forall in *. intros ft Hin. unfold buffers. apply H; auto. }
    rewrite I0, (vdec_struct_entries p o t fs l kvs xs Hk Hbf Hl Hxs). cbn [bind].
    rewrite (puts_map _ kvs Hd (fun _ => None)), (fill_values fs kvs vs Hvs). reflexivity.
  - destruct Hm as (i & k & -> & Hk & Hm). destruct Hwf as (Hk1 & _ & Hd).
    rewrite (IHt Hk1 Hb key j k x) by assumption. cbn [bind].
    rewrite (find_name_nth tags i k); [reflexivity|now apply distinct_NoDup|assumption].
Qed.

(** ** The documents that have a value *)

Lemma small_jvalue : forall d j, (jdepth j <= d)%nat -> small j = true -> exists x, jvalue j x.
Proof.
  assert (Nk : forall neg n, small_int neg n = true -> exists x, number_of neg n x).
  { intros neg n H. unfold small_int in H. destruct neg.
    - exists (least_signed (- Z.of_N n)). apply number_neg_ok. apply in_sb_iff. change (Z.of_N 128 - 1)%Z with 127%Z.
      assert (Z.of_N n <= Z.of_N (2 ^ 127))%Z by lia. rewrite N2Z.inj_pow in H0. change (Z.of_N 2) with 2%Z in H0.
      change (Z.of_N 127) with 127%Z in H0. pose proof (Z.pow_pos_nonneg 2 127 ltac:(lia) ltac:(lia)).
      set (a := (2 ^ 127)%Z) in *. clearbody a. lia.
    - exists (least_unsigned n). apply least_unsigned_ok. set (a := 2 ^ 128) in *. clearbody a. lia. }
  induction d as [d IHd] using lt_wf_ind. intros j Hd Hs. destruct j as [|b|neg n| |cs|l|l]; cbn [small] in Hs; try discriminate.
  - exists UUnit. constructor.
  - exists (UBool b). constructor.
  - destruct (Nk neg n Hs) as [x Hx]. exists (UNum x). now constructor.
  - exists (UStr (str_bytes cs)). constructor.
  - cbn [jdepth] in Hd. destruct d as [|d]; [lia|].
    assert (D : Forall (fun j => (jdepth j <= d)%nat) l) by (apply fold_max; lia).
    assert (K : exists xs, Forall2 jvalue l xs).
    { clear Hd. induction l as [|j l IH]; [exists []; constructor|]. cbn [forallb] in Hs. apply andb_true_iff in Hs. destruct Hs as [Hj Hs].
      inversion D; subst. destruct (IH Hs) as [xs Hxs]; [assumption|]. destruct (IHd d ltac:(lia) j ltac:(assumption) Hj) as [x Hx].
      exists (x :: xs). now constructor. }
    destruct K as [xs Hxs]. exists (USeq xs). now constructor.
  - cbn [jdepth] in Hd. destruct d as [|d]; [lia|].
    assert (D : Forall (fun m : list N * jtree => (jdepth (snd m) <= d)%nat) l) by (apply (fold_max (fun m : list N * jtree => jdepth (snd m))); lia).
    assert (K : exists xs, Forall2 (fun m x => fst x = UStr (str_bytes (fst m)) /\ jvalue (snd m) (snd x)) l xs).
    { clear Hd. induction l as [|j l IH]; [exists []; constructor|]. cbn [forallb] in Hs. apply andb_true_iff in Hs. destruct Hs as [Hj Hs].
      inversion D; subst. destruct (IH Hs) as [xs Hxs]; [assumption|]. destruct (IHd d ltac:(lia) (snd j) ltac:(assumption) Hj) as [x Hx].
      exists ((UStr (str_bytes (fst j)), x) :: xs). constructor; auto. }
    destruct K as [xs Hxs]. exists (UMap xs). now constructor.
Qed.

(** ** Internally tagged enums *)

Lemma find_tag_ok p o kt tag l1 ks jn l2 xs : wf p kt ->
  Forall (fun m => exists k, key_means p kt (fst m) k /\ k <> tag) l1 -> key_means p kt ks tag ->
  Forall2 (fun m x => fst x = UStr (str_bytes (fst m)) /\ jvalue (snd m) (snd x)) (l1 ++ (ks, jn) :: l2) xs ->
  exists b, find_tag (vdec p o true true kt) tag xs = Ok b /\ jvalue jn b.
Proof.
  intros Hw H1 Hk. revert xs. induction H1 as [|[ks0 j0] l1 (k & Hk0 & Hne) _ IH]; intros xs Hx; cbn [app] in Hx; inversion Hx as [|m [kx b] l xs0 [E Hb] Hxs]; subst; clear Hx;
    cbn [fst snd] in *; subst kx; cbn [find_tag].
  - rewrite (vdec_key p o true kt Hw ks tag Hk). cbn [bind]. rewrite val_eqb_refl. exists b. auto.
  - rewrite (vdec_key p o true kt Hw ks0 k Hk0). cbn [bind]. rewrite (proj2 (val_eqb_neq k tag) Hne). apply IH. exact Hxs.
Qed.

Lemma json_internal_value p o e i name t l1 ks jn l2 v x : wf p (e_key e) -> wf p (e_name e) -> wf p t -> jbuf (e_name e) = true -> jbuf t = true ->
  distinct (map fst (e_vars e)) = true -> nth_error (e_vars e) i = Some (name, t) ->
  Forall (fun m => exists k, key_means p (e_key e) (fst m) k /\ k <> e_tag e) l1 -> key_means p (e_key e) ks (e_tag e) ->
  means p (e_name e) jn name -> means p t (JObj (l1 ++ (ks, jn) :: l2)) v -> jvalue (JObj (l1 ++ (ks, jn) :: l2)) x ->
  int_dec_value p o true e x = Ok (VVar i v).
Proof.
  intros Hk Hn Ht Jn Jt Hd Hi H1 H2 H3 H4 Hx. pose proof (buffers_all p o t Ht Jt false _ v x H4 Hx) as B.
  inversion Hx as [| | | | |l xs Hxs]; subst. unfold int_dec_value.
  destruct (find_tag_ok p o (e_key e) (e_tag e) l1 ks jn l2 xs Hk H1 H2 Hxs) as (b & -> & Hb). cbn [bind].
  rewrite (buffers_all p o (e_name e) Hn Jn false jn name b H3 Hb). cbn [bind].
  rewrite (find_name_nth (map fst (e_vars e)) i name); [|now apply distinct_NoDup|now rewrite nth_error_map, Hi].
  rewrite Hi, B. reflexivity.
Qed.

Lemma json_keys p : is_map_keys_as_numbers_value (JSON_BUFFER_OPTIONS p) = true.
Proof. destruct p as [pt en]. destruct pt, en; reflexivity. Qed.

Lemma jbuf_no_float t : jbuf t = true -> has_float t = false.
Proof.
  assert (G : forall {A} (f g : A -> bool) l, Forall (fun a => g a = true -> f a = false) l -> forallb g l = true -> existsb f l = false).
  { clear. intros A f g l H. induction H as [|a l Ha _ IH]; cbn; [reflexivity|]. intros E. apply andb_true_iff in E. destruct E. now rewrite Ha, IH. }
  induction t using ty_ind'; cbn [jbuf has_float]; intros Hb; auto; try discriminate.
  - apply (G _ _ jbuf); assumption.
  - now apply (G _ _ (fun ft : finfo * ty => jbuf (snd ft))).
Qed.

Lemma json_int_encodes p e name fs vs : ewf p e -> wf p (with_tag e [] fs) -> keyable (e_key e) = true -> jsonable (e_name e) = true ->
  forallb (fun ft => jsonable (snd ft)) fs = true -> has_type p (e_name e) name = true -> has_float (e_name e) = false ->
  has_float (TStruct (e_key e) fs) = false -> all2 (map (fun ft => has_type p (snd ft)) fs) vs = true ->
  exists ks jn l bs, json_encode p (with_tag e [] fs) (VList (name :: vs)) = Ok bs /\
    text (JObj ((ks, jn) :: l)) bs /\ small (JObj ((ks, jn) :: l)) = true /\ key_means p (e_key e) ks (e_tag e) /\
    means p (e_name e) jn name /\ means p (TStruct (e_key e) fs) (JObj ((ks, jn) :: l)) (VList vs).
Proof.
  intros (_ & Hwk & Htag & _) Hwt Hk Hjn Hjf Hn Fn Ff Hv. unfold with_tag in Hwt. cbn [app wf map allP fold_right snd fst] in Hwt.
  destruct Hwt as (_ & Hf & _ & Hnt & Hd & _ & Hs). destruct Hf as [Hwn Hf]. apply allP_Forall in Hf.
  cbn [forallb] in Hnt. apply andb_true_iff in Hnt. destruct Hnt as [_ Hnt]. apply distinct_NoDup in Hd. cbn [map fst fname always] in Hd.
  inversion Hd as [|? ? Hni Hd']; subst.
  destruct (jkenc_ok p (e_key e) Hk Hwk (e_tag e) Htag) as (ks & s & K1 & K2 & K3).
  destruct (jenc_ok p (e_name e) Hjn Hwn name Hn (no_float_finite p (e_name e) Hwn name Fn Hn)) as (jn & b & J1 & J2 & J3 & _ & Jsm).
  assert (Hfin : all2 (map (fun ft => finite (snd ft)) fs) vs = true).
  { eapply (all2_imp (fun ft => has_type p (snd ft)) (fun ft => finite (snd ft))); [|exact Hv]. cbn [has_float] in Ff.
    pose proof (existsb_none _ _ Ff) as Fe. rewrite Forall_forall in *. intros ft Hin v. apply no_float_finite; auto. }
  destruct (jenc_fields_ok p (e_key e) fs (fun ft => jenc p (snd ft)) Hk Hwk Hnt) with (vs := vs) as (l & bs & H1 & H2 & H3 & _ & H4); [|assumption|assumption|].
  { rewrite forallb_forall in Hjf. rewrite Forall_forall in *. intros ft Ht. apply jenc_ok; auto. }
  exists ks, jn, l. eexists. unfold json_encode, with_tag. cbn [app jenc map fst snd always fskip jenc_fields fname].
  rewrite K1. cbn [bind]. rewrite J1. cbn [bind]. rewrite H1. cbn [bind]. split; [reflexivity|].
  split; [apply loosen with (tight := true), (text_obj ((ks, jn) :: l)); apply members_sep; constructor; [now apply member_pair|assumption]|].
  split; [cbn [small forallb snd]; rewrite Jsm by assumption; exact (H4 Ff)|]. split; [assumption|]. split; [assumption|].
  cbn [means]. exists ((ks, jn) :: l), ((e_tag e, name) :: entries_of fs vs), vs. split; [reflexivity|]. split; [reflexivity|].
  apply all2_length in Hv. rewrite map_length in Hv. split.
  - constructor.
    + cbn [fst snd]. split; [assumption|]. intros R HR. exfalso. apply Hni. apply in_map_iff in HR. destruct HR as (ft & E & Hin).
      injection E as E _. rewrite <- E. apply in_map_iff. exists ft. auto.
    + eapply Forall2_impl_in; [|exact H3]. cbn. intros [k j] [a x] _ (A & ft & B & C & D). cbn [fst snd] in *.
      split; [assumption|]. intros R HR. apply in_map_iff in HR. destruct HR as (ft' & E & Hin).
      injection E as E1 <-. assert (ft' = ft).
      { rewrite <- C in E1. apply In_nth_error in B. apply In_nth_error in Hin. destruct B as [i Bi], Hin as [i' Bi'].
        assert (i' = i).
        { eapply (proj1 (NoDup_nth_error _) Hd').
          - rewrite map_length. apply nth_error_Some. congruence.
          - rewrite !nth_error_map, Bi, Bi'. cbn. now rewrite E1. }
        congruence. }
      now subst ft'.
  - eapply Forall2_impl_in; [|apply (entries_fields fs Hd'); [intros ft v Hin Hsk; exact (Hs ft v (or_intror Hin) Hsk)|exact Hv]].
    cbn. intros ft x Hin Hfv. apply (field_value_app (fst ft) [(e_tag e, name)]); [|exact Hfv].
    cbn. intros [E|[]]. apply Hni. rewrite E. apply in_map_iff. exists ft. auto.
Qed.
