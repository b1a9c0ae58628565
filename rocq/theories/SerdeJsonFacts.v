(** Facts about the serde bridge over JSON. *)
From Verif Require Import Base Options Int Utf8 Types Storage Fmt Json JsonSpec Dec2flt NumText Serde
  BaseFacts Utf8Facts IntFacts TypesFacts StorageFacts FmtFacts JsonFacts JsonText JsonDec JsonEnc SerdeFacts.
From Verif Require FloatSpec FloatTextSpec FloatFast JsonFloat.
From Coq Require Import ZifyBool ZifyNat ZifyN.
Local Open Scope N_scope.

(** ** The same text *)

Lemma sjkenc_shape p t v : sjkenc t v = jkenc p (shape t) v.
Proof. revert v. induction t using sty_ind'; intros v; cbn [sjkenc shape jkenc]; auto. Qed.

Lemma map_res_ext {A B} (f g : A -> res B) l : (forall x, f x = g x) -> map_res f l = map_res g l.
Proof. intros H. induction l as [|x l IH]; cbn; [reflexivity|]. now rewrite H, IH. Qed.

Lemma zip_res_ext (fs gs : list (val -> res bytes)) vs :
  Forall2 (fun f g => forall v, f v = g v) fs gs -> zip_res fs vs = zip_res gs vs.
Proof.
  intros H. revert vs. induction H as [|f g fs gs Hfg _ IH]; intros [|v vs]; cbn; try reflexivity.
  now rewrite Hfg, IH.
Qed.

Lemma ser_json_shape p fs :
  Forall (fun ft => forall v, sjenc (snd ft) v = jenc p (shape (snd ft)) v) fs ->
  forall vs,
  ser_json_fields (map (fun ft => (fst ft, sjenc (snd ft))) fs) vs
  = jenc_fields (jkenc p TStr) (map (fun ft => (fst ft, jenc p (snd ft))) (map (fun ft => (sfinfo ft, shape (snd ft))) fs)) vs.
Proof.
  induction 1 as [|ft fs H _ IH]; intros [|v vs]; try reflexivity.
  cbn [map ser_json_fields jenc_fields fst snd sfinfo fskip fname jkenc]. rewrite IH, H. reflexivity.
Qed.

Lemma sjenc_shape p t v : sjenc t v = jenc p (shape t) v.
Proof.
  revert v. induction t using sty_ind'; intros v; cbn [sjenc shape jenc]; try reflexivity; auto.
  - destruct v; try reflexivity. apply IHt.
  - destruct v; try reflexivity. now rewrite (map_res_ext _ _ _ IHt).
  - destruct v; try reflexivity. now rewrite (map_res_ext _ _ _ IHt).
  - destruct v; try reflexivity.
    rewrite (zip_res_ext (map sjenc ts) (map (jenc p) (map shape ts))); [reflexivity|].
    rewrite map_map. now apply Forall2_map_same.
  - destruct v; try reflexivity.
    rewrite (map_res_ext _ (fun kv => let* a := jkenc p (shape t1) (fst kv) in
                                      let* b := jenc p (shape t2) (snd kv) in Ok (pair a b)));
      [reflexivity|].
    intros [k x]. cbn [fst snd]. now rewrite (sjkenc_shape p), IHt2.
  - destruct v; try reflexivity. now rewrite (ser_json_shape p fs H).
  - destruct v as [| | | | | | | | |i x]; try reflexivity. rewrite !nth_error_map.
    destruct (nth_error vs i) as [tv|] eqn:Ei; [|reflexivity]. cbn [option_map fst snd].
    rewrite Forall_forall in H. specialize (H tv (nth_error_In _ _ Ei)).
    destruct tv as [k [kd t]]. cbn [fst snd jkenc bind] in *.
    assert (W : (let* b := sjenc t x in Ok ([123] ++ encode_string k ++ [58] ++ b ++ [125]))
      = (let* b := jenc p (shape t) x in Ok (in_braces [pair (encode_string k) b]))).
    { rewrite H. destruct (jenc p (shape t) x) as [b| |]; try reflexivity. cbn [bind]. unfold in_braces, pair.
      cbn [comma_sep]. rewrite <- !app_assoc. reflexivity. }
    destruct kd; [exact W|]. destruct t; try exact W.
    + specialize (H x). cbn [sjenc shape jenc] in H. cbn [shape jenc]. rewrite <- H. destruct x; try reflexivity.
      destruct (zip_res _ _) as [l| |]; try reflexivity. cbn [bind]. unfold in_braces, pair, closed.
      cbn [comma_sep app]. rewrite <- !app_assoc. cbn [app]. rewrite <- !app_assoc. reflexivity.
    + specialize (H x). cbn [sjenc shape jenc] in H. cbn [shape jenc]. rewrite <- H. destruct x; try reflexivity.
      destruct (ser_json_fields _ _) as [l| |]; try reflexivity. cbn [bind]. unfold in_braces, pair, closed.
      cbn [comma_sep app]. rewrite <- !app_assoc. cbn [app]. rewrite <- !app_assoc. reflexivity.
Qed.

(** ** No more texts than the compatible type *)

Lemma fits_seq_loop {S} (f g : S -> bytes -> res (S * bytes)) : (forall s bs, fits (f s bs) (g s bs)) ->
  forall fuel first s bs, fits (seq_loop fuel f first s bs) (seq_loop fuel g first s bs).
Proof.
  intros H fuel. induction fuel as [|n IH]; intros first s bs; cbn [seq_loop]; [apply fits_refl|].
  apply fits_bind; [apply fits_refl|]. intros [[|] r]; [|apply fits_refl].
  apply fits_bind; [apply H|]. intros [s' r']. apply IH.
Qed.

Lemma fits_obj_loop {S} (f g : S -> bytes -> res (S * bytes)) : (forall s bs, fits (f s bs) (g s bs)) ->
  forall fuel first s bs, fits (obj_loop fuel f first s bs) (obj_loop fuel g first s bs).
Proof.
  intros H fuel. induction fuel as [|n IH]; intros first s bs; cbn [obj_loop]; [apply fits_refl|].
  apply fits_bind; [apply fits_refl|]. intros [[|] r]; [|apply fits_refl].
  apply fits_bind; [apply H|]. intros [s' r']. apply IH.
Qed.

Lemma fits_sequence {S} (f g : S -> bytes -> res (S * bytes)) s bs : (forall s bs, fits (f s bs) (g s bs)) ->
  fits (dec_sequence f s bs) (dec_sequence g s bs).
Proof.
  intros H. unfold dec_sequence. apply fits_bind; [apply fits_refl|]. intros r.
  apply fits_bind; [now apply fits_seq_loop|]. intros [? ?]. apply fits_refl.
Qed.

Lemma fits_object {S} (f g : S -> bytes -> res (S * bytes)) s bs : (forall s bs, fits (f s bs) (g s bs)) ->
  fits (dec_object f s bs) (dec_object g s bs).
Proof.
  intros H. unfold dec_object. apply fits_bind; [apply fits_refl|]. intros r.
  apply fits_bind; [now apply fits_obj_loop|]. intros [? ?]. apply fits_refl.
Qed.

Lemma fits_tuple (ds es : list (dec val)) bs : Forall2 (fun d e => forall bs, fits (d bs) (e bs)) ds es ->
  fits (dec_tuple ds bs) (dec_tuple es bs).
Proof.
  intros H. unfold dec_tuple. apply fits_bind; [apply fits_refl|]. intros r.
  apply fits_bind.
  - clear bs. revert r. generalize true as first.
    induction H as [|d e ds es Hd _ IH]; intros first r; cbn [next_list]; [apply fits_refl|].
    apply fits_bind; [apply fits_refl|]. intros [[|] q]; [|apply fits_refl].
    apply fits_bind; [apply Hd|]. intros [v q']. apply fits_bind; [apply IH|]. intros [? ?]. apply fits_refl.
  - intros [vs q]. destruct H; apply fits_refl.
Qed.

Lemma sjkdec_shape p oc t bs : sjkdec oc t bs = jkdec p oc (shape t) bs.
Proof. revert bs. induction t using sty_ind'; intros bs; cbn [sjkdec shape jkdec]; auto. Qed.

Lemma fits_json_field p oc names (ds es : list (dec val)) :
  Forall2 (fun d e => forall bs, fits (d bs) (e bs)) ds es ->
  forall s bs, fits (de_json_field names ds s bs) (jfield (jkdec p oc TStr) names es s bs).
Proof.
  intros Hd s bs. unfold de_json_field, jfield. cbn [jkdec].
  destruct (parse_string bs) as [[k r]| |]; cbn [bind]; try apply fits_refl.
  destruct (find_name (VBytes k) names) as [i|]; [|apply fits_refl].
  destruct (nth_error ds i) as [d|] eqn:Ed; [|apply fits_err].
  destruct (nth_error s i) as [[?|]|]; try apply fits_err.
  destruct (nth_error es i) as [e|] eqn:Ee.
  - apply fits_bind; [apply fits_refl|]. intros q. apply fits_bind; [|intros [? ?]; apply fits_refl].
    clear - Hd Ed Ee. revert i Ed Ee. induction Hd as [|d' e' ds es H _ IH]; intros [|i]; cbn; try discriminate.
    + intros [= ->] [= ->]. apply H.
    + apply IH.
  - exfalso. pose proof (Forall2_len _ _ _ Hd) as El. apply nth_error_None in Ee.
    assert (Hne : nth_error ds i <> None) by congruence. apply nth_error_Some in Hne. unfold dec in *. lia.
Qed.

Lemma sjdec_fits p oc t : fielded t = true -> forall bs, fits (sjdec oc t bs) (jdec p oc (shape t) bs).
Proof.
  induction t using sty_ind'; cbn [fielded]; intros Hf bs; cbn [sjdec shape jdec]; try apply fits_refl; auto.
  - destruct (lex bs) as [k r]. destruct k; try apply fits_refl;
      (apply fits_bind; [auto|]; intros [? ?]; apply fits_refl).
  - apply fits_bind; [|intros [? ?]; apply fits_refl]. apply fits_sequence. intros s q.
    apply fits_bind; [auto|]. intros [? ?]. apply fits_refl.
  - apply fits_bind; [|intros [? ?]; apply fits_refl]. apply fits_sequence. intros s q.
    apply fits_bind; [auto|]. intros [? ?]. apply fits_refl.
  - pose proof (Forall_use _ _ _ H Hf) as Hd.
    apply fits_bind; [|intros [? ?]; apply fits_refl]. apply fits_tuple. rewrite map_map.
    apply Forall2_map_same. exact Hd.
  - apply andb_true_iff in Hf. destruct Hf as [Hf1 Hf2].
    apply fits_bind; [|intros [? ?]; apply fits_refl]. apply fits_object. intros s q.
    rewrite (sjkdec_shape p). apply fits_bind; [apply fits_refl|]. intros [k q'].
    apply fits_bind; [apply fits_refl|]. intros q2. apply fits_bind; [auto|]. intros [? ?]. apply fits_refl.
  - apply andb_true_iff in Hf. destruct Hf as [Hn Hf]. pose proof (Forall_use _ _ _ H Hf) as Hd.
    rewrite !map_map. cbn [fst snd fname].
    destruct fs as [|ft fs]; [discriminate Hn|]. set (fs' := ft :: fs) in *.
    change (map (fun ft => ({| fname := VBytes (sname (fst ft)); fdefault := missing (fst ft) (snd ft);
                            fskip := sskip (fst ft) |}, shape (snd ft))) (ft :: fs)) with
      ((sfinfo ft, shape (snd ft)) :: map (fun ft => (sfinfo ft, shape (snd ft))) fs).
    cbv iota beta. apply fits_bind; [apply fits_refl|]. intros r. apply fits_bind.
    + apply fits_obj_loop. intros s q. apply fits_json_field. apply Forall2_map_same. exact Hd.
    + intros [s q]. apply fits_bind; [|intros; apply fits_refl]. right.
      rewrite <- de_fill_fill, map_map. reflexivity.
  - pose proof (Forall_use _ _ _ H Hf) as Hd.
    apply fits_bind; [apply fits_refl|]. intros r. cbn [jkdec].
    destruct (parse_string r) as [[k q]| |]; cbn [bind]; try apply fits_refl.
    rewrite map_map. cbn [fst]. destruct (find_name (VBytes k) _) as [i|]; [|apply fits_refl].
    rewrite !nth_error_map. destruct (nth_error vs i) as [tv|] eqn:Ei; [|apply fits_refl]. cbn [option_map snd].
    apply fits_bind; [apply fits_refl|]. intros q2. apply fits_bind; [|intros [? ?]; apply fits_refl].
    rewrite Forall_forall in Hd. apply Hd. eapply nth_error_In. eassumption.
Qed.

(** ** Documents without repeated names *)

Definition sdecodes (p : plat) (t : sty) (d : dec val) : Prop :=
  forall tight j v w s rest, (has_float (shape t) = true -> tight = true) ->
  (is_float (shape t) = true -> w = []) ->
  means p (shape t) j v -> unrepeated j -> space w -> gtext tight j s -> ends rest = true ->
  d (w ++ s ++ rest) = Ok (v, rest).

Lemma str_bytes_inj cs : Forall (fun c => char_valid c = true) cs ->
  forall cs', Forall (fun c => char_valid c = true) cs' -> str_bytes cs = str_bytes cs' -> cs = cs'.
Proof.
  assert (Hne : forall c, char_valid c = true -> utf8_enc c <> []).
  { intros c Hc E. pose proof (utf8_next_enc c [] Hc) as K. rewrite E in K. discriminate. }
  induction 1 as [|c cs Hc _ IH]; intros cs' H' E.
  - destruct H' as [|c' cs' Hc' _]; [reflexivity|]. cbn in E. destruct (utf8_enc c') eqn:K; [|discriminate].
    now apply Hne in K.
  - destruct H' as [|c' cs' Hc' Hcs'].
    + cbn in E. destruct (utf8_enc c) eqn:K; [|discriminate]. now apply Hne in K.
    + unfold str_bytes in E. cbn [flat_map] in E. fold (str_bytes cs) (str_bytes cs') in E.
      pose proof (utf8_next_enc c (str_bytes cs) Hc) as K1. rewrite E, utf8_next_enc in K1 by assumption.
      injection K1 as K1 K2. subst c'. f_equal. now apply IH.
Qed.

Lemma members_valid tight l : forall s, gmembers tight l s ->
  Forall (fun m => Forall (fun c => char_valid c = true) (fst m)) l.
Proof.
  assert (Hm : forall m s, gmember tight m s -> Forall (fun c => char_valid c = true) (fst m)).
  { intros m s H. inversion H; subst. cbn. eapply body_valid. eassumption. }
  induction l as [|m l IH]; intros s H; [constructor|]. inversion H; subst.
  - constructor; [now apply (Hm m s)|constructor].
  - constructor; [eapply Hm; eassumption|]. eapply IH. eassumption.
Qed.

Lemma each_list_sruns {B} tight p (ts : list B) (g : B -> sty) (d : B -> dec val) l vs :
  Forall (fun t => sdecodes p (g t) (d t)) ts ->
  Forall (fun t => has_float (shape (g t)) = true -> tight = true) ts ->
  allP (map unrepeated l) ->
  each (map (fun t => means p (shape (g t))) ts) l vs ->
  list_runs (tight := tight) (map d ts) l vs.
Proof.
  intros H. revert l vs. induction H as [|t ts Ht _ IH]; cbn; intros l vs Hf Hu He; inversion Hf as [|xf lf Hf1 Hf2]; inversion He as [|R Rs a l0 b m Ra Hm]; subst; constructor.
  - intros b0 rest Hb Hr. destruct Hu as [Hu _].
    exact (Ht tight a b [] b0 rest Hf1 (fun _ => eq_refl) Ra Hu space_nil Hb Hr).
  - destruct Hu as [_ Hu]. now apply IH.
Qed.

Lemma set_slot_other i j v s : i <> j -> nth_error (set_slot i v s) j = nth_error s j.
Proof.
  revert i j. induction s as [|x s IH]; intros i j H; [destruct i; reflexivity|].
  destruct i, j; cbn; try reflexivity; try congruence. apply IH. congruence.
Qed.

(** The entries one by one, none of them setting a field that is already set. *)
Lemma oruns_once tight (R : list N * jtree -> val * val -> Prop) (step : slots -> bytes -> res (slots * bytes)) names :
  NoDup names ->
  (forall k j a acc ks w2 w3 b rest, R (k, j) a -> unrepeated j ->
     (forall i, find_name (fst a) names = Some i -> nth_error acc i = Some None) ->
     body k ks -> space w2 -> space w3 -> (tight = true -> w3 = []) -> gtext tight j b -> ends rest = true ->
     step acc ((34 :: ks ++ [34]) ++ w2 ++ 58 :: w3 ++ b ++ rest) = Ok (put names acc a, rest)) ->
  forall l kvs, Forall2 R l kvs -> allP (map (fun m => unrepeated (snd m)) l) -> NoDup (map fst kvs) ->
  forall acc, (forall i kv, In kv kvs -> find_name (fst kv) names = Some i -> nth_error acc i = Some None) ->
  oruns (tight := tight) step acc l (fold_left (put names) kvs acc).
Proof.
  intros Hd Hs l kvs H. induction H as [|[k j] a l vs Hj _ IH]; intros Hu Hn acc Hacc; cbn [fold_left]; [constructor|].
  destruct Hu as [Hu1 Hu]. inversion Hn as [|? ? Hn1 Hn2]; subst.
  econstructor.
  - intros. apply (Hs k j a); auto. intros i. apply Hacc. now left.
  - apply IH; auto. intros i kv Hin Ei. unfold put.
    destruct (find_name (fst a) names) as [i'|] eqn:E.
    + rewrite set_slot_other; [apply (Hacc i kv); [now right|assumption]|].
      intros ->. apply find_name_some in E. apply find_name_some in Ei. rewrite E in Ei. injection Ei as Ei.
      apply Hn1. rewrite Ei. now apply in_map.
    + apply (Hacc i kv); [now right|assumption].
Qed.

Lemma fields_keys (names : list bytes) (l : list (list N * jtree)) (kvs : list (val * val)) (Q : list N * jtree -> val * val -> Prop) :
  Forall2 (fun m kv => key_means {| native_bo := Little; ptr := P64 |} TStr (fst m) (fst kv) /\ Q m kv) l kvs ->
  Forall (fun m => Forall (fun c => char_valid c = true) (fst m)) l ->
  NoDup (map fst l) -> NoDup (map fst kvs).
Proof.
  intros H Hv. induction H as [|[k j] [a x] l kvs [E _] HR IH]; cbn [map fst]; intros Hd; [constructor|].
  cbn [fst key_means] in E. subst a.
  inversion Hd as [|? ? Hn Hd']; inversion Hv as [|? ? Hv1 Hv2]; subst. constructor; [|now apply IH].
  intros Hin. apply Hn. clear - Hin HR Hv1 Hv2. cbn [fst] in Hv1.
  induction HR as [|[k' j'] [a' x'] l kvs [E _] _ IH]; [contradiction|]. cbn [map fst key_means] in *. subst a'.
  inversion Hv2 as [|? ? Hv3 Hv4]; subst. cbn [fst] in Hv3.
  destruct Hin as [Hin|Hin]; [left|right; now apply IH].
  injection Hin as Hin. symmetry in Hin. symmetry. now apply str_bytes_inj.
Qed.

Lemma sjdec_leaf p oc t : sleaf (shape t) = true -> wf p (shape t) -> sjdec oc t = jdec p oc (shape t) ->
  sdecodes p t (sjdec oc t).
Proof.
  intros _ Hw E tight j v w s rest Hf Hi Hm _ Hs Ht He. rewrite E.
  exact (jdec_ok p oc (shape t) Hw tight j v w s rest Hf Hi Hm Hs Ht He).
Qed.

Lemma allP_in {A} (Q : A -> Prop) l x : allP (map Q l) -> In x l -> Q x.
Proof. rewrite allP_Forall, Forall_forall. auto. Qed.

(** A relation that also carries the side condition of each element. *)
Lemma Forall2_and {A B} (R : A -> B -> Prop) (Q : A -> Prop) l m :
  Forall2 R l m -> allP (map Q l) -> Forall2 (fun a b => R a b /\ Q a) l m.
Proof.
  induction 1 as [|a b l m H _ IH]; cbn; intros HQ; [constructor|]. destruct HQ. constructor; auto.
Qed.

Theorem sjdec_ok p oc t : wf p (shape t) -> sdecodes p t (sjdec oc t).
Proof.
  induction t using sty_ind'; intros Hwf;
    try (apply (sjdec_leaf p oc); [reflexivity|exact Hwf|reflexivity]);
    intros tight j v w0 s rest Hfl Hif Hm Hu Hw Ht He; cbn [shape means] in Hm; cbn [shape has_float is_float] in Hfl, Hif;
    cbn [sjdec]; cbn [shape wf] in Hwf.
  - rewrite (text_lex (tight := tight) w0 j) by assumption.
    destruct Hm as [[-> ->]|[Hj (x & Hx & ->)]].
    + cbn [jtok]. inversion Ht; subst. pose proof (parse_exact_app lit_null rest) as K; cbv delta [lit_null] in K |- *; now rewrite K.
    + assert (Hk : jtok j <> KNull) by (destruct j as [|[]| | | | |]; cbn; congruence).
      pose proof (IHt Hwf tight j x [] s rest Hfl (fun _ => eq_refl) Hx Hu space_nil Ht He) as K. cbn [app] in K. rewrite K.
      destruct (jtok j); try reflexivity. congruence.
  - now apply (IHt Hwf tight j).
  - destruct Hm as (l & vs & -> & Hl & ->). apply (Forall2_and _ _ l vs Hl) in Hu.
    match goal with |- context [dec_sequence ?st _ _] =>
      rewrite (dec_sequence_text st w0 l s [] vs rest Hw Ht) end; [reflexivity|].
    rewrite <- (map_id vs). apply (runs_snoc (fun j v => means p (shape t) j v /\ unrepeated j) _ (fun x => x)) with (acc := []); [|assumption].
    intros j a acc b r [Ha Hua] Hb Hr.
    rewrite (IHt Hwf tight j a [] b r Hfl (fun _ => eq_refl) Ha Hua space_nil Hb Hr : sjdec oc t (b ++ r) = _). reflexivity.
  - destruct Hm as (l & vs & -> & Hl & ->). apply (Forall2_and _ _ l vs Hl) in Hu.
    match goal with |- context [dec_sequence ?st _ _] =>
      rewrite (dec_sequence_text st w0 l s [] (fold_left (fun s x => set_insert x s) vs []) rest Hw Ht) end; [reflexivity|].
    apply (runs_fold (fun j v => means p (shape t) j v /\ unrepeated j) _ (fun s x => set_insert x s)) with (acc := []); [|assumption].
    intros j a acc b r [Ha Hua] Hb Hr.
    rewrite (IHt Hwf tight j a [] b r Hfl (fun _ => eq_refl) Ha Hua space_nil Hb Hr : sjdec oc t (b ++ r) = _). reflexivity.
  - destruct Hm as (l & extra & vs & -> & -> & Hl). destruct Hwf as [Hwf _]. rewrite map_map in Hwf. apply allP_Forall in Hwf.
    assert (Hul : allP (map unrepeated l)).
    { cbn [unrepeated] in Hu. rewrite map_app in Hu. clear - Hu. induction l; cbn in *; [exact I|]. tauto. }
    rewrite (dec_tuple_text (tight := tight) (map (sjdec oc) ts) w0 l extra s vs rest); [reflexivity|assumption..|].
    rewrite map_map in Hl.
    apply (each_list_sruns tight p ts (fun t => t) (sjdec oc)); [| |assumption|assumption]; rewrite Forall_forall in *.
    + intros t Ht'. apply H; auto.
    + intros t Ht' F. apply Hfl, existsb_exists. exists (shape t). split; [now apply in_map|assumption].
  - destruct Hm as (l & kvs & -> & Hl & ->). destruct Hwf as [Hk Hv].
    destruct Hu as [_ Hu].
    match goal with |- context [dec_object ?st _ _] =>
      rewrite (dec_object_text st w0 l s [] (fold_left (fun s kv => map_insert (fst kv) (snd kv) s) kvs []) rest Hw Ht) end;
      [reflexivity|].
    apply (Forall2_and _ (fun m => unrepeated (snd m)) l kvs Hl) in Hu.
    apply (oruns_fold (fun m kv => (key_means p (shape t1) (fst m) (fst kv) /\ means p (shape t2) (snd m) (snd kv)) /\ unrepeated (snd m)) _
             (fun s kv => map_insert (fst kv) (snd kv) s)) with (acc := []); [|assumption].
    intros k j [a b] acc ks w2 w3 bs r [[H1 H2] Huj] Hb Hw2 Hw3 Hti Hj Hr. cbn [fst snd] in *.
    pose proof (jkdec_ok p oc (shape t1) Hk k a [] ks (w2 ++ 58 :: w3 ++ bs ++ r) H1 space_nil Hb) as K.
    rewrite <- sjkdec_shape in K.
    cbn [app] in K |- *. rewrite K. cbn [bind].
    rewrite (expect_at KColon 58 _ w2) by (assumption || reflexivity). cbn [bind].
    rewrite (IHt2 Hv tight j b w3 bs r) by (assumption || (intros F; apply Hti, Hfl, float_has, F)). reflexivity.
  - change (map (fun ft : sfield * sty => ({| fname := VBytes (sname (fst ft)); fdefault := missing (fst ft) (snd ft);
                            fskip := sskip (fst ft) |}, shape (snd ft))) fs)
      with (map (fun ft : sfield * sty => (sfinfo ft, shape (snd ft))) fs) in *.
    destruct Hm as (l & kvs & vs & -> & -> & Hl & Hvs).
    destruct Hwf as (_ & Hf & _ & _ & Hd & _). rewrite map_map in Hf. apply allP_Forall in Hf. apply distinct_NoDup in Hd.
    inversion Ht as [| | | | | | |l0 b Hb]; subst. cbn [app].
    rewrite (expect_at KOBrace 123 _ w0) by (assumption || reflexivity). cbn [bind].
    rewrite <- app_assoc. cbn [app]. rewrite map_map in Hd. cbn [fst sfinfo fname] in Hd.
    set (names := map (fun ft => VBytes (sname (fst ft))) fs) in *.
    set (ds := map (fun ft => sjdec oc (snd ft)) fs) in *.
    assert (I0 : map (fun _ : sfield * sty => @None val) fs = map (fun _ => None) names).
    { unfold names. now rewrite map_map. }
    destruct Hu as [Hu1 Hu].
    assert (Hkv : NoDup (map fst kvs)).
    { refine (fields_keys (map (fun ft => sname (fst ft)) fs) l kvs _ Hl (members_valid tight l b Hb) Hu1). }
    rewrite (obj_loop_members _ l b Hb _ (fold_left (put names) kvs (map (fun _ => None) names)) _ true rest).
    + cbn [bind]. rewrite (puts_map names kvs Hd (fun _ => None)).
      assert (Hfv : Forall2 (fun ft x => field_value (fst ft) kvs x) (map (fun ft => (sfinfo ft, shape (snd ft))) fs) vs) by exact Hvs.
      apply fill_values in Hfv. rewrite !map_map in Hfv. cbn [fst sfinfo fname] in Hfv.
      replace (map (fun ft => missing (fst ft) (snd ft)) fs) with (map fdefault (map sfinfo fs))
        by (rewrite map_map; reflexivity).
      rewrite de_fill_fill. unfold names. rewrite map_map.
      match type of Hfv with ?x = _ => match goal with |- bind ?y _ = _ => change y with x end end. rewrite Hfv. cbn [bind].
      pose proof (skip_entries_members (tight := tight) false [] [] rest (members_nil [] space_nil)) as K.
      cbn [app] in K. now rewrite K.
    + rewrite I0.
      apply (oruns_once tight (fun m kv => key_means p TStr (fst m) (fst kv) /\
         (forall R, In (fst kv, R) (map (fun ft => (fname (fst ft), means p (snd ft))) (map (fun ft => (sfinfo ft, shape (snd ft))) fs)) -> R (snd m) (snd kv))) _ names Hd).
      * intros k j [a x] acc ks w2 w3 bs r [H1 H2] Huj Hacc Hks Hw2 Hw3 Hti Hj Hr. cbn [fst snd] in *.
        cbn [key_means] in H1. subst a.
        pose proof (parse_string_text [] k ks (w2 ++ 58 :: w3 ++ bs ++ r)) as K.
        cbn [app] in K |- *. unfold de_json_field. rewrite K by (constructor || assumption). cbn [bind]. unfold put. cbn [fst snd].
        destruct (find_name (VBytes (str_bytes k)) names) as [i|] eqn:Ei.
        -- rewrite (Hacc i eq_refl). apply find_name_some in Ei. unfold names in Ei. rewrite nth_error_map in Ei.
           destruct (nth_error fs i) as [ft|] eqn:En; [|discriminate]. cbn in Ei. injection Ei as Ei.
           unfold ds. rewrite nth_error_map, En. cbn [option_map].
           rewrite (expect_at KColon 58 _ w2) by (assumption || reflexivity). cbn [bind].
           assert (Hin : In ft fs) by (apply nth_error_In in En; exact En).
           rewrite Forall_forall in H, Hf.
           assert (HfF : has_float (shape (snd ft)) = true -> tight = true).
           { intros F. apply Hfl, existsb_exists. exists (sfinfo ft, shape (snd ft)).
             split; [now apply (in_map (fun ft => (sfinfo ft, shape (snd ft))))|exact F]. }
           rewrite (H ft Hin (Hf ft Hin) tight j x w3 bs r); try assumption; [reflexivity|intros F; apply Hti, HfF, float_has, F|].
           apply H2. rewrite map_map. apply in_map_iff. exists ft. split; [|assumption]. cbn [fst snd sfinfo fname]. now rewrite Ei.
        -- rewrite (expect_at KColon 58 _ w2) by (assumption || reflexivity). cbn [bind].
           rewrite (skip_value_text (tight := tight) w3 j) by assumption. reflexivity.
      * exact Hl.
      * exact Hu.
      * exact Hkv.
      * intros i kv _ Ei. apply find_name_some in Ei. rewrite nth_error_map, Ei. reflexivity.
    + pose proof (members_length l b Hb). rewrite app_length. cbn. lia.
  - destruct Hm as (ks & j' & i & k & R & x & -> & -> & Hn & Hk & Hx).
    destruct Hwf as (_ & Hf & _ & Hd). rewrite map_map in Hf, Hn, Hd. apply allP_Forall in Hf. apply distinct_NoDup in Hd.
    rewrite nth_error_map in Hn. destruct (nth_error vs i) as [tv|] eqn:En; [|discriminate].
    cbn in Hn. injection Hn as <- <-. cbn [key_means] in Hk.
    destruct Hu as [_ [Huj _]]. cbn [snd] in Huj.
    inversion Ht as [| | | | | | |l0 b Hb]; subst. cbn [app].
    rewrite (expect_at KOBrace 123 _ w0) by (assumption || reflexivity). cbn [bind].
    inversion Hb as [|m b' Hm|m b' l' r Hm Hl Hne]; subst; [|congruence].
    inversion Hm as [w1 k' kb w2 w3 j2 b2 w4 Hw1 Hkb Hw2 Hw3 Hti Hb2 Hw4]; subst.
    rewrite <- !app_assoc. rewrite (parse_string_text w1 ks kb) by assumption. cbn [bind].
    injection Hk as Hk. rewrite <- Hk.
    rewrite (find_name_nth (map (fun tv => VBytes (fst tv)) vs) i (VBytes (fst tv))); [|assumption|rewrite nth_error_map, En; reflexivity].
    rewrite nth_error_map, En. cbn [option_map app].
    rewrite (expect_at KColon 58 _ w2) by (assumption || reflexivity). cbn [bind].
    rewrite <- !app_assoc. assert (Hin : In tv vs) by (apply nth_error_In in En; exact En).
    rewrite Forall_forall in H, Hf.
    assert (HfF : has_float (shape (snd (snd tv))) = true -> tight = true).
    { intros F. apply Hfl, existsb_exists. exists (VBytes (fst tv), shape (snd (snd tv))).
      split; [now apply (in_map (fun tv => (VBytes (fst tv), shape (snd (snd tv)))))|exact F]. }
    rewrite (H tv Hin (Hf tv Hin) tight j' x w3 b2); try assumption; [|intros F; apply Hti, HfF, float_has, F|apply ends_space; [assumption|reflexivity]].
    cbn [bind app]. rewrite (expect_at KCBrace 125 rest w4) by (assumption || reflexivity). reflexivity.
Qed.
