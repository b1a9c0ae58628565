(** Every JSON text decodes to the value it denotes. *)
From Verif Require Import Base Options Int Utf8 Types Json JsonSpec BaseFacts Utf8Facts TypesFacts
  IntFacts StorageFacts JsonFacts JsonText.
From Verif Require FloatSpec FloatTextSpec Dec2flt FloatFast JsonFloat.
From Coq Require Import ZifyBool ZifyNat ZifyN.
Local Open Scope N_scope.

Lemma bits_ge w : 8 <= bits w.
Proof. destruct w; cbn; lia. Qed.

(** ** Keys *)

Lemma str_bytes_ascii cs : Forall (fun c => c < 128) cs -> str_bytes cs = cs.
Proof.
  induction 1 as [|c cs Hc _ IH]; cbn; [reflexivity|]. unfold utf8_enc.
  destruct (c <? 128) eqn:E; [|lia]. cbn. now rewrite <- IH at 2.
Qed.

Lemma int_text_ascii n s : int_text n s -> Forall (fun c => c < 128) s.
Proof. intros (_ & H & _). eapply Forall_impl; [|exact H]. unfold digit. cbn. intros; lia. Qed.

Lemma key_unsigned_ok oc tb w n cs s rest : space w -> body cs s -> int_text n cs -> n < 2 ^ tb ->
  key_unsigned oc tb (w ++ (34 :: s ++ [34]) ++ rest) = Ok (VN n, rest).
Proof.
  intros Hw Hb Hi Hn. unfold key_unsigned. rewrite (parse_string_text w cs) by assumption. cbn [bind].
  rewrite str_bytes_ascii by now apply int_text_ascii with n.
  pose proof (parse_unsigned_ok oc tb [] n cs [] space_nil Hi eq_refl Hn) as K. cbn [app] in K.
  rewrite app_nil_r in K. now rewrite K.
Qed.

Lemma key_signed_ok oc tb w neg n cs s rest : 1 <= tb -> space w -> body (sign neg ++ cs) s -> int_text n cs ->
  in_sb tb (z_of neg n) = true ->
  key_signed oc tb (w ++ (34 :: s ++ [34]) ++ rest) = Ok (VZ (z_of neg n), rest).
Proof.
  intros Ht Hw Hb Hi Hn. unfold key_signed. rewrite (parse_string_text w (sign neg ++ cs)) by assumption. cbn [bind].
  rewrite str_bytes_ascii.
  - pose proof (parse_signed_ok oc tb [] neg n cs [] Ht space_nil Hi eq_refl Hn) as K. cbn [app] in K.
    rewrite app_nil_r in K. now rewrite K.
  - apply Forall_app. split; [destruct neg; repeat constructor; lia|]. now apply int_text_ascii with n.
Qed.

Lemma jkdec_ok p oc t : wf p t -> forall cs v w s rest, key_means p t cs v -> space w -> body cs s ->
  jkdec p oc t (w ++ (34 :: s ++ [34]) ++ rest) = Ok (v, rest).
Proof.
  pose proof (usize_bits_ge p) as Hu.
  induction t using ty_ind'; intros Hwf cs v w0 s rest Hm Hw Hb; cbn [key_means] in Hm; try contradiction; cbn [jkdec].
  - destruct Hm as (n & Hi & Hn & ->). now apply key_unsigned_ok with cs.
  - destruct Hm as (neg & n & s0 & -> & Hi & Hn & ->). pose proof (bits_ge w). apply key_signed_ok with s0; auto. lia.
  - destruct Hm as (n & Hi & Hn & ->). now apply key_unsigned_ok with cs.
  - destruct Hm as (neg & n & s0 & -> & Hi & Hn & ->). apply key_signed_ok with s0; auto. lia.
  - destruct Hm as ((n & Hi & Hn & ->) & Hz). rewrite (key_unsigned_ok oc (bits w) w0 n cs) by assumption.
    cbn [bind]. destruct n; [congruence|reflexivity].
  - rewrite (parse_string_text w0 cs) by assumption. cbn [bind]. now subst v.
  - cbn [wf] in Hwf. now apply IHt with cs.
  - destruct Hm as (i & k & -> & Hk & Hm). cbn [wf] in Hwf. destruct Hwf as (Hk1 & _ & Hd).
    rewrite (IHt Hk1 cs k) by assumption. cbn [bind].
    rewrite (find_name_nth tags i k); [reflexivity|now apply distinct_NoDup|assumption].
Qed.

(** ** Structs *)

Definition last_from (x : option val) (k : val) (kvs : list (val * val)) : option val :=
  fold_left (fun a kv => if val_eqb (fst kv) k then Some (snd kv) else a) kvs x.

Definition put (names : list val) (s : slots) (kv : val * val) : slots :=
  match find_name (fst kv) names with Some i => set_slot i (snd kv) s | None => s end.

Lemma put_map (names : list val) (g : val -> option val) kv : NoDup names ->
  put names (map g names) kv =
  map (fun n => if val_eqb (fst kv) n then Some (snd kv) else g n) names.
Proof.
  unfold put. intros H. destruct kv as [k v]. cbn [fst snd].
  induction H as [|n names Hn Hd IH]; cbn; [reflexivity|].
  destruct (val_eqb k n) eqn:E.
  - apply val_eqb_eq in E. subst n. cbn. f_equal. apply map_ext_in. intros m Hm.
    destruct (val_eqb k m) eqn:F; [apply val_eqb_eq in F; congruence|reflexivity].
  - destruct (find_name k names) as [i|]; cbn; now rewrite <- IH.
Qed.

Lemma puts_map names kvs : NoDup names -> forall g,
  fold_left (put names) kvs (map g names) = map (fun n => last_from (g n) n kvs) names.
Proof.
  intros H. induction kvs as [|kv kvs IH]; intros g; cbn; [reflexivity|].
  rewrite (put_map names g kv H). apply (IH (fun n => if val_eqb (fst kv) n then Some (snd kv) else g n)).
Qed.

Lemma last_from_none k kvs : ~ In k (map fst kvs) -> forall x, last_from x k kvs = x.
Proof.
  induction kvs as [|[a b] kvs IH]; cbn; intros H x; [reflexivity|].
  destruct (val_eqb a k) eqn:E; [apply val_eqb_eq in E; tauto|]. apply IH. tauto.
Qed.

Lemma last_from_app x k l1 l2 : last_from x k (l1 ++ l2) = last_from (last_from x k l1) k l2.
Proof. apply fold_left_app. Qed.

Lemma last_from_cons x k kv l :
  last_from x k (kv :: l) = last_from (if val_eqb (fst kv) k then Some (snd kv) else x) k l.
Proof. reflexivity. Qed.

Lemma fill_values (fs : list (finfo * ty)) kvs vs :
  Forall2 (fun ft x => field_value (fst ft) kvs x) fs vs ->
  fill (map fst fs) (map (fun n => last_from None n kvs) (map (fun ft => fname (fst ft)) fs)) = Ok vs.
Proof.
  induction 1 as [|ft x fs vs Hx _ IH]; cbn [map fill]; [reflexivity|].
  assert (E : match last_from None (fname (fst ft)) kvs with
              | Some v => Ok v
              | None => match fdefault (fst ft) with Some d => Ok d | None => Err end end = Ok x).
  { destruct Hx as [(l1 & l2 & -> & Hn)|[Hn Hd]].
    - rewrite last_from_app, last_from_cons. cbn [fst snd]. rewrite val_eqb_refl.
      now rewrite (last_from_none _ l2 Hn).
    - rewrite last_from_none by assumption. now rewrite Hd. }
  rewrite E. cbn [bind]. rewrite IH. reflexivity.
Qed.

(** ** Everything *)

Definition decodes (p : plat) (t : ty) (d : dec val) : Prop :=
  forall tight j v w s rest, (has_float t = true -> tight = true) -> (is_float t = true -> w = []) ->
  means p t j v -> space w -> gtext tight j s -> ends rest = true ->
  d (w ++ s ++ rest) = Ok (v, rest).

Lemma decodes_here p t d tight j v s rest : decodes p t d -> (has_float t = true -> tight = true) ->
  means p t j v -> gtext tight j s -> ends rest = true ->
  d (s ++ rest) = Ok (v, rest).
Proof. intros H Hf Hm Ht He. exact (H tight j v [] s rest Hf (fun _ => eq_refl) Hm space_nil Ht He). Qed.

Section Tight.
Context {tight : bool}.
Local Notation text := (gtext tight).
Local Notation runs := (runs (tight := tight)).
Local Notation oruns := (oruns (tight := tight)).
Local Notation list_runs := (list_runs (tight := tight)).

Lemma runs_snoc {A S} (R : jtree -> A -> Prop) (step : list S -> bytes -> res (list S * bytes)) (f : A -> S) :
  (forall j a acc b rest, R j a -> text j b -> ends rest = true -> step acc (b ++ rest) = Ok (acc ++ [f a], rest)) ->
  forall l vs, Forall2 R l vs -> forall acc, runs step acc l (acc ++ map f vs).
Proof.
  intros Hs l vs H. induction H as [|j a l vs Hj _ IH]; intros acc.
  - cbn. rewrite app_nil_r. constructor.
  - cbn [map]. econstructor; [intros b rest Hb He; now apply (Hs j a)|].
    replace (acc ++ f a :: map f vs) with ((acc ++ [f a]) ++ map f vs); [apply IH|].
    now rewrite <- app_assoc.
Qed.

Lemma runs_fold {A S} (R : jtree -> A -> Prop) (step : S -> bytes -> res (S * bytes)) (f : S -> A -> S) :
  (forall j a acc b rest, R j a -> text j b -> ends rest = true -> step acc (b ++ rest) = Ok (f acc a, rest)) ->
  forall l vs, Forall2 R l vs -> forall acc, runs step acc l (fold_left f vs acc).
Proof.
  intros Hs l vs H. induction H as [|j a l vs Hj _ IH]; intros acc; cbn [fold_left]; [constructor|].
  econstructor; [intros b rest Hb He; now apply (Hs j a)|]. apply IH.
Qed.

(** As [runs_snoc], with a bound on the number of elements. *)
Lemma runs_bounded {A S} (R : jtree -> A -> Prop) (step : list S -> bytes -> res (list S * bytes)) (f : A -> S) n :
  (forall j a acc b rest, lenN acc < n -> R j a -> text j b -> ends rest = true ->
     step acc (b ++ rest) = Ok (acc ++ [f a], rest)) ->
  forall l vs, Forall2 R l vs -> forall acc, lenN acc + lenN vs <= n -> runs step acc l (acc ++ map f vs).
Proof.
  intros Hs l vs H. induction H as [|j a l vs Hj _ IH]; intros acc Hl.
  - cbn. rewrite app_nil_r. constructor.
  - rewrite lenN_cons in Hl.
    cbn [map]. econstructor; [intros b rest Hb He; apply (Hs j a); [lia|assumption..]|].
    replace (acc ++ f a :: map f vs) with ((acc ++ [f a]) ++ map f vs); [apply IH|].
    + rewrite lenN_app. change (lenN [f a]) with 1. lia.
    + now rewrite <- app_assoc.
Qed.

Lemma each_list_runs {B} p (ts : list B) (g : B -> ty) (d : B -> dec val) l vs :
  Forall (fun t => decodes p (g t) (d t)) ts -> Forall (fun t => has_float (g t) = true -> tight = true) ts -> each (map (fun t => means p (g t)) ts) l vs ->
  list_runs (map d ts) l vs.
Proof.
  intros H. revert l vs. induction H as [|t ts Ht _ IH]; cbn; intros l vs Hf He; inversion Hf as [|xf lf Hf1 Hf2]; inversion He as [|R Rs a l0 b m Ra Hm]; subst; constructor.
  - intros b0 rest Hb Hr. now apply (decodes_here p (g t) (d t) tight a).
  - now apply IH.
Qed.

Lemma oruns_fold {A S} (R : list N * jtree -> A -> Prop) (step : S -> bytes -> res (S * bytes)) (f : S -> A -> S) :
  (forall k j a acc ks w2 w3 b rest, R (k, j) a -> body k ks -> space w2 -> space w3 -> (tight = true -> w3 = []) -> text j b -> ends rest = true ->
     step acc ((34 :: ks ++ [34]) ++ w2 ++ 58 :: w3 ++ b ++ rest) = Ok (f acc a, rest)) ->
  forall l vs, Forall2 R l vs -> forall acc, oruns step acc l (fold_left f vs acc).
Proof.
  intros Hs l vs H. induction H as [|[k j] a l vs Hj _ IH]; intros acc; cbn [fold_left]; [constructor|].
  econstructor; [intros; now apply (Hs k j a)|]. apply IH.
Qed.

End Tight.

Lemma map_fst_id {A B} (f : A -> B) l : map (fun x : A => f x) l = map f l.
Proof. reflexivity. Qed.

Lemma body_valid cs s : body cs s -> Forall (fun c => char_valid c = true) cs.
Proof.
  induction 1 as [|c cs s Hc| c e cs s Hin _ IH|c h cs s Hh Hc|hi lo h1 h2 cs s H1 H2 H3 H4 _ IH]; constructor; auto.
  - cbn in Hin. repeat destruct Hin as [Hin|Hin]; try contradiction; injection Hin as <- <-; reflexivity.
  - apply char_valid_iff. lia.
Qed.

Lemma float_has t : is_float t = true -> has_float t = true.
Proof. induction t using ty_ind'; cbn; auto; discriminate. Qed.

Theorem jdec_ok p oc t : wf p t -> decodes p t (jdec p oc t).
Proof.
  pose proof (usize_bits_ge p) as Hu.
  induction t using ty_ind'; intros Hwf tight j v w0 s rest Hfl Hif Hm Hw Ht He; cbn [means] in Hm; cbn [has_float is_float] in Hfl, Hif; cbn [jdec].
  - subst v. rewrite (skip_value_text (tight := tight) w0 j) by assumption. reflexivity.
  - destruct Hm as (b & -> & ->). rewrite (text_lex (tight := tight) w0 (JBool b)) by assumption.
    inversion Ht; subst; cbn [jtok].
    + pose proof (parse_exact_app lit_true rest) as K; cbv delta [lit_true] in K |- *; now rewrite K.
    + pose proof (parse_exact_app lit_false rest) as K; cbv delta [lit_false] in K |- *; now rewrite K.
  - destruct Hm as (c & -> & ->). inversion Ht as [| | | | |cs b Hb| |]; subst.
    unfold decode_char. rewrite (parse_string_text w0 [c]) by assumption. cbn [bind str_bytes flat_map].
    assert (Hc : char_valid c = true).
    { apply body_valid in Hb. now inversion Hb. }
    rewrite utf8_next_enc by assumption. reflexivity.
  - destruct Hm as (n & -> & Hn & ->). inversion Ht; subst. cbn [sign app].
    now rewrite (parse_unsigned_ok oc (bits w) w0 n) by assumption.
  - destruct Hm as (neg & n & -> & Hn & ->). inversion Ht; subst. pose proof (bits_ge w).
    rewrite (parse_signed_ok oc (bits w) w0 neg n) by (assumption || lia). reflexivity.
  - destruct Hm as (n & -> & Hn & ->). inversion Ht; subst. cbn [sign app].
    now rewrite (parse_unsigned_ok oc (usize_bits p) w0 n) by assumption.
  - destruct Hm as (neg & n & -> & Hn & ->). inversion Ht; subst.
    rewrite (parse_signed_ok oc (usize_bits p) w0 neg n) by (assumption || lia). reflexivity.
  - destruct Hm as (neg & b & -> & Hm). rewrite (Hif eq_refl). cbn [app].
    rewrite (JsonFloat.float_json Dec2flt.F32 tight neg b j s rest); [reflexivity|left; reflexivity|exact Hm|assumption..].
  - destruct Hm as (neg & b & -> & Hm). rewrite (Hif eq_refl). cbn [app].
    rewrite (JsonFloat.float_json Dec2flt.F64 tight neg b j s rest); [reflexivity|right; reflexivity|exact Hm|assumption..].
  - destruct Hm as ((n & -> & Hn & ->) & Hz). inversion Ht; subst. cbn [sign app].
    rewrite (parse_unsigned_ok oc (bits w) w0 n) by assumption. cbn [bind].
    destruct (n =? 0) eqn:E; [|reflexivity]. assert (n = 0) by lia. subst. congruence.
  - destruct Hm as (cs & -> & ->). inversion Ht; subst.
    now rewrite (parse_string_text w0 cs) by assumption.
  - destruct Hm as (bs & (l & -> & Hl) & ->).
    rewrite (dec_sequence_text (byte_step oc) w0 l s [] bs rest Hw Ht); [reflexivity|].
    rewrite <- (map_id bs). apply (runs_snoc (fun j b => j = JInt false b /\ b < 256) _ (fun x => x)) with (acc := []); [|assumption].
    intros j b acc b0 r [-> Hb] Hb0 Hr. inversion Hb0; subst. unfold byte_step.
    pose proof (parse_unsigned_ok oc 8 [] b s0 r space_nil) as K. cbn [app sign] in *.
    rewrite K by (assumption || reflexivity || (cbn; lia)). reflexivity.
  - destruct Hm as (bs & (l & -> & Hl) & Hn & ->).
    rewrite (dec_sequence_text (arr_step oc n) w0 l s [] bs rest Hw Ht).
    + cbn [bind]. rewrite Hn, N.eqb_refl. reflexivity.
    + rewrite <- (map_id bs) at 1.
      apply (runs_bounded (fun j b => j = JInt false b /\ b < 256) _ (fun x => x) n) with (acc := []);
        [|assumption|change (lenN (@nil N)) with 0; lia].
      intros j b acc b0 r Ha [-> Hb] Hb0 Hr. inversion Hb0; subst. unfold arr_step.
      destruct (lenN acc <=? lenN bs) eqn:A; [|lia].
      pose proof (parse_unsigned_ok oc 8 [] b s0 r space_nil) as K. cbn [app sign] in *.
      rewrite K by (assumption || reflexivity || (cbn; lia)). cbn [bind].
      destruct (lenN acc <? lenN bs) eqn:B; [reflexivity|lia].
  - rewrite (text_lex (tight := tight) w0 j) by assumption.
    destruct Hm as [[-> ->]|[Hj (x & Hx & ->)]].
    + cbn [jtok]. inversion Ht; subst. pose proof (parse_exact_app lit_null rest) as K; cbv delta [lit_null] in K |- *; now rewrite K.
    + assert (Hk : jtok j <> KNull) by (destruct j as [|[]| | | | |]; cbn; congruence).
      pose proof (IHt Hwf tight j x [] s rest Hfl (fun _ => eq_refl) Hx space_nil Ht He) as K. cbn [app] in K. rewrite K.
      destruct (jtok j); try reflexivity. congruence.
  - now apply (IHt Hwf tight j).
  - destruct Hm as (l & vs & -> & Hl & ->).
    match goal with |- context [dec_sequence ?st _ _] =>
      rewrite (dec_sequence_text st w0 l s [] vs rest Hw Ht) end; [reflexivity|].
    rewrite <- (map_id vs). apply (runs_snoc (means p t) _ (fun x => x)) with (acc := []); [|assumption].
    intros j a acc b r Ha Hb Hr. rewrite (decodes_here p t _ tight j a b r (IHt Hwf) Hfl Ha Hb Hr). reflexivity.
  - destruct Hm as (l & vs & -> & Hl & Hn & ->). destruct Hwf as [Hwf Hn'].
    match goal with |- context [dec_sequence ?st _ _] =>
      rewrite (dec_sequence_text st w0 l s [] vs rest Hw Ht) end.
    + cbn [bind]. rewrite Hn, N.eqb_refl. reflexivity.
    + rewrite <- (map_id vs) at 1. apply (runs_bounded (means p t) _ (fun x => x) n) with (acc := []);
        [|assumption|change (lenN (@nil val)) with 0; lia].
      intros j a acc b r Hc Ha Hb Hr. rewrite (decodes_here p t _ tight j a b r (IHt Hwf) Hfl Ha Hb Hr). cbn [bind].
      destruct (lenN acc <? n) eqn:B; [reflexivity|lia].
  - destruct Hm as (l & vs & -> & Hl & ->).
    match goal with |- context [dec_sequence ?st _ _] =>
      rewrite (dec_sequence_text st w0 l s [] (fold_left (fun s x => set_insert x s) vs []) rest Hw Ht) end; [reflexivity|].
    apply (runs_fold (means p t) _ (fun s x => set_insert x s)) with (acc := []); [|assumption].
    intros j a acc b r Ha Hb Hr. rewrite (decodes_here p t _ tight j a b r (IHt Hwf) Hfl Ha Hb Hr). reflexivity.
  - destruct Hm as (l & extra & vs & -> & -> & Hl). destruct Hwf as [Hwf _]. apply allP_Forall in Hwf.
    rewrite (dec_tuple_text (tight := tight) (map (jdec p oc) ts) w0 l extra s vs rest); [reflexivity|assumption..|].
    apply (each_list_runs p ts (fun t => t) (jdec p oc)); [| |assumption]; rewrite Forall_forall in *.
    + intros t Ht'. apply H; auto.
    + intros t Ht' F. apply Hfl, existsb_exists. exists t. auto.
  - destruct Hm as (l & kvs & -> & Hl & ->). destruct Hwf as [Hk Hv].
    match goal with |- context [dec_object ?st _ _] =>
      rewrite (dec_object_text st w0 l s [] (fold_left (fun s kv => map_insert (fst kv) (snd kv) s) kvs []) rest Hw Ht) end;
      [reflexivity|].
    apply (oruns_fold (fun m kv => key_means p t1 (fst m) (fst kv) /\ means p t2 (snd m) (snd kv)) _
             (fun s kv => map_insert (fst kv) (snd kv) s)) with (acc := []); [|assumption].
    intros k j [a b] acc ks w2 w3 bs r [H1 H2] Hb Hw2 Hw3 Hti Hj Hr. cbn [fst snd] in *.
    pose proof (jkdec_ok p oc t1 Hk k a [] ks (w2 ++ 58 :: w3 ++ bs ++ r) H1 space_nil Hb) as K.
    cbn [app] in K |- *. rewrite K. cbn [bind].
    rewrite (expect_at KColon 58 _ w2) by (assumption || reflexivity). cbn [bind].
    rewrite (IHt2 Hv tight j b w3 bs r) by (assumption || (intros F; apply Hti, Hfl, float_has, F)). reflexivity.
  - destruct Hm as (l & extra & vs & -> & -> & Hl). destruct Hwf as [Hwf _]. apply allP_Forall in Hwf.
    rewrite (dec_tuple_text (tight := tight) (map (fun ft => jdec p oc (snd ft)) fs) w0 l extra s vs rest); [reflexivity|assumption..|].
    apply (each_list_runs p fs snd (fun ft => jdec p oc (snd ft))); [| |assumption]; rewrite Forall_forall in *.
    + intros ft Ht'. apply H; auto.
    + intros ft Ht' F. apply Hfl, existsb_exists. exists ft. auto.
  - destruct Hm as (l & kvs & vs & -> & -> & Hl & Hvs).
    destruct Hwf as (Hk & Hf & _ & _ & Hd & _). apply allP_Forall in Hf. apply distinct_NoDup in Hd.
    inversion Ht as [| | | | | | |l0 b Hb]; subst.
    destruct fs as [|ft0 fs0] eqn:Efs.
    + inversion Hvs; subst. cbn [app].
      rewrite (expect_at KOBrace 123 _ w0) by (assumption || reflexivity). cbn [bind].
      rewrite <- app_assoc. cbn [app]. now rewrite (skip_entries_members (tight := tight) true l b rest).
    + rewrite <- Efs in *. clear Efs ft0 fs0. cbn [app].
      rewrite (expect_at KOBrace 123 _ w0) by (assumption || reflexivity). cbn [bind].
      rewrite <- app_assoc. cbn [app].
      set (names := map (fun ft => fname (fst ft)) fs) in *.
      set (ds := map (fun ft => jdec p oc (snd ft)) fs) in *.
      assert (I0 : map (fun _ : finfo * ty => @None val) fs = map (fun _ => None) names).
      { unfold names. now rewrite map_map. }
      rewrite (obj_loop_members _ l b Hb _ (fold_left (put names) kvs (map (fun _ => None) names)) _ true rest).
      * cbn [bind]. rewrite (puts_map names kvs Hd (fun _ => None)). unfold names at 1.
        rewrite (fill_values fs kvs vs Hvs). cbn [bind].
        pose proof (skip_entries_members (tight := tight) false [] [] rest (members_nil [] space_nil)) as K.
        cbn [app] in K. now rewrite K.
      * rewrite I0.
        apply (oruns_fold (fun m kv => key_means p t (fst m) (fst kv) /\
           (forall R, In (fst kv, R) (map (fun ft => (fname (fst ft), means p (snd ft))) fs) -> R (snd m) (snd kv)))); [|assumption].
        intros k j [a x] acc ks w2 w3 bs r [H1 H2] Hks Hw2 Hw3 Hti Hj Hr. cbn [fst snd] in *.
        pose proof (jkdec_ok p oc t Hk k a [] ks (w2 ++ 58 :: w3 ++ bs ++ r) H1 space_nil Hks) as K.
        cbn [app] in K |- *. unfold jfield. rewrite K. cbn [bind]. unfold put. cbn [fst snd].
        destruct (find_name a names) as [i|] eqn:Ei.
        -- apply find_name_some in Ei. unfold names in Ei. rewrite nth_error_map in Ei.
           destruct (nth_error fs i) as [ft|] eqn:En; [|discriminate]. cbn in Ei. injection Ei as <-.
           unfold ds. rewrite nth_error_map, En. cbn [option_map].
           rewrite (expect_at KColon 58 _ w2) by (assumption || reflexivity). cbn [bind].
           assert (Hin : In ft fs) by (apply nth_error_In in En; exact En).
           rewrite Forall_forall in H, Hf.
           assert (HfF : has_float (snd ft) = true -> tight = true) by (intros F; apply Hfl, existsb_exists; exists ft; auto).
           rewrite (H ft Hin (Hf ft Hin) tight j x w3 bs r); try assumption; [reflexivity|intros F; apply Hti, HfF, float_has, F|].
           apply H2. apply in_map_iff. exists ft. auto.
        -- rewrite (expect_at KColon 58 _ w2) by (assumption || reflexivity). cbn [bind].
           rewrite (skip_value_text (tight := tight) w3 j) by assumption. reflexivity.
      * pose proof (members_length l b Hb). rewrite app_length. cbn. lia.
  - destruct Hm as (i & k & -> & Hk & Hm). destruct Hwf as (Hk1 & _ & Hd).
    rewrite (IHt Hk1 tight j k) by assumption. cbn [bind].
    rewrite (find_name_nth tags i k); [reflexivity|now apply distinct_NoDup|assumption].
  - destruct Hm as (ks & j' & i & k & R & x & -> & -> & Hn & Hk & Hx).
    destruct Hwf as (Hk1 & Hf & _ & Hd). apply allP_Forall in Hf. apply distinct_NoDup in Hd.
    rewrite nth_error_map in Hn. destruct (nth_error vs i) as [tv|] eqn:En; [|discriminate].
    cbn in Hn. injection Hn as <- <-.
    inversion Ht as [| | | | | | |l0 b Hb]; subst. cbn [app].
    rewrite (expect_at KOBrace 123 _ w0) by (assumption || reflexivity). cbn [bind].
    inversion Hb as [|m b' Hm|m b' l' r Hm Hl Hne]; subst; [|congruence].
    inversion Hm as [w1 k' kb w2 w3 j2 b2 w4 Hw1 Hkb Hw2 Hw3 Hti Hb2 Hw4]; subst.
    rewrite <- !app_assoc. rewrite (jkdec_ok p oc t Hk1 ks (fst tv) w1 kb) by assumption. cbn [bind].
    rewrite (find_name_nth (map fst vs) i (fst tv)); [|assumption|rewrite nth_error_map, En; reflexivity].
    rewrite nth_error_map, En. cbn [option_map app].
    rewrite (expect_at KColon 58 _ w2) by (assumption || reflexivity). cbn [bind].
    rewrite <- !app_assoc. assert (Hin : In tv vs) by (apply nth_error_In in En; exact En).
    rewrite Forall_forall in H, Hf.
    assert (HfF : has_float (snd tv) = true -> tight = true) by (intros F; apply Hfl, existsb_exists; exists tv; auto).
    rewrite (H tv Hin (Hf tv Hin) tight j' x w3 b2); try assumption; [|intros F; apply Hti, HfF, float_has, F|apply ends_space; [assumption|reflexivity]].
    cbn [bind app]. rewrite (expect_at KCBrace 125 rest w4) by (assumption || reflexivity). reflexivity.
Qed.
