(** Lemmas about [JsonAny] with respect to [JsonAnySpec]. *)
From Verif Require Import Base Options Int Utf8 Types Json JsonNum JsonSpec JsonNumSpec Value ValueSpec JsonAny JsonAnySpec BaseFacts
  Utf8Facts TypesFacts JsonFacts JsonText JsonDec JsonSafe JsonMore JsonNumFacts.
From Coq Require Import ZifyBool ZifyNat ZifyN.
Local Open Scope N_scope.

(** ** Numbers *)

Lemma least_unsigned_ok n : n < 2 ^ 128 -> number_of false n (least_unsigned n).
Proof.
  intros H. unfold least_unsigned.
  assert (P : 2 ^ 8 < 2 ^ 16 /\ 2 ^ 16 < 2 ^ 32 /\ 2 ^ 32 < 2 ^ 64 /\ 2 ^ 64 < 2 ^ 128) by (repeat split).
  set (a := 2 ^ 8) in *. set (b := 2 ^ 16) in *. set (c := 2 ^ 32) in *. set (d := 2 ^ 64) in *. set (e := 2 ^ 128) in *.
  assert (F : forall w, 2 ^ bits w = match w with W8 => a | W16 => b | W32 => c | W64 => d | W128 => e end) by (intros []; reflexivity).
  clearbody a b c d e.
  repeat match goal with |- context [if ?c then _ else _] => destruct c eqn:? end; constructor; (split; [rewrite F; lia|]); intros []; rewrite F; cbn [bits]; lia.
Qed.

Lemma least_unsigned_inv n x : number_of false n x -> n < 2 ^ 128 /\ x = least_unsigned n.
Proof.
  intros H. inversion H as [m w [H1 H2]|]; subst.
  assert (L : n < 2 ^ 128).
  { eapply N.lt_le_trans; [exact H1|]. apply N.pow_le_mono_r; [discriminate|]. destruct w; cbn [bits]; lia. }
  split; [assumption|]. pose proof (least_unsigned_ok n L) as K. inversion K as [m' w' [H3 H4] E|]; subst.
  specialize (H2 _ H3). specialize (H4 _ H1). f_equal. destruct w, w'; cbn [bits] in *; (reflexivity || lia).
Qed.

Lemma least_signed_ok z : in_sb 128 z = true -> exists w, least_signed z = NI w z /\ least (fun w => in_sb (bits w) z = true) w.
Proof.
  intros H. apply in_sb_iff in H. unfold least_signed. change (Z.of_N 128 - 1)%Z with 127%Z in H.
  change (8 - 1)%Z with 7%Z. change (16 - 1)%Z with 15%Z. change (32 - 1)%Z with 31%Z. change (64 - 1)%Z with 63%Z.
  assert (P : (2 ^ 7 < 2 ^ 15 /\ 2 ^ 15 < 2 ^ 31 /\ 2 ^ 31 < 2 ^ 63 /\ 2 ^ 63 < 2 ^ 127)%Z) by (repeat split).
  set (a := (2 ^ 7)%Z) in *. set (b := (2 ^ 15)%Z) in *. set (c := (2 ^ 31)%Z) in *. set (d := (2 ^ 63)%Z) in *. set (e := (2 ^ 127)%Z) in *.
  assert (F : forall w, in_sb (bits w) z = true <->
    let m := match w with W8 => a | W16 => b | W32 => c | W64 => d | W128 => e end in (- m <= z < m)%Z)
    by (intros []; rewrite in_sb_iff; reflexivity).
  clearbody a b c d e.
  cbv zeta; repeat match goal with |- context [if ?c then _ else _] => destruct c eqn:? end; eexists; (split; [reflexivity|]); (split; [rewrite F; cbv zeta; lia|]); intros []; rewrite F; cbn [bits]; cbv zeta; lia.
Qed.

Lemma number_neg_ok n : in_sb 128 (- Z.of_N n) = true -> number_of true n (least_signed (- Z.of_N n)).
Proof. intros H. destruct (least_signed_ok _ H) as (w & -> & L). now constructor. Qed.

Lemma least_signed_inv n x : number_of true n x -> in_sb 128 (- Z.of_N n) = true /\ x = least_signed (- Z.of_N n).
Proof.
  intros H. inversion H as [|m w [H1 H2]]; subst.
  assert (L : in_sb 128 (- Z.of_N n) = true).
  { apply in_sb_iff. apply in_sb_iff in H1. change (Z.of_N 128) with 128%Z.
    assert (2 ^ (Z.of_N (bits w) - 1) <= 2 ^ (128 - 1))%Z by (apply Z.pow_le_mono_r; destruct w; cbn [bits]; lia). lia. }
  split; [assumption|]. destruct (least_signed_ok _ L) as (w' & -> & H3 & H4). specialize (H2 _ H3). specialize (H4 _ H1).
  f_equal. destruct w, w'; cbn [bits] in *; (reflexivity || lia).
Qed.

Lemma number_of_ok neg n x p : number_of neg n x -> number_ok p x.
Proof. intros [m w [H _]|m w [H _]]; exact H. Qed.

Lemma parse_number_int oc fl neg n x s w rest : number_of neg n x -> space w -> int_text n s -> ends rest = true ->
  parse_number oc fl (w ++ (sign neg ++ s) ++ rest) = Ok (x, rest).
Proof.
  intros Hx Hw Hs He. unfold parse_number. rewrite skip_ws_space by assumption.
  assert (Hn : n < 2 ^ 128).
  { destruct neg; [|now apply least_unsigned_inv in Hx]. apply least_signed_inv in Hx. destruct Hx as [Hx _].
    apply (z_in_range 128 true n ltac:(lia)). exact Hx. }
  assert (U : unsigned_full oc 128 (s ++ rest) = Ok ({| pt_base := n; pt_m := 0; pt_exp := 0; pt_e := 0 |}, rest)).
  { rewrite (unsigned_full_int oc 128 n) by assumption. rewrite (unsigned_base_ok oc 128 n) by assumption. reflexivity. }
  destruct neg; cbn [sign app].
  - apply least_signed_inv in Hx. destruct Hx as [Hr ->]. rewrite skip_ws_id by reflexivity. unfold signed_full.
    change (45 =? 45) with true. cbv iota. rewrite U. cbn [bind]. unfold signed_compute, compute. cbn [pt_e pt_m pt_base].
    change (0 =? 0)%Z with true. cbn [N.eqb bind]. rewrite negate_in by (lia || assumption). reflexivity.
  - apply least_unsigned_inv in Hx. destruct Hx as [_ ->]. rewrite (int_head_ws n s) by assumption.
    destruct (not_minus n s rest Hs) as (b & r & E & Hb). unfold signed_full. rewrite E. destruct (b =? 45) eqn:E1; [lia|]. rewrite <- E.
    rewrite U. cbn [bind]. unfold compute. cbn [pt_e pt_m pt_base]. change (0 =? 0)%Z with true. cbn [N.eqb]. reflexivity.
Qed.

(** ** Documents *)

Fixpoint jdepth (j : jtree) : nat :=
  match j with
  | JArr l => S (fold_right (fun j n => Nat.max (jdepth j) n) O l)
  | JObj l => S (fold_right (fun m n => Nat.max (jdepth (snd m)) n) O l)
  | _ => O
  end.

Lemma depth_text :
  (forall j s, text j s -> (jdepth j <= length s)%nat) /\
  (forall l s, elems l s -> (fold_right (fun j n => Nat.max (jdepth j) n) O l <= length s)%nat) /\
  (forall l s, members l s -> (fold_right (fun m n => Nat.max (jdepth (snd m)) n) O l <= length s)%nat) /\
  (forall m s, member m s -> (jdepth (snd m) <= length s)%nat).
Proof.
  apply text_mutind; intros; cbn [jdepth fold_right snd length]; rewrite ?app_length; cbn [length]; rewrite ?app_length; cbn [length];
    rewrite ?app_length; cbn [length]; lia.
Qed.

Lemma fold_max {A} (f : A -> nat) l n : (fold_right (fun a m => Nat.max (f a) m) O l <= n)%nat -> Forall (fun a => (f a <= n)%nat) l.
Proof. induction l as [|a l IH]; cbn [fold_right]; intros H; constructor; [lia|apply IH; lia]. Qed.

Lemma Forall2_and {A B} (P : A -> Prop) (R : A -> B -> Prop) l m : Forall P l -> Forall2 R l m -> Forall2 (fun a b => P a /\ R a b) l m.
Proof. intros H1 H2. induction H2; inversion H1; subst; constructor; auto. Qed.

Lemma jany_ok oc fl : forall f j x w s rest, jvalue j x -> (jdepth j <= f)%nat -> space w -> text j s -> (numeric j = true -> ends rest = true) ->
  jany (S f) oc fl (w ++ s ++ rest) = Ok (x, rest).
Proof.
  induction f as [f IHf] using lt_wf_ind. intros j x w s rest Hx Hd Hw Ht He.
  assert (L : lex (w ++ s ++ rest) = (jtok j, s ++ rest)) by now apply (text_lex (tight := false)).
  cbn [jany]. rewrite L. inversion Hx as [|b|neg n y Hy|cs|l xs Hl|l xs Hl]; subst; cbn [jtok].
  - inversion Ht; subst. rewrite parse_exact_app. reflexivity.
  - inversion Ht; subst; rewrite parse_exact_app; reflexivity.
  - inversion Ht; subst. pose proof (parse_number_int oc fl neg n y s0 [] rest Hy space_nil) as P. cbn [app] in P.
    rewrite P by (assumption || now apply He). reflexivity.
  - inversion Ht; subst. pose proof (parse_string_text [] cs s0 rest space_nil) as P. cbn [app] in P. cbn [app].
    rewrite P by assumption. reflexivity.
  - destruct f as [|f]; [cbn in Hd; lia|]. cbn [jdepth] in Hd. apply le_S_n in Hd. apply fold_max in Hd.
    pose proof (Forall2_and _ _ _ _ Hd Hl) as Hl'.
    match goal with |- context [dec_sequence ?st [] (s ++ rest)] => set (step := st) end.
    assert (Hr : runs (tight := false) step [] l xs).
    { rewrite <- (map_id xs). apply (runs_snoc (fun j x => (jdepth j <= f)%nat /\ jvalue j x) step (fun x => x)) with (acc := []); [|assumption].
      intros j a acc b rest' [H1 H2] Hb Hr'. unfold step.
      pose proof (IHf f ltac:(lia) j a [] b rest' H2 H1 space_nil Hb (fun _ => Hr')) as K. cbn [app] in K. rewrite K. reflexivity. }
    pose proof (dec_sequence_text (tight := false) step [] l s [] xs rest space_nil Ht Hr) as K. cbn [app] in K. rewrite K. reflexivity.
  - destruct f as [|f]; [cbn in Hd; lia|]. cbn [jdepth] in Hd. apply le_S_n in Hd. apply (fold_max (fun m => jdepth (snd m))) in Hd.
    pose proof (Forall2_and _ _ _ _ Hd Hl) as Hl'.
    match goal with |- context [dec_object ?st [] (s ++ rest)] => set (step := st) end.
    assert (Hr : oruns (tight := false) step [] l (fold_left (fun acc x => acc ++ [x]) xs [])).
    { apply (oruns_fold (fun m x => (jdepth (snd m) <= f)%nat /\ fst x = UStr (str_bytes (fst m)) /\ jvalue (snd m) (snd x)) step); [|assumption].
      intros k j [kx a] acc ks w2 w3 b rest' [H1 [H2 H3]] Hk Hw2 Hw3 Hti Hb Hr'. cbn [fst snd] in *. subst kx. unfold step, jany_key.
      pose proof (parse_string_text [] k ks (w2 ++ 58 :: w3 ++ b ++ rest') space_nil Hk) as P. cbn [app] in P. cbn [app]. rewrite P. cbn [bind].
      rewrite (expect_at KColon 58 _ w2) by (assumption || reflexivity). cbn [bind].
      pose proof (IHf f ltac:(lia) j a w3 b rest' H3 H1 Hw3 Hb (fun _ => Hr')) as K. rewrite K. reflexivity. }
    assert (E : fold_left (fun acc x => acc ++ [x]) xs [] = xs).
    { clear. assert (G : forall acc, fold_left (fun acc x => acc ++ [x]) xs acc = acc ++ xs); [|apply G].
      induction xs as [|x xs IH]; intros acc; cbn [fold_left]; [now rewrite app_nil_r|]. rewrite IH, <- app_assoc. reflexivity. }
    rewrite E in Hr.
    pose proof (dec_object_text (tight := false) step [] l s [] xs rest space_nil Ht Hr) as K. cbn [app] in K. rewrite K. reflexivity.
Qed.

Lemma json_decode_value_ok oc fl j x w s rest : jvalue j x -> space w -> text j s -> (numeric j = true -> ends rest = true) ->
  json_decode_value oc fl (w ++ s ++ rest) = Ok (x, rest).
Proof.
  intros Hx Hw Ht He. unfold json_decode_value. apply (jany_ok oc fl _ j); try assumption.
  pose proof (proj1 depth_text j s Ht). rewrite !app_length. lia.
Qed.

(** ** Any input *)

Lemma lex_sfx bs : sfx bs (snd (lex bs)).
Proof. unfold lex. pose proof (skip_ws_sfx bs) as H. destruct (skip_ws bs); exact H. Qed.

Lemma as_float_post oc fl np neg q p : (np = true -> oc = false) -> (forall neg q, fl neg q < 2 ^ 64) ->
  post np (as_float oc fl neg q) (number_ok p).
Proof.
  intros Hnp Hfl. unfold as_float. destruct (oc && _) eqn:E; cbn [post]; [|apply Hfl].
  destruct np; [|reflexivity]. rewrite (Hnp eq_refl) in E. discriminate E.
Qed.

Lemma parse_number_post oc fl np p bs : (np = true -> oc = false) -> (forall neg q, fl neg q < 2 ^ 64) ->
  post np (parse_number oc fl bs) (fun x => number_ok p (fst x) /\ psfx bs (snd x)).
Proof.
  intros Hnp Hfl. unfold parse_number. eapply post_bind; [apply (signed_full_post oc 128 np); [assumption|lia]|].
  intros [[neg q] r]; cbn [fst snd]; intros [Hq Hr].
  assert (Hr' : psfx bs r) by (eapply sfx_psfx; [apply skip_ws_sfx|exact Hr]).
  assert (K : post np (let* f := as_float oc fl neg q in Ok (f, r)) (fun x => number_ok p (fst x) /\ psfx bs (snd x))).
  { eapply post_bind; [now apply (as_float_post oc fl np neg q p)|]. intros x Hx. cbn. auto. }
  destruct neg.
  - pose proof (signed_compute_post oc 128 np true q Hnp ltac:(lia) Hq) as C.
    destruct (signed_compute oc 128 true q) as [z| |]; [|exact K|exact C]. cbn in C. cbn [post fst snd]. split; [|assumption].
    destruct (least_signed_ok z C) as (w & -> & Hw & _). exact Hw.
  - pose proof (compute_post oc 128 np q Hnp Hq) as C.
    destruct (compute oc 128 q) as [n| |]; [|exact K|exact C]. cbn [post] in C. cbn [post fst snd]. split; [|assumption].
    eapply number_of_ok. now apply least_unsigned_ok.
Qed.

Lemma str_value p s : utf8_valid s = true -> lenN s < 2 ^ usize_bits p -> value_ok p (UStr s).
Proof. intros H L. constructor; [now apply utf8_valid_bytes|assumption|assumption]. Qed.

Lemma jany_post oc fl np p : (np = true -> oc = false) -> (forall neg q, fl neg q < 2 ^ 64) ->
  forall f bs, (length bs < f)%nat -> lenN bs < 2 ^ usize_bits p ->
  post np (jany f oc fl bs) (fun x => value_ok p (fst x) /\ psfx bs (snd x)).
Proof.
  intros Hnp Hfl. induction f as [|f IH]; intros bs Hf Hl; [lia|]. cbn [jany].
  pose proof (lex_sfx bs) as Hs. destruct (lex bs) as [t r]. cbn [snd] in Hs.
  pose proof (sfx_len _ _ Hs) as Ls.
  assert (Hlr : lenN r < 2 ^ usize_bits p) by (unfold lenN in *; lia).
  assert (W : forall (m : res (value * bytes)), post np m (fun x => value_ok p (fst x) /\ psfx r (snd x)) ->
                post np m (fun x => value_ok p (fst x) /\ psfx bs (snd x))).
  { intros m Hm. eapply post_weaken; [exact Hm|]. intros x [H1 H2]. split; [assumption|]. eapply sfx_psfx; eauto. }
  destruct t; try exact I; apply W.
  - (* an object *)
    unfold dec_object. eapply post_bind with (Q := fun x => value_ok p (UMap (fst x)) /\ psfx r (snd x)); [|intros [es r']; cbn; auto].
    eapply post_bind; [apply expect_post|]. intros r0 H0. pose proof (psfx_len _ _ H0).
    pose (I := fun (s : list (value * value)) (b : bytes) =>
      Forall (fun kv => value_ok p (fst kv) /\ value_ok p (snd kv)) s /\ lenN s + lenN b <= lenN r0 /\ (length b < f)%nat).
    eapply post_bind.
    { apply (obj_loop_post np I); [| |lia|].
      - intros s b b' (H1 & H2 & H3) Hb. pose proof (sfx_len _ _ Hb). repeat split; [assumption| |]; unfold lenN in *; lia.
      - intros s b (H1 & H2 & H3). unfold jany_key. eapply post_bind with (Q := fun x => (exists k, fst x = UStr k /\ utf8_valid k = true /\ (length k + length (snd x) < length b)%nat) /\ psfx b (snd x)).
        + eapply post_bind; [apply parse_string_post|]. intros [k r1]; cbn [fst snd]; intros (K1 & K2 & K3). cbn. split; [|assumption]. exists k. auto.
        + intros [k r1]; cbn [fst snd]; intros [(kb & -> & K1 & K3) K2]. pose proof (psfx_len _ _ K2).
          eapply post_bind; [apply expect_post|]. intros r2 K4. pose proof (psfx_len _ _ K4).
          eapply post_bind; [apply IH; [lia|unfold lenN in *; lia]|]. intros [x r3]; cbn [fst snd]; intros [K5 K6]. pose proof (psfx_len _ _ K6).
          cbn [post fst snd]. split.
          * split; [apply Forall_app; split; [assumption|]; constructor; [|constructor]; split; [|assumption]; apply str_value; [assumption|unfold lenN in *; lia]|].
            split; [|lia]. rewrite lenN_app. change (lenN [(UStr kb, x)]) with 1. unfold lenN in *. lia.
          * eapply psfx_trans; [exact K2|]. eapply psfx_trans; eauto.
      - repeat split; [constructor|unfold lenN; cbn; lia|lia]. }
    intros [es r1]; cbn [fst snd]; intros [(H1 & H2 & H3) H4].
    eapply post_bind; [apply skip_entries_post|]. intros r2 H5. cbn [post fst snd].
    split; [constructor; [assumption|unfold lenN in *; lia]|]. eapply psfx_trans; [exact H0|]. eapply sfx_psfx; eauto.
  - (* a sequence *)
    unfold dec_sequence. eapply post_bind with (Q := fun x => value_ok p (USeq (fst x)) /\ psfx r (snd x)); [|intros [es r']; cbn; auto].
    eapply post_bind; [apply expect_post|]. intros r0 H0. pose proof (psfx_len _ _ H0).
    pose (I := fun (s : list value) (b : bytes) =>
      Forall (value_ok p) s /\ lenN s + lenN b <= lenN r0 /\ (length b < f)%nat).
    eapply post_bind.
    { apply (seq_loop_post np I); [| |lia|].
      - intros s b b' (H1 & H2 & H3) Hb. pose proof (sfx_len _ _ Hb). repeat split; [assumption| |]; unfold lenN in *; lia.
      - intros s b (H1 & H2 & H3). eapply post_bind; [apply IH; [lia|unfold lenN in *; lia]|]. intros [x r3]; cbn [fst snd]; intros [K5 K6].
        pose proof (psfx_len _ _ K6). cbn [post fst snd]. split; [|assumption].
        split; [apply Forall_app; split; [assumption|]; constructor; [assumption|constructor]|].
        split; [|lia]. rewrite lenN_app. change (lenN [x]) with 1. unfold lenN in *. lia.
      - repeat split; [constructor|unfold lenN; cbn; lia|lia]. }
    intros [es r1]; cbn [fst snd]; intros [(H1 & H2 & H3) H4].
    eapply post_bind; [apply skip_rest_post|]. intros r2 H5. cbn [post fst snd].
    split; [constructor; [assumption|unfold lenN in *; lia]|]. eapply psfx_trans; [exact H0|]. eapply sfx_psfx; eauto.
  - eapply post_bind; [apply parse_string_post|]. intros [s r1]; cbn [fst snd]; intros (K1 & K2 & K3). cbn [post fst snd].
    split; [|assumption]. apply str_value; [assumption|unfold lenN in *; lia].
  - eapply post_bind; [now apply (parse_number_post oc fl np p)|]. intros [n r1]; cbn [fst snd]; intros [K1 K2]. cbn. split; [now constructor|assumption].
  - eapply post_bind; [now apply parse_exact_post|]. intros r1 H1. cbn. split; [constructor|assumption].
  - eapply post_bind; [now apply parse_exact_post|]. intros r1 H1. cbn. split; [constructor|assumption].
  - eapply post_bind; [now apply parse_exact_post|]. intros r1 H1. cbn. split; [constructor|assumption].
Qed.

Lemma json_decode_value_post oc fl np p bs : (np = true -> oc = false) -> (forall neg q, fl neg q < 2 ^ 64) ->
  lenN bs < 2 ^ usize_bits p ->
  post np (json_decode_value oc fl bs) (fun x => value_ok p (fst x) /\ psfx bs (snd x)).
Proof. intros Hnp Hfl Hl. unfold json_decode_value. apply jany_post; auto. Qed.

(** ** Numbers *)

Lemma parse_number_exact fl bs x r : parse_number true fl bs = Ok (x, r) ->
  exists w neg ds fs e s, space w /\ bs = w ++ (sign neg ++ s) ++ r /\ decimal true ds fs e s /\
    ((exists n, equals ds fs e n /\ number_of neg n x) \/ exists q, x = NF64 (fl neg q) /\ parts_of ds fs e q).
Proof.
  intros H. destruct (skip_ws_split bs) as (w & Hw & E). unfold parse_number in H.
  apply bind_ok in H. destruct H as ([[neg q] r'] & H1 & H).
  pose proof (signed_full_post true 128 false (skip_ws bs) ltac:(discriminate) ltac:(lia)) as Q. rewrite H1 in Q. cbn [post fst snd] in Q.
  destruct Q as [Q _]. apply signed_full_sound in H1; [|lia].
  destruct H1 as (ds & fs & e & s & E1 & Hd & Hp).
  assert (R : r' = r /\ ((exists n, equals ds fs e n /\ number_of neg n x) \/ exists q, x = NF64 (fl neg q) /\ parts_of ds fs e q)).
  { unfold as_float in H. destruct neg.
    - pose proof (signed_compute_post true 128 false true q ltac:(discriminate) ltac:(lia) Q) as P.
      destruct (signed_compute true 128 true q) as [z| |] eqn:Ez; [|destruct (_ && _); [discriminate|]; injection H as <- <-; eauto|discriminate].
      injection H as <- <-. split; [reflexivity|]. left. cbn in P.
      destruct (signed_compute_sound _ _ _ _ _ _ _ _ Hp Ez) as (n & -> & He). exists n. split; [assumption|]. now apply number_neg_ok.
    - pose proof (compute_post true 128 false q ltac:(discriminate) Q) as P.
      destruct (compute true 128 q) as [n| |] eqn:Ez; [|destruct (_ && _); [discriminate|]; injection H as <- <-; eauto|discriminate].
      injection H as <- <-. split; [reflexivity|]. left. exists n. split; [now apply (compute_sound true 128 ds fs e q)|].
      now apply least_unsigned_ok. }
  destruct R as [-> R]. exists w, neg, ds, fs, e, s. split; [assumption|]. split; [rewrite <- E1; exact E|]. auto.
Qed.

Lemma parse_number_accepts oc fl w neg ds fs e s n x rest : space w -> decimal false ds fs e s -> ends rest = true ->
  equals ds fs e n -> number_of neg n x -> ((e < 0)%Z -> JsonNumSpec.value ds < 2 ^ 128) -> (- 2 ^ 31 < e < 2 ^ 31)%Z ->
  n <> 0 \/ e = 0%Z -> enough fs e ->
  parse_number oc fl (w ++ (sign neg ++ s) ++ rest) = Ok (x, rest).
Proof.
  intros Hw Hd Hr Heq Hx Hds He Hz Hen. unfold parse_number. rewrite skip_ws_space by assumption.
  assert (Hn : n < 2 ^ 128).
  { destruct neg; [|now apply least_unsigned_inv in Hx]. apply least_signed_inv in Hx. destruct Hx as [Hx _].
    apply (z_in_range 128 true n ltac:(lia)). exact Hx. }
  destruct (unsigned_full_accepts oc 128 ds fs e s n rest) as (q & H1 & H2); try assumption.
  rewrite (signed_full_text oc 128 neg ds fs e s rest q rest Hd H1). cbn [bind]. destruct neg.
  - apply least_signed_inv in Hx. destruct Hx as [Hx ->]. unfold signed_compute. rewrite H2. cbn [bind].
    rewrite negate_in by (assumption || lia). reflexivity.
  - apply least_unsigned_inv in Hx. destruct Hx as [_ ->]. rewrite H2. reflexivity.
Qed.

Lemma strip_le t z : JsonNumSpec.value t <= JsonNumSpec.value (t ++ repeat 48 z).
Proof.
  rewrite value_app. pose proof (pow10_pos (lenN (repeat 48 z))). nia.
Qed.

Lemma parse_number_float oc fl w neg ds fs e s rest : space w -> decimal false ds fs e s -> ends rest = true ->
  (forall n, ~ equals ds fs e n) -> JsonNumSpec.value ds < 2 ^ 128 -> JsonNumSpec.value fs < 2 ^ 128 ->
  (- 2 ^ 31 + Z.of_nat (length fs) < e < 2 ^ 31)%Z ->
  exists q, parse_number oc fl (w ++ (sign neg ++ s) ++ rest) = Ok (NF64 (fl neg q), rest) /\ parts_of ds fs e q.
Proof.
  intros Hw Hd Hr Hno Hb Hf He. destruct (strip fs) as (t & z & Hfs & Ht); [eapply decimal_digits; eassumption|].
  assert (Hv : JsonNumSpec.value t < 2 ^ 128).
  { eapply N.le_lt_trans; [apply (strip_le t z)|]. now rewrite <- Hfs. }
  destruct (unsigned_full_ok oc 128 ds fs t z e s rest Hd Hr Hb Hfs Hv) as (q & Hq & Hp & _); [lia|].
  exists q. split; [|assumption]. unfold parse_number. rewrite skip_ws_space by assumption.
  rewrite (signed_full_text oc 128 neg ds fs e s rest q rest Hd Hq). cbn [bind].
  assert (C : compute oc 128 q = Err).
  { destruct (compute oc 128 q) as [n| |] eqn:Ec; [|reflexivity|].
    - destruct (Hno n). now apply (compute_sound oc 128 ds fs e q).
    - exfalso. destruct Hp as (_ & _ & Hpe). unfold compute in Ec. rewrite Hpe in Ec.
      destruct (e =? 0)%Z; [destruct (_ =? 0); discriminate|]. destruct (0 <=? e)%Z.
      + destruct (_ <? 0)%Z; [discriminate|]. destruct (pt_base q =? 0); cbn [bind] in Ec.
        * destruct (pow10 128 (pt_m q) _); cbn [bind] in Ec; [|discriminate]. destruct (_ <=? _); discriminate.
        * destruct (pow10 128 (pt_base q) _); cbn [bind] in Ec; [|discriminate].
          destruct (pow10 128 (pt_m q) _); cbn [bind] in Ec; [|discriminate]. destruct (_ <=? _); discriminate.
      + destruct (negb _); [discriminate|]. destruct (e =? - 2 ^ 31)%Z eqn:Em; [lia|]. cbn [andb] in Ec.
        destruct (neg_pow10 _ _ _); discriminate. }
  assert (F : as_float oc fl neg q = Ok (NF64 (fl neg q))).
  { unfold as_float. destruct Hp as (_ & (z0 & _ & Hz) & ->). rewrite <- lenN_length in He.
    destruct (_ <? _)%Z eqn:El; [lia|]. now rewrite andb_false_r. }
  destruct neg; [unfold signed_compute|]; rewrite C; cbn [bind]; rewrite F; reflexivity.
Qed.

Lemma jvalue_unique : forall d j, (jdepth j <= d)%nat -> forall x y, jvalue j x -> jvalue j y -> x = y.
Proof.
  induction d as [d IHd] using lt_wf_ind. intros j Hd x y Hx Hy.
  inversion Hx as [|b|neg n a Ha|cs|l xs Hl|l xs Hl]; subst; inversion Hy as [|?|? ? c Hc|?|? ys Hm|? ys Hm]; subst; try reflexivity.
  - f_equal. destruct neg; [apply least_signed_inv in Ha; apply least_signed_inv in Hc|apply least_unsigned_inv in Ha; apply least_unsigned_inv in Hc];
      destruct Ha as [_ ->], Hc as [_ ->]; reflexivity.
  - cbn [jdepth] in Hd. destruct d as [|d]; [lia|].
    assert (D : Forall (fun j => (jdepth j <= d)%nat) l) by (apply fold_max; lia). clear Hd Hx Hy. f_equal.
    revert xs ys Hl Hm. induction D as [|j l Hj _ IH]; intros xs ys Hl Hm; inversion Hl; inversion Hm; subst; [reflexivity|].
    f_equal; [eapply (IHd d); eauto|now apply IH].
  - cbn [jdepth] in Hd. destruct d as [|d]; [lia|].
    assert (D : Forall (fun m : list N * jtree => (jdepth (snd m) <= d)%nat) l) by (apply (fold_max (fun m : list N * jtree => jdepth (snd m))); lia).
    clear Hd Hx Hy. f_equal. revert xs ys Hl Hm. induction D as [|j l Hj _ IH]; intros xs ys Hl Hm;
      inversion Hl as [|? [k1 x1] ? ? [K1 X1]]; inversion Hm as [|? [k2 x2] ? ? [K2 X2]]; subst; [reflexivity|]. cbn [fst snd] in *. subst k1 k2.
    f_equal; [f_equal; eapply (IHd d); eauto|now apply IH].
Qed.
