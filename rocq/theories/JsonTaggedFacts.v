(** Facts about tagged enums in JSON. *)
From Verif Require Import Base Options Int Utf8 Types Json JsonSpec Value Any Tagged TaggedSpec JsonTagged BaseFacts
  Utf8Facts TypesFacts JsonFacts JsonText JsonDec JsonSafe JsonEnc JsonMore TaggedFacts.
From Coq Require Import ZifyBool ZifyNat ZifyN.
Local Open Scope N_scope.

(** The members before the content, and the name of the variant after them. *)
Inductive scan (p : plat) (e : tenum) : option val -> list (list N * jtree) -> option val -> Prop :=
| scan_nil s : scan p e s [] s
| scan_tag s ks j l s' n : key_means p (e_key e) ks (e_tag e) -> means p (e_name e) j n -> scan p e (Some n) l s' ->
    scan p e s ((ks, j) :: l) s'
| scan_other s ks j l s' k : key_means p (e_key e) ks k -> k <> e_tag e -> k <> e_content e -> scan p e s l s' ->
    scan p e s ((ks, j) :: l) s'.

Lemma jadj_space f p oc e first s w b : space w -> jadj_loop f p oc e first s (w ++ b) = jadj_loop f p oc e first s b.
Proof. intros Hw. destruct f; [reflexivity|]. cbn [jadj_loop]. now rewrite next_key_space. Qed.

Lemma jadj_comma f p oc e s b : jadj_loop f p oc e false s (44 :: b) = jadj_loop f p oc e false s b.
Proof. destruct f; [reflexivity|]. cbn [jadj_loop]. pose proof (next_key_comma [] b space_nil) as K. cbn [app] in K. now rewrite K. Qed.

(** One member that is not the content *)
Lemma jadj_member tight f p oc e first s s' ks j b rest : (has_float (e_name e) = true -> tight = true) -> wf p (e_key e) -> wf p (e_name e) -> scan p e s [(ks, j)] s' -> gmember tight (ks, j) b -> ends rest = true ->
  jadj_loop (S f) p oc e first s (b ++ rest) = jadj_loop f p oc e false s' rest.
Proof.
  intros Hfl Hk Hn Hs Hm He. inversion Hm as [w1 k' kb w2 w3 j' b0 w4 Hw1 Hkb Hw2 Hw3 Hti Ht Hw4]; subst.
  pose proof (ends_space w4 rest Hw4 He) as He'.
  replace ((w1 ++ (34 :: kb ++ [34]) ++ w2 ++ 58 :: w3 ++ b0 ++ w4) ++ rest) with
    (w1 ++ 34 :: (kb ++ [34]) ++ w2 ++ 58 :: w3 ++ b0 ++ w4 ++ rest) by (rewrite <- !app_assoc; cbn [app]; rewrite <- !app_assoc; cbn [app]; rewrite <- ?app_assoc; reflexivity).
  cbn [jadj_loop]. rewrite (next_key_str first w1) by assumption. cbn [bind].
  change (34 :: (kb ++ [34]) ++ w2 ++ 58 :: w3 ++ b0 ++ w4 ++ rest) with ([] ++ (34 :: kb ++ [34]) ++ w2 ++ 58 :: w3 ++ b0 ++ w4 ++ rest).
  inversion Hs as [|? ? ? ? ? n H1 H2 H3|? ? ? ? ? k H1 H2 H3 H4]; subst.
  - inversion H3; subst. rewrite (jkdec_ok p oc (e_key e) Hk ks (e_tag e) [] kb) by (assumption || apply space_nil). cbn [bind].
    rewrite val_eqb_refl. rewrite (expect_at KColon 58 _ w2) by (assumption || reflexivity). cbn [bind].
    pose proof (jdec_ok p oc (e_name e) Hn tight j n w3 b0 (w4 ++ rest) Hfl (fun F => Hti (Hfl (float_has _ F))) H2 Hw3 Ht He') as K. rewrite K. cbn [bind]. now apply jadj_space.
  - inversion H4; subst. rewrite (jkdec_ok p oc (e_key e) Hk ks k [] kb) by (assumption || apply space_nil). cbn [bind].
    rewrite (proj2 (val_eqb_neq k _) H2), (proj2 (val_eqb_neq k _) H3). rewrite (expect_at KColon 58 _ w2) by (assumption || reflexivity). cbn [bind].
    rewrite (skip_value_text (tight := tight) w3 j b0) by assumption. cbn [bind]. now apply jadj_space.
Qed.

Lemma members_first {tight} m l b : gmembers tight (m :: l) b ->
  exists s, gmember tight m s /\ ((l = [] /\ b = s) \/ (exists r, b = s ++ 44 :: r /\ gmembers tight l r /\ l <> [])).
Proof.
  intros H. inversion H; subst.
  - exists b. auto.
  - exists s. split; [assumption|]. right. exists r. auto.
Qed.

(** After the members [l1] *)
Lemma jadj_prefix tight p oc e l1 : (has_float (e_name e) = true -> tight = true) -> wf p (e_key e) -> wf p (e_name e) -> forall s s' l2 b fuel first rest, scan p e s l1 s' -> gmembers tight (l1 ++ l2) b -> (length l1 < fuel)%nat ->
  exists f' first' b', (0 < f')%nat /\ gmembers tight l2 b' /\
    jadj_loop fuel p oc e first s (b ++ 125 :: rest) = jadj_loop f' p oc e first' s' (b' ++ 125 :: rest).
Proof.
  intros Hfl Hk Hn. induction l1 as [|[ks j] l1 IH]; intros s s' l2 b fuel first rest Hs Hm Hf.
  - inversion Hs; subst. exists fuel, first, b. split; [cbn in Hf; lia|]. auto.
  - destruct fuel as [|f]; [lia|]. cbn [length] in Hf. cbn [app] in Hm.
    assert (exists s1, scan p e s [(ks, j)] s1 /\ scan p e s1 l1 s') as (s1 & H1 & H2).
    { inversion Hs; subst.
      - eexists. split; [eapply scan_tag; [eassumption|eassumption|apply scan_nil]|assumption].
      - eexists. split; [eapply scan_other; [eassumption|eassumption|eassumption|apply scan_nil]|assumption]. }
    apply members_first in Hm. destruct Hm as (b0 & Hb0 & [(E & ->)|(r & -> & Hr & _)]).
    + rewrite (jadj_member tight f p oc e first s s1 ks j b0 (125 :: rest) Hfl Hk Hn H1 Hb0 eq_refl).
      apply app_eq_nil in E. destruct E as [-> ->]. inversion H2; subst. exists f, false, []. split; [cbn [length] in Hf; lia|].
      split; [constructor; apply space_nil|reflexivity].
    + rewrite <- app_assoc. cbn [app]. rewrite (jadj_member tight f p oc e first s s1 ks j b0 (44 :: r ++ 125 :: rest) Hfl Hk Hn H1 Hb0 eq_refl).
      rewrite jadj_comma. apply IH with (s := s1); [assumption|assumption|lia].
Qed.

(** The content *)
Lemma jadj_content tight f p oc e first name i t kc jc l2 b x rest : (has_float t = true -> tight = true) -> wf p (e_key e) -> wf p t -> e_content e <> e_tag e ->
  gmembers tight ((kc, jc) :: l2) b -> key_means p (e_key e) kc (e_content e) ->
  find_name name (map fst (e_vars e)) = Some i -> nth_error (e_vars e) i = Some (name, t) -> means p t jc x ->
  exists r, jadj_loop (S f) p oc e first (Some name) (b ++ 125 :: rest) = Ok (VVar i x, r) /\ skip_entries false r = Ok rest.
Proof.
  intros Hfl Hk Hwt Hne Hm Hc Hf Hi Hx. apply members_first in Hm. destruct Hm as (b0 & Hb0 & Hb).
  assert (exists r, ends r = true /\ b ++ 125 :: rest = b0 ++ r /\ forall w, space w -> skip_entries false (w ++ r) = Ok rest) as (r & He & -> & Hr).
  { destruct Hb as [(-> & ->)|(r & -> & Hr & _)].
    - exists (125 :: rest). split; [reflexivity|]. split; [reflexivity|]. intros w Hw.
      exact (skip_entries_members (tight := tight) false [] w rest (members_nil w Hw)).
    - exists (44 :: r ++ 125 :: rest). split; [reflexivity|]. split; [now rewrite <- app_assoc|]. intros w Hw.
      unfold skip_entries, skip_fuel. rewrite skip_obj_space by assumption. rewrite skip_obj_comma.
      apply (proj1 (proj2 (proj2 skip_texts)) l2 r Hr). rewrite !app_length. cbn [length]. rewrite !app_length. lia. }
  inversion Hb0 as [w1 k' kb w2 w3 j' bj w4 Hw1 Hkb Hw2 Hw3 Hti Ht Hw4]; subst.
  exists (w4 ++ r). split; [|now apply Hr].
  replace ((w1 ++ (34 :: kb ++ [34]) ++ w2 ++ 58 :: w3 ++ bj ++ w4) ++ r) with
    (w1 ++ 34 :: (kb ++ [34]) ++ w2 ++ 58 :: w3 ++ bj ++ w4 ++ r) by (rewrite <- !app_assoc; cbn [app]; rewrite <- !app_assoc; cbn [app]; rewrite <- ?app_assoc; reflexivity).
  cbn [jadj_loop]. rewrite (next_key_str first w1) by assumption. cbn [bind].
  change (34 :: (kb ++ [34]) ++ w2 ++ 58 :: w3 ++ bj ++ w4 ++ r) with ([] ++ (34 :: kb ++ [34]) ++ w2 ++ 58 :: w3 ++ bj ++ w4 ++ r).
  rewrite (jkdec_ok p oc (e_key e) Hk kc (e_content e) [] kb) by (assumption || apply space_nil). cbn [bind].
  rewrite (proj2 (val_eqb_neq _ _) Hne), val_eqb_refl. rewrite (expect_at KColon 58 _ w2) by (assumption || reflexivity). cbn [bind].
  rewrite Hf, Hi. rewrite (jdec_ok p oc t Hwt tight jc x w3 bj (w4 ++ r)) by (assumption || (intros F; apply Hti, Hfl, float_has, F) || now apply ends_space). reflexivity.
Qed.

Lemma jadj_content_none tight f p oc e first kc jc l2 b rest : wf p (e_key e) -> e_content e <> e_tag e ->
  gmembers tight ((kc, jc) :: l2) b -> key_means p (e_key e) kc (e_content e) ->
  jadj_loop (S f) p oc e first None (b ++ 125 :: rest) = Err.
Proof.
  intros Hk Hne Hm Hc. apply members_first in Hm. destruct Hm as (b0 & Hb0 & Hb).
  assert (exists r, b ++ 125 :: rest = b0 ++ r) as (r & ->).
  { destruct Hb as [(-> & ->)|(r & -> & Hr & _)]; [eauto|]. rewrite <- app_assoc. eauto. }
  inversion Hb0 as [w1 k' kb w2 w3 j' bj w4 Hw1 Hkb Hw2 Hw3 Hti Ht Hw4]; subst.
  replace ((w1 ++ (34 :: kb ++ [34]) ++ w2 ++ 58 :: w3 ++ bj ++ w4) ++ r) with
    (w1 ++ 34 :: (kb ++ [34]) ++ w2 ++ 58 :: w3 ++ bj ++ w4 ++ r) by (rewrite <- !app_assoc; cbn [app]; rewrite <- !app_assoc; cbn [app]; rewrite <- ?app_assoc; reflexivity).
  cbn [jadj_loop]. rewrite (next_key_str first w1) by assumption. cbn [bind].
  change (34 :: (kb ++ [34]) ++ w2 ++ 58 :: w3 ++ bj ++ w4 ++ r) with ([] ++ (34 :: kb ++ [34]) ++ w2 ++ 58 :: w3 ++ bj ++ w4 ++ r).
  rewrite (jkdec_ok p oc (e_key e) Hk kc (e_content e) [] kb) by (assumption || apply space_nil). cbn [bind].
  rewrite (proj2 (val_eqb_neq _ _) Hne), val_eqb_refl. reflexivity.
Qed.

(** ** Documents *)

Lemma json_adj_ok tight p oc e l1 kc jc l2 i name t x w s rest : (has_float (e_name e) = true -> tight = true) -> (has_float t = true -> tight = true) -> ewf p e ->
  scan p e None l1 (Some name) -> key_means p (e_key e) kc (e_content e) ->
  nth_error (e_vars e) i = Some (name, t) -> means p t jc x -> space w -> gtext tight (JObj (l1 ++ (kc, jc) :: l2)) s ->
  json_adj_dec p oc e (w ++ s ++ rest) = Ok (VVar i x, rest).
Proof.
  intros Fn Ft (Hwp & Hwk & _ & _ & Hne) Hs Hc Hi Hx Hw Ht. cbn [plain wf] in Hwp. destruct Hwp as (Hwn & Hwb & _ & Hd).
  rewrite allP_Forall, Forall_forall in Hwb. pose proof (Hwb _ (nth_error_In _ _ Hi)) as Hwt. cbn [snd] in Hwt.
  assert (Hf : find_name name (map fst (e_vars e)) = Some i).
  { apply find_name_nth; [now apply distinct_NoDup|]. now rewrite nth_error_map, Hi. }
  inversion Ht as [| | | | | | |l0 b Hb]; subst. unfold json_adj_dec. cbn [app].
  rewrite (expect_at KOBrace 123 _ w) by (assumption || reflexivity). cbn [bind]. rewrite <- app_assoc. cbn [app].
  pose proof (members_length _ b Hb) as L. rewrite app_length in L. cbn [length] in L.
  destruct (jadj_prefix tight p oc e l1 Fn Hwk Hwn None (Some name) ((kc, jc) :: l2) b (S (length (b ++ 125 :: rest))) true rest Hs Hb) as (f' & first' & b' & Hf' & Hb' & ->).
  { rewrite app_length. cbn [length]. lia. }
  destruct f' as [|f']; [lia|].
  destruct (jadj_content tight f' p oc e first' name i t kc jc l2 b' x rest Ft Hwk Hwt (fun E => Hne (eq_sym E)) Hb' Hc Hf Hi Hx) as (r & -> & Hr). cbn [bind].
  rewrite Hr. reflexivity.
Qed.

Lemma json_adj_first tight p oc e l1 kc jc l2 w s rest : (has_float (e_name e) = true -> tight = true) -> ewf p e ->
  scan p e None l1 None -> key_means p (e_key e) kc (e_content e) -> space w -> gtext tight (JObj (l1 ++ (kc, jc) :: l2)) s ->
  json_adj_dec p oc e (w ++ s ++ rest) = Err.
Proof.
  intros Fn (Hwp & Hwk & _ & _ & Hne) Hs Hc Hw Ht. cbn [plain wf] in Hwp. destruct Hwp as (Hwn & _).
  inversion Ht as [| | | | | | |l0 b Hb]; subst. unfold json_adj_dec. cbn [app].
  rewrite (expect_at KOBrace 123 _ w) by (assumption || reflexivity). cbn [bind]. rewrite <- app_assoc. cbn [app].
  pose proof (members_length _ b Hb) as L. rewrite app_length in L. cbn [length] in L.
  destruct (jadj_prefix tight p oc e l1 Fn Hwk Hwn None None ((kc, jc) :: l2) b (S (length (b ++ 125 :: rest))) true rest Hs Hb) as (f' & first' & b' & Hf' & Hb' & ->).
  { rewrite app_length. cbn [length]. lia. }
  destruct f' as [|f']; [lia|]. rewrite (jadj_content_none tight f' p oc e first' kc jc l2 b' rest Hwk (fun E => Hne (eq_sym E)) Hb' Hc). reflexivity.
Qed.

Lemma json_adj_missing tight p oc e l s' w s rest : (has_float (e_name e) = true -> tight = true) -> ewf p e -> scan p e None l s' -> space w -> gtext tight (JObj l) s ->
  json_adj_dec p oc e (w ++ s ++ rest) = Err.
Proof.
  intros Fn (Hwp & Hwk & _ & _ & Hne) Hs Hw Ht. cbn [plain wf] in Hwp. destruct Hwp as (Hwn & _).
  inversion Ht as [| | | | | | |l0 b Hb]; subst. unfold json_adj_dec. cbn [app].
  rewrite (expect_at KOBrace 123 _ w) by (assumption || reflexivity). cbn [bind]. rewrite <- app_assoc. cbn [app].
  pose proof (members_length _ b Hb) as L. rewrite <- (app_nil_r l) in Hb.
  destruct (jadj_prefix tight p oc e l Fn Hwk Hwn None s' [] b (S (length (b ++ 125 :: rest))) true rest Hs Hb) as (f' & first' & b' & Hf' & Hb' & ->).
  { rewrite app_length. cbn [length]. lia. }
  destruct f' as [|f']; [lia|]. inversion Hb'; subst. cbn [jadj_loop]. rewrite next_key_end by assumption. reflexivity.
Qed.

(** ** Any input *)

Lemma jadj_post p oc np e M : ewf p e -> M = 2 ^ usize_bits p -> (np = true -> oc = false /\ each_ty (fun t => no_arr t = true) e) ->
  forall fuel first name bs, (length bs < fuel)%nat -> lenN bs < M ->
  post np (jadj_loop fuel p oc e first name bs) (fun x => has_type p (TaggedSpec.plain e) (fst x) = true /\ psfx bs (snd x)).
Proof.
  intros (Hwp & Hwk & _ & _ & Hne) -> Hnp. cbn [TaggedSpec.plain wf] in Hwp. destruct Hwp as (Hwn & Hwb & _ & Hd).
  rewrite allP_Forall, Forall_forall in Hwb.
  induction fuel as [|f IH]; intros first name bs Hf Hl; [lia|]. cbn [jadj_loop].
  eapply post_bind; [apply next_key_post|]. intros [more r]; cbn [fst snd]; intros Hr.
  destruct more; [|exact Logic.I]. pose proof (sfx_len _ _ Hr) as Lr. pose proof (lenN_sfx _ _ Hr) as Lr'.
  eapply post_bind; [apply (jkdec_typed p oc np (e_key e)); [intros E; now apply Hnp|assumption|lia]|].
  intros [k r0]; cbn [fst snd]; intros [Hk Hr0]. pose proof (psfx_len _ _ Hr0) as L0. pose proof (lenN_psfx _ _ Hr0) as L0'.
  destruct (val_eqb k (e_tag e)).
  - eapply post_bind; [apply expect_post|]. intros r1 HR1. pose proof (psfx_len _ _ HR1). pose proof (lenN_psfx _ _ HR1).
    eapply post_bind; [apply (jdec_typed p oc (e_name e) Hwn np); [intros E; destruct (Hnp E) as (? & _ & ? & _); auto|lia]|].
    intros [n r2]; cbn [fst snd]; intros [_ HR2]. pose proof (psfx_len _ _ HR2). pose proof (lenN_psfx _ _ HR2).
    eapply post_weaken; [apply IH; lia|]. intros [x r3]; cbn [fst snd]; intros [Hx HR3]. split; [assumption|].
    eapply sfx_psfx; [exact Hr|]. eapply psfx_trans; [exact Hr0|]. eapply psfx_trans; [exact HR1|]. eapply psfx_trans; [exact HR2|exact HR3].
  - destruct (val_eqb k (e_content e)).
    + destruct name as [n|]; [|exact Logic.I]. eapply post_bind; [apply expect_post|]. intros r1 HR1. pose proof (lenN_psfx _ _ HR1).
      destruct (find_name n (map fst (e_vars e))) as [i|]; [|exact Logic.I].
      destruct (nth_error (e_vars e) i) as [[nm t]|] eqn:Hi; [|exact Logic.I].
      pose proof (Hwb _ (nth_error_In _ _ Hi)) as Hwt. cbn [snd] in Hwt.
      eapply post_bind; [apply (jdec_typed p oc t Hwt np); [intros E; destruct (Hnp E) as (? & _ & _ & Hb); split; [assumption|exact (Hb nm t (nth_error_In _ _ Hi))]|lia]|].
      intros [x r2]; cbn [fst snd]; intros [Hx HR2]. cbn [post fst snd TaggedSpec.plain has_type]. rewrite nth_error_map, Hi. split; [exact Hx|].
      eapply sfx_psfx; [exact Hr|]. eapply psfx_trans; [exact Hr0|]. eapply psfx_trans; [exact HR1|exact HR2].
    + eapply post_bind; [apply expect_post|]. intros r1 HR1. pose proof (psfx_len _ _ HR1). pose proof (lenN_psfx _ _ HR1).
      eapply post_bind; [apply skip_value_post|]. intros r2 HR2. pose proof (psfx_len _ _ HR2). pose proof (lenN_psfx _ _ HR2).
      eapply post_weaken; [apply IH; lia|]. intros [x r3]; cbn [fst snd]; intros [Hx HR3]. split; [assumption|].
      eapply sfx_psfx; [exact Hr|]. eapply psfx_trans; [exact Hr0|]. eapply psfx_trans; [exact HR1|]. eapply psfx_trans; [exact HR2|exact HR3].
Qed.

Lemma json_adj_post p oc np e bs : ewf p e -> (np = true -> oc = false /\ each_ty (fun t => no_arr t = true) e) -> lenN bs < 2 ^ usize_bits p ->
  post np (json_adj_dec p oc e bs) (fun x => has_type p (TaggedSpec.plain e) (fst x) = true /\ psfx bs (snd x)).
Proof.
  intros Hw Hnp Hl. unfold json_adj_dec. eapply post_bind; [apply expect_post|]. intros r Hr. pose proof (lenN_psfx _ _ Hr).
  eapply post_bind; [apply (jadj_post p oc np e _ Hw eq_refl Hnp); lia|]. intros [v r']; cbn [fst snd]; intros [Hv Hr'].
  eapply post_bind; [apply skip_entries_post|]. intros r2 HR2. cbn [post fst snd]. split; [exact Hv|].
  eapply psfx_trans; [exact Hr|]. eapply psfx_trans; [exact Hr'|exact HR2].
Qed.

(** ** Fallback variants *)

Lemma json_fb_post p oc np kt vs fb bs : wf p (TEnum false kt vs) ->
  (exists name, nth_error vs fb = Some (name, TStruct TStr [])) ->
  (np = true -> oc = false /\ forallb (fun x => no_arr (snd x)) vs = true) -> lenN bs < 2 ^ usize_bits p ->
  post np (json_fb_dec p oc kt vs fb bs) (fun x => has_type p (TEnum false kt vs) (fst x) = true /\ psfx bs (snd x)).
Proof.
  intros Hw (fn & Hfb) Hnp Hl. cbn [wf] in Hw. destruct Hw as (Hwk & Hwb & _ & Hd).
  rewrite allP_Forall, Forall_forall in Hwb. unfold json_fb_dec.
  eapply post_bind; [apply expect_post|]. intros r0 HR0. pose proof (lenN_psfx _ _ HR0).
  eapply post_bind; [apply (jkdec_typed p oc np kt); [intros E; now apply Hnp|assumption|lia]|].
  intros [k r1]; cbn [fst snd]; intros [Hk HR1]. pose proof (lenN_psfx _ _ HR1).
  eapply post_bind; [apply expect_post|]. intros r2 HR2. pose proof (lenN_psfx _ _ HR2).
  destruct (find_name k (map fst vs)) as [i|].
  - destruct (nth_error vs i) as [[nm t]|] eqn:Hi; [|exact Logic.I].
    pose proof (Hwb _ (nth_error_In _ _ Hi)) as Hwt. cbn [snd] in Hwt.
    eapply post_bind; [apply (jdec_typed p oc t Hwt np); [intros E; destruct (Hnp E) as (? & Hb); split; [assumption|]|lia]|].
    { rewrite forallb_forall in Hb. exact (Hb _ (nth_error_In _ _ Hi)). }
    intros [x r3]; cbn [fst snd]; intros [Hx HR3]. eapply post_bind; [apply expect_post|]. intros r4 HR4.
    cbn [post fst snd has_type]. rewrite nth_error_map, Hi. split; [exact Hx|].
    eapply psfx_trans; [exact HR0|]. eapply psfx_trans; [exact HR1|]. eapply psfx_trans; [exact HR2|]. eapply psfx_trans; [exact HR3|exact HR4].
  - eapply post_bind; [apply skip_value_post|]. intros r3 HR3. eapply post_bind; [apply expect_post|]. intros r4 HR4.
    cbn [post fst snd has_type]. rewrite nth_error_map, Hfb. split; [reflexivity|].
    eapply psfx_trans; [exact HR0|]. eapply psfx_trans; [exact HR1|]. eapply psfx_trans; [exact HR2|]. eapply psfx_trans; [exact HR3|exact HR4].
Qed.

(** An unknown variant *)
Lemma json_fb_unknown p oc kt vs fb ks j k w s rest : wf p kt -> key_means p kt ks k -> ~ In k (map fst vs) -> space w ->
  text (JObj [(ks, j)]) s -> json_fb_dec p oc kt vs fb (w ++ s ++ rest) = Ok (VVar fb (VList []), rest).
Proof.
  intros Hk Hm Hn Hw Ht. inversion Ht as [| | | | | | |l0 b Hb]; subst. apply members_first in Hb.
  destruct Hb as (b0 & Hb0 & [(_ & ->)|(r & _ & _ & E)]); [|now elim E].
  inversion Hb0 as [w1 k' kb w2 w3 j' bj w4 Hw1 Hkb Hw2 Hw3 Hti Htj Hw4]; subst. unfold json_fb_dec. cbn [app].
  rewrite (expect_at KOBrace 123 _ w) by (assumption || reflexivity). cbn [bind].
  replace (((w1 ++ 34 :: (kb ++ [34]) ++ w2 ++ 58 :: w3 ++ bj ++ w4) ++ [125]) ++ rest) with
    (w1 ++ (34 :: kb ++ [34]) ++ w2 ++ 58 :: w3 ++ bj ++ w4 ++ 125 :: rest) by (repeat first [rewrite <- app_assoc|progress cbn [app]]; reflexivity).
  rewrite (jkdec_ok p oc kt Hk ks k w1 kb) by assumption. cbn [bind].
  rewrite (expect_at KColon 58 _ w2) by (assumption || reflexivity). cbn [bind].
  assert (E : find_name k (map fst vs) = None) by now apply find_name_none.
  rewrite E. rewrite (skip_value_text (tight := false) w3 j bj) by (assumption || now apply ends_space). cbn [bind].
  rewrite (expect_at KCBrace 125 _ w4) by (assumption || reflexivity). reflexivity.
Qed.

(** A known one *)
Lemma json_fb_known p oc fast kt vs fb bs v r : jdec p oc (TEnum fast kt vs) bs = Ok (v, r) -> json_fb_dec p oc kt vs fb bs = Ok (v, r).
Proof.
  intros H. cbn [jdec] in H. unfold json_fb_dec.
  apply bind_ok in H. destruct H as (r0 & E0 & H). rewrite E0. cbn [bind].
  apply bind_ok in H. destruct H as ([k r1] & E1 & H). rewrite E1. cbn [bind].
  destruct (find_name k (map fst vs)) as [i|]; [|discriminate]. rewrite nth_error_map in H.
  destruct (nth_error vs i) as [[nm t]|]; [|discriminate]. cbn [option_map snd] in H.
  apply bind_ok in H. destruct H as (r2 & E2 & H). rewrite E2. cbn [bind].
  apply bind_ok in H. destruct H as ([x r3] & E3 & H). rewrite E3. cbn [bind].
  apply bind_ok in H. destruct H as (r4 & E4 & H). rewrite E4. cbn [bind]. exact H.
Qed.
