(** Properties C70 and C71: adjacently tagged and untagged enums, and fallback variants, in JSON. Specifications used:
    [has_type] and [wf] of [Types.v], [JsonSpec.v] and [TaggedSpec.v]. *)
From Verif Require Import Base Options Int Utf8 Types StorageSpec Json JsonSpec Value Any Tagged TaggedSpec JsonTagged
  BaseFacts TypesFacts JsonFacts JsonText JsonDec JsonSafe JsonEnc JsonMore JsonFinite TaggedFacts JsonTaggedFacts
  PropsInt PropsStorage PropsJson PropsTagged.
Local Open Scope N_scope.

(** * C70 *)

(** An adjacently tagged enum is written as a struct of the tag and the content. *)
Theorem C70_adjacent_is_struct :
  forall p e i name t x, nth_error (e_vars e) i = Some (name, t) ->
    json_adj_enc p e (VVar i x) =
    json_encode p (TStruct (e_key e) [(always (e_tag e), e_name e); (always (e_content e), t)]) (VList [name; x]).
Proof.
  intros p e i name t x Hi. unfold json_encode. cbn [json_adj_enc]. rewrite Hi.
  cbn [jenc map fst snd always fskip jenc_fields fname].
  destruct (jkenc p (e_key e) (e_tag e)); cbn [bind]; try reflexivity.
  destruct (jenc p (e_name e) name); cbn [bind]; try reflexivity.
  destruct (jkenc p (e_key e) (e_content e)); cbn [bind]; try reflexivity.
  destruct (jenc p t x); cbn [bind]; reflexivity.
Qed.
Print Assumptions C70_adjacent_is_struct.

(** A member of an object with a key of the type of the tag that is neither the tag nor the content. *)
Definition unrelated (p : plat) (e : tenum) (m : list N * jtree) : Prop :=
  exists k, key_means p (e_key e) (fst m) k /\ k <> e_tag e /\ k <> e_content e.

Lemma scan_unrelated p e a s l s' : Forall (unrelated p e) a -> scan p e s l s' -> scan p e s (a ++ l) s'.
Proof.
  induction 1 as [|[ks j] a (k & H1 & H2 & H3) _ IH]; intros Hs; [exact Hs|]. cbn [app]. eapply scan_other; [exact H1|exact H2|exact H3|now apply IH].
Qed.

(** A document decodes to the variant that the tag names with what the content means for it, whatever the other
    members and wherever they are, if the tag is before the content. *)
Theorem C70_document :
  forall p oc tight e i name t kt jn kc jc a b c w s x rest, ewf p e ->
    (has_float (e_name e) = true -> tight = true) -> (has_float t = true -> tight = true) -> nth_error (e_vars e) i = Some (name, t) ->
    Forall (unrelated p e) (a ++ b) -> key_means p (e_key e) kt (e_tag e) -> means p (e_name e) jn name ->
    key_means p (e_key e) kc (e_content e) -> means p t jc x ->
    space w -> gtext tight (JObj (a ++ (kt, jn) :: b ++ (kc, jc) :: c)) s ->
    json_adj_dec p oc e (w ++ s ++ rest) = Ok (VVar i x, rest).
Proof.
  intros p oc tight e i name t kt jn kc jc a b c w s x rest Hw Fn Ft Hi Hu Ht Hn Hc Hx Hsp Hs. apply Forall_app in Hu. destruct Hu as [Ha Hb].
  apply (json_adj_ok tight p oc e (a ++ (kt, jn) :: b) kc jc c i name t x w s rest Fn Ft Hw); try assumption.
  - apply scan_unrelated; [assumption|]. eapply scan_tag; [exact Ht|exact Hn|]. rewrite <- (app_nil_r b).
    apply scan_unrelated; [assumption|]. apply scan_nil.
  - rewrite <- app_assoc. exact Hs.
Qed.
Print Assumptions C70_document.

(** What was encoded decodes to itself, in front of anything. *)
Theorem C70_roundtrip_partial :
  forall p oc e v bs w rest, ewf p e -> each_ty (fun t => jsonable t = true) e -> keyable (e_key e) = true ->
    has_type p (TaggedSpec.plain e) v = true -> has_float (e_name e) = false -> finite (TaggedSpec.plain e) v = true ->
    space w -> json_adj_enc p e v = Ok bs ->
    json_adj_dec p oc e (w ++ bs ++ rest) = Ok (v, rest).
Proof.
  intros p oc e v bs w rest Hw (_ & Jn & Jb) Hk Hv Fn Fv Hsp He. destruct v as [| | | | | | | | |i x]; try discriminate.
  destruct (ewf_var p e i x Hw Hv) as (name & t & Hn & Hx & _ & Hnt & _).
  pose proof Hw as ((Hwn & Hwb & _) & Hwk & Htt & Hct & _). rewrite allP_Forall, Forall_forall in Hwb.
  pose proof (Hwb _ (nth_error_In _ _ Hn)) as Hwt. cbn [snd] in Hwt.
  assert (Fx : finite t x = true) by (cbn [TaggedSpec.plain finite] in Fv; rewrite nth_error_map, Hn in Fv; exact Fv).
  destruct (jkenc_ok p (e_key e) Hk Hwk (e_tag e) Htt) as (kt & kts & E1 & B1 & M1).
  destruct (jenc_ok p (e_name e) Jn Hwn name Hnt (no_float_finite p (e_name e) Hwn name Fn Hnt)) as (jn & bn & E2 & T2 & M2 & _).
  destruct (jkenc_ok p (e_key e) Hk Hwk (e_content e) Hct) as (kc & kcs & E3 & B3 & M3).
  destruct (jenc_ok p t (Jb _ _ (nth_error_In _ _ Hn)) Hwt x Hx Fx) as (jc & bc & E4 & T4 & M4 & _).
  cbn [json_adj_enc] in He. rewrite Hn, E1, E2, E3, E4 in He. cbn [bind] in He. injection He as <-.
  apply (C70_document p oc true e i name t kt jn kc jc [] [] [] w _ x rest Hw (fun _ => eq_refl) (fun _ => eq_refl) Hn); try assumption; [constructor|].
  cbn [app]. unfold in_braces. apply text_obj, members_sep. repeat constructor; now apply member_pair.
Qed.
Print Assumptions C70_roundtrip_partial.

(** A document with the content before the tag is an error, and so is one without content. *)
Theorem C70_content_first :
  forall p oc tight e kc jc a c w s rest, ewf p e -> (has_float (e_name e) = true -> tight = true) -> Forall (unrelated p e) a -> key_means p (e_key e) kc (e_content e) ->
    space w -> gtext tight (JObj (a ++ (kc, jc) :: c)) s -> json_adj_dec p oc e (w ++ s ++ rest) = Err.
Proof.
  intros p oc tight e kc jc a c w s rest Hw Fn Ha Hc Hsp Hs. apply (json_adj_first tight p oc e a kc jc c w s rest Fn Hw); try assumption.
  rewrite <- (app_nil_r a). apply scan_unrelated; [assumption|]. apply scan_nil.
Qed.
Print Assumptions C70_content_first.

Theorem C70_content_missing :
  forall p oc tight e kt jn name a b w s rest, ewf p e -> (has_float (e_name e) = true -> tight = true) -> Forall (unrelated p e) (a ++ b) ->
    key_means p (e_key e) kt (e_tag e) -> means p (e_name e) jn name ->
    space w -> gtext tight (JObj (a ++ (kt, jn) :: b)) s -> json_adj_dec p oc e (w ++ s ++ rest) = Err.
Proof.
  intros p oc tight e kt jn name a b w s rest Hw Fn Hu Hc Hn Hsp Hs. apply Forall_app in Hu. destruct Hu as [Ha Hb].
  apply (json_adj_missing tight p oc e (a ++ (kt, jn) :: b) (Some name) w s rest Fn Hw); try assumption.
  apply scan_unrelated; [assumption|]. eapply scan_tag; [exact Hc|exact Hn|]. rewrite <- (app_nil_r b).
  apply scan_unrelated; [assumption|]. apply scan_nil.
Qed.
Print Assumptions C70_content_missing.

(** Any input gives a value of the enum and a proper suffix of the input, or an error. It does not panic without
    overflow checks, if there are no byte arrays (see [C26]) in it. *)
Theorem C70_safe_partial :
  forall p oc e bs, ewf p e -> lenN bs < 2 ^ usize_bits p ->
    match json_adj_dec p oc e bs with
    | Ok (v, r) => has_type p (TaggedSpec.plain e) v = true /\ exists pre, pre <> [] /\ bs = pre ++ r
    | Err => True
    | Panic => ~ (oc = false /\ each_ty (fun t => no_arr t = true) e)
    end.
Proof.
  intros p oc e bs Hw Hl. pose proof (json_adj_post p oc false e bs Hw ltac:(discriminate) Hl) as P.
  destruct (json_adj_dec p oc e bs) as [[v r]| |] eqn:E; [exact P|exact Logic.I|]. intros H.
  pose proof (json_adj_post p oc true e bs Hw (fun _ => H) Hl) as Q. rewrite E in Q. discriminate Q.
Qed.
Print Assumptions C70_safe_partial.

(** The order of the members of an object is not supposed to matter. *)
Theorem C70_order_refuted :
  exists p e m1 m2 s1 s2 v, ewf p e /\ text (JObj [m1; m2]) s1 /\ text (JObj [m2; m1]) s2 /\
    has_type p (TaggedSpec.plain e) v = true /\
    forall oc, json_adj_dec p oc e s1 = Ok (v, []) /\ json_adj_dec p oc e s2 = Err.
Proof.
  pose (e := {| e_key := TStr; e_tag := VBytes [116]; e_content := VBytes [99]; e_name := TStr; e_vars := [(VBytes [97], TBool)] |}).
  exists ex_plat, e, ([116], JStr [97]), ([99], JBool true),
    [123; 34; 116; 34; 58; 34; 97; 34; 44; 34; 99; 34; 58; 116; 114; 117; 101; 125],
    [123; 34; 99; 34; 58; 116; 114; 117; 101; 44; 34; 116; 34; 58; 34; 97; 34; 125], (VVar 0 (VBool true)).
  split. { split; [|repeat split; discriminate]. cbn [TaggedSpec.plain e e_name e_vars wf allP map fold_right snd fst]. repeat split; reflexivity. }
  assert (B : forall c, 97 <= c < 128 -> body [c] [c]) by (intros c Hc; apply body_ascii; constructor; [lia|constructor]).
  assert (M1 : member ([116], JStr [97]) (pair (34 :: [116] ++ [34]) (34 :: [97] ++ [34]))).
  { apply member_pair; [apply B; lia|]. apply text_str, B. lia. }
  assert (M2 : member ([99], JBool true) (pair (34 :: [99] ++ [34]) [116; 114; 117; 101])).
  { apply member_pair; [apply B; lia|apply text_true]. }
  split; [|split; [|split; [reflexivity|intros [|]; (split; [vm_compute; reflexivity|vm_compute; reflexivity])]]].
  - change (text (JObj [([116], JStr [97]); ([99], JBool true)])
      (123 :: comma_sep [pair (34 :: [116] ++ [34]) (34 :: [97] ++ [34]); pair (34 :: [99] ++ [34]) [116; 114; 117; 101]] ++ [125])).
    apply text_obj, members_sep. constructor; [exact M1|]. constructor; [exact M2|constructor].
  - change (text (JObj [([99], JBool true); ([116], JStr [97])])
      (123 :: comma_sep [pair (34 :: [99] ++ [34]) [116; 114; 117; 101]; pair (34 :: [116] ++ [34]) (34 :: [97] ++ [34])] ++ [125])).
    apply text_obj, members_sep. constructor; [exact M2|]. constructor; [exact M1|constructor].
Qed.
Print Assumptions C70_order_refuted.

Example C70_nonvacuous :
  ewf ex_plat ex_enum /\ each_ty (fun t => jsonable t = true /\ no_arr t = true) ex_enum /\ keyable (e_key ex_enum) = true /\
  has_type ex_plat (TaggedSpec.plain ex_enum) ex_enum_val = true /\
  (* {"t":"a","c":{"n":"é","l":[5,-1]}} *)
  json_adj_enc ex_plat ex_enum ex_enum_val
  = Ok [123; 34; 116; 34; 58; 34; 97; 34; 44; 34; 99; 34; 58; 123; 34; 110; 34; 58; 34; 195; 169; 34; 44; 34; 108; 34; 58; 91; 53; 44; 45; 49; 93; 125; 125] /\
  (* {"z":0, "t":"b", "y":[], "c": {"k": 7}, "x":null}! *)
  forall oc, json_adj_dec ex_plat oc ex_enum
    [123; 34; 122; 34; 58; 48; 44; 32; 34; 116; 34; 58; 34; 98; 34; 44; 34; 121; 34; 58; 91; 93; 44; 34; 99; 34; 58; 32; 123; 34; 107; 34; 58; 55; 125; 44;
     34; 120; 34; 58; 110; 117; 108; 108; 125; 33]
  = Ok (VVar 1 (VList [VN 7]), [33]).
Proof.
  split; [exact ex_enum_wf|]. split; [|split; [reflexivity|split; [reflexivity|split; [vm_compute; reflexivity|intros [|]; vm_compute; reflexivity]]]].
  split; [split; reflexivity|]. split; [split; reflexivity|]. intros name t [H|[H|[]]]; injection H as <- <-; split; reflexivity.
Qed.

(** * C71 *)

(** An untagged enum is the first variant that accepts the input, and what is given is a value of it. *)
Theorem C71_first_accepting :
  forall p oc ts bs v r, Forall (wf p) ts -> lenN bs < 2 ^ usize_bits p -> unt_dec (of_json p oc) ts bs = Ok (v, r) ->
    exists j t x r', v = VVar j x /\ nth_error ts j = Some t /\ json_decode p oc t bs = Ok (x, r') /\ has_type p t x = true /\
      (r = bs \/ r = r') /\
      forall k t', (k < j)%nat -> nth_error ts k = Some t' -> json_decode p oc t' bs = Err.
Proof.
  intros p oc ts bs v r Hw Hl H. pose proof H as H0. rewrite Forall_forall in Hw. apply unt_from_inv in H. destruct H as (j & t & x & r' & -> & Hj & Hd & Hk).
  exists j, t, x, r'. split; [reflexivity|]. split; [assumption|]. split; [exact Hd|].
  pose proof (jdec_typed p oc t (Hw _ (nth_error_In _ _ Hj)) false ltac:(discriminate) bs Hl) as T.
  cbn [of_json m_dec] in Hd. rewrite Hd in T. destruct T as [T _]. split; [exact T|]. split; [|exact Hk].
  pose proof (unt_from_hit (of_json p oc) ts 0 j t bs x r' Hj Hk Hd) as E. unfold unt_dec in H0. rewrite H0 in E.
  destruct (Nat.eqb _ _) in E; injection E; auto.
Qed.
Print Assumptions C71_first_accepting.

(** What [encode] writes for a variant decodes to the same value if the variants before it reject it. Missing: the
    reader is past the value only for the last variant, see below. *)
Theorem C71_untagged_roundtrip_partial :
  forall p oc ts j t x bs rest, nth_error ts j = Some t -> wf p t -> jsonable t = true -> has_type p t x = true -> finite t x = true ->
    ends rest = true -> unt_enc (of_json p oc) ts (VVar j x) = Ok bs ->
    (forall k t', (k < j)%nat -> nth_error ts k = Some t' -> json_decode p oc t' (bs ++ rest) = Err) ->
    exists r, unt_dec (of_json p oc) ts (bs ++ rest) = Ok (VVar j x, r) /\ (S j = length ts -> r = rest).
Proof.
  intros p oc ts j t x bs rest Hj Hw Hjs Hx Fx He H Hrej. cbn [unt_enc of_json m_enc] in H. rewrite Hj in H.
  destruct (jenc_ok p t Hjs Hw x Hx Fx) as (jt & bs' & E & Ht & Hm & _). rewrite H in E. injection E as <-.
  pose proof (jdec_ok p oc t Hw true jt x [] bs rest (fun _ => eq_refl) (fun _ => eq_refl) Hm space_nil Ht He) as K. cbn [app] in K.
  eexists. split; [exact (unt_from_hit (of_json p oc) ts 0 j t (bs ++ rest) x rest Hj Hrej K)|].
  intros E. rewrite E, Nat.eqb_refl. reflexivity.
Qed.
Print Assumptions C71_untagged_roundtrip_partial.

(** Inside of a sequence, decoding a variant that is not the last leaves the reader in front of it: the loop over
    the elements of [[1,2]], both of the first variant, does not end, however many steps it makes. *)
Theorem C71_nested_refuted :
  exists p ts vs bs r, forall oc,
    let M := of_json p oc in
    Forall (fun v => exists b, unt_enc M ts v = Ok b /\ exists r, unt_dec M ts b = Ok (v, r)) vs /\
    jseq_enc (unt_enc M ts) vs = Ok bs /\ bs = 91 :: r /\
    forall steps, seq_loop steps (fun s bs => let* (v, r) := unt_dec M ts bs in Ok (s ++ [v], r)) true [] r = Panic.
Proof.
  exists ex_plat, ex_untagged, [VVar 0 (VN 1); VVar 0 (VN 2)], [91; 49; 44; 50; 93], [49; 44; 50; 93]. intros oc M.
  split.
  { constructor; [exists [49]|constructor; [exists [50]|constructor]]; (split; [destruct oc; vm_compute; reflexivity|]);
      [exists [49]|exists [50]]; destruct oc; vm_compute; reflexivity. }
  split; [unfold M; destruct oc; vm_compute; reflexivity|]. split; [reflexivity|].
  assert (H : forall steps first s, seq_loop steps (fun s bs => let* (v, r) := unt_dec M ex_untagged bs in Ok (s ++ [v], r)) first s [49; 44; 50; 93] = Panic).
  { induction steps as [|n IH]; intros first s; [reflexivity|]. cbn [seq_loop].
    assert (E : next_value first [49; 44; 50; 93] = Ok (true, [49; 44; 50; 93])) by (destruct first; vm_compute; reflexivity). rewrite E. cbn [bind].
    assert (E' : unt_dec M ex_untagged [49; 44; 50; 93] = Ok (VVar 0 (VN 1), [49; 44; 50; 93])) by (unfold M; destruct oc; vm_compute; reflexivity).
    rewrite E'. cbn [bind]. apply IH. }
  intros steps. apply H.
Qed.
Print Assumptions C71_nested_refuted.

(** Reading from a [&mut &[u8]] only the last variant is ever tried: what was written for another one is an error
    there, although it can be read from a slice. *)
Theorem C71_mut_last :
  forall p oc ts bs v r, unt_dec_mut (of_json p oc) ts bs = Ok (v, r) ->
    exists t x, v = VVar (length ts - 1) x /\ nth_error ts (length ts - 1) = Some t /\ json_decode p oc t bs = Ok (x, r).
Proof.
  intros p oc ts bs v r H.
  assert (K : forall ts i, unt_from_mut (of_json p oc) i ts bs = Ok (v, r) ->
    exists t x, v = VVar (i + (length ts - 1)) x /\ nth_error ts (length ts - 1) = Some t /\ json_decode p oc t bs = Ok (x, r)).
  { clear. induction ts as [|t [|t' ts] IH]; intros i H; [discriminate| |].
    - cbn [unt_from_mut] in H. inv_bind H. destruct a as [x r0]. injection H as <- <-. exists t, x. cbn. rewrite Nat.add_0_r. auto.
    - cbn [unt_from_mut] in H. apply IH in H. destruct H as (t0 & x & -> & H1 & H2). exists t0, x.
      cbn [length] in *. replace (S (S (length ts)) - 1)%nat with (S (S (length ts) - 1)) by lia. split; [f_equal; lia|]. split; [exact H1|exact H2]. }
  exact (K ts 0%nat H).
Qed.
Print Assumptions C71_mut_last.

Theorem C71_mut_refuted :
  exists p ts v bs, forall oc, unt_enc (of_json p oc) ts v = Ok bs /\
    (exists r, unt_dec (of_json p oc) ts bs = Ok (v, r)) /\ unt_dec_mut (of_json p oc) ts bs = Err.
Proof.
  exists ex_plat, ex_untagged, (VVar 0 (VN 1)), [49]. intros oc. split; [destruct oc; vm_compute; reflexivity|].
  split; [exists [49]|]; destruct oc; vm_compute; reflexivity.
Qed.
Print Assumptions C71_mut_refuted.

(** A variant before the one that was written may accept its encoding. *)
Theorem C71_ambiguous_refuted :
  exists p ts v v' bs, v' <> v /\ forall oc, unt_enc (of_json p oc) ts v = Ok bs /\
    exists r, unt_dec (of_json p oc) ts bs = Ok (v', r).
Proof.
  exists ex_plat, [TU W8; TU W16], (VVar 1 (VN 1)), (VVar 0 (VN 1)), [49]. split; [discriminate|]. intros oc.
  split; [destruct oc; vm_compute; reflexivity|]. exists [49]. destruct oc; vm_compute; reflexivity.
Qed.
Print Assumptions C71_ambiguous_refuted.

(** A variant that the reader does not know is its fallback variant, whatever its contents, and the text after it
    is left. Without a fallback it is an error. *)
Theorem C71_fallback_unknown :
  forall p oc fast kt vs fb ks j k w s rest, wf p kt -> key_means p kt ks k -> ~ In k (map fst vs) -> space w ->
    text (JObj [(ks, j)]) s ->
    json_fb_dec p oc kt vs fb (w ++ s ++ rest) = Ok (VVar fb (VList []), rest) /\
    json_decode p oc (TEnum fast kt vs) (w ++ s ++ rest) = Err.
Proof.
  intros p oc fast kt vs fb ks j k w s rest Hk Hm Hn Hw Ht. split; [eapply json_fb_unknown; eassumption|].
  inversion Ht as [| | | | | | |l0 b Hb]; subst. apply members_first in Hb.
  destruct Hb as (b0 & Hb0 & [(_ & ->)|(r & _ & _ & E)]); [|now elim E].
  inversion Hb0 as [w1 k' kb w2 w3 j' bj w4 Hw1 Hkb Hw2 Hw3 Hti Htj Hw4]; subst. unfold json_decode. cbn [jdec app].
  rewrite (expect_at KOBrace 123 _ w) by (assumption || reflexivity). cbn [bind].
  replace (((w1 ++ 34 :: (kb ++ [34]) ++ w2 ++ 58 :: w3 ++ bj ++ w4) ++ [125]) ++ rest) with
    (w1 ++ (34 :: kb ++ [34]) ++ w2 ++ 58 :: w3 ++ bj ++ w4 ++ 125 :: rest) by (repeat first [rewrite <- app_assoc|progress cbn [app]]; reflexivity).
  rewrite (jkdec_ok p oc kt Hk ks k w1 kb) by assumption. cbn [bind].
  assert (E : find_name k (map fst vs) = None) by now apply find_name_none. rewrite E. reflexivity.
Qed.
Print Assumptions C71_fallback_unknown.

(** A fallback changes nothing for what is accepted without it. *)
Theorem C71_fallback_known :
  forall p oc fast kt vs fb bs v r, json_decode p oc (TEnum fast kt vs) bs = Ok (v, r) ->
    json_fb_dec p oc kt vs fb bs = Ok (v, r).
Proof. intros p oc fast kt vs fb bs v r H. exact (json_fb_known p oc fast kt vs fb bs v r H). Qed.
Print Assumptions C71_fallback_known.

(** An enum without fields: an unknown name is the fallback, a known one itself. *)
Theorem C71_fallback_fieldless :
  forall p oc kt tags fb k j s w rest, wf p kt -> means p kt j k -> text j s -> space w -> ends rest = true -> has_float kt = false ->
    fb_tag_dec (of_json p oc) kt tags fb (w ++ s ++ rest) =
      Ok (VVar match find_name k tags with Some i => i | None => fb end VUnit, rest).
Proof.
  intros p oc kt tags fb k j s w rest Hw Hm Ht Hsp He Hf.
  assert (Hi : is_float kt = true -> w = []) by (intros F; apply float_has in F; congruence). unfold fb_tag_dec. cbn [of_json m_dec].
  rewrite (jdec_ok p oc kt Hw false j k w s rest ltac:(congruence) Hi Hm Hsp Ht He). cbn [bind]. destruct (find_name k tags); reflexivity.
Qed.
Print Assumptions C71_fallback_fieldless.

(** Any input gives a value of the enum, in which the fallback variant has no fields, and a proper suffix of the input, or an
    error. It does not panic without overflow checks, if there are no byte arrays (see [C26]) in it. *)
Theorem C71_fallback_safe_partial :
  forall p oc kt vs fb fbname bs, wf p (TEnum false kt vs) -> nth_error vs fb = Some (fbname, TStruct TStr []) ->
    lenN bs < 2 ^ usize_bits p ->
    match json_fb_dec p oc kt vs fb bs with
    | Ok (v, r) => has_type p (TEnum false kt vs) v = true /\ exists pre, pre <> [] /\ bs = pre ++ r
    | Err => True
    | Panic => ~ (oc = false /\ forall name t, In (name, t) vs -> no_arr t = true)
    end.
Proof.
  intros p oc kt vs fb fbname bs Hw Hfb Hl. pose proof (json_fb_post p oc false kt vs fb bs Hw ltac:(eauto) ltac:(discriminate) Hl) as P.
  destruct (json_fb_dec p oc kt vs fb bs) as [[v r]| |] eqn:E; [exact P|exact Logic.I|]. intros [Hoc H].
  assert (H' : true = true -> oc = false /\ forallb (fun x => no_arr (snd x)) vs = true).
  { intros _. split; [assumption|]. apply forallb_forall. intros [name t] Hin. exact (H name t Hin). }
  pose proof (json_fb_post p oc true kt vs fb bs Hw ltac:(eauto) H' Hl) as Q. rewrite E in Q. discriminate Q.
Qed.
Print Assumptions C71_fallback_safe_partial.

(** [enum W { a(u8), zz(..) }] read as [enum R { a(u8), #[musli(default)] f }] *)
Definition ex_fb : list (val * ty) := [(VBytes [97], TU W8); (VBytes [102], TStruct TStr [])].
Example C71_nonvacuous :
  Forall (wf ex_plat) ex_untagged /\ wf ex_plat (TEnum false TStr ex_fb) /\ nth_error ex_fb 1 = Some (VBytes [102], TStruct TStr []) /\
  ~ In (VBytes [122; 122]) (map fst ex_fb) /\
  forall oc,
    (* "é"! *)
    unt_dec (of_json ex_plat oc) ex_untagged [34; 195; 169; 34; 33] = Ok (VVar 1 (VBytes [195; 169]), [33]) /\
    unt_dec_mut (of_json ex_plat oc) ex_untagged [34; 195; 169; 34; 33] = Ok (VVar 1 (VBytes [195; 169]), [33]) /\
    (* {"zz": [1, {}]}! and {"a":7}! *)
    json_fb_dec ex_plat oc TStr ex_fb 1 [123; 34; 122; 122; 34; 58; 32; 91; 49; 44; 32; 123; 125; 93; 125; 33] = Ok (VVar 1 (VList []), [33]) /\
    json_fb_dec ex_plat oc TStr ex_fb 1 [123; 34; 97; 34; 58; 55; 125; 33] = Ok (VVar 0 (VN 7), [33]).
Proof.
  split; [repeat constructor|]. split.
  { cbn [ex_fb wf allP map fold_right snd fst]. repeat split; try reflexivity; intros ? ? []. }
  split; [reflexivity|]. split. { intros [H|[H|[]]]; discriminate H. }
  intros [|]; (split; [vm_compute; reflexivity|]); (split; [vm_compute; reflexivity|]); (split; [vm_compute; reflexivity|vm_compute; reflexivity]).
Qed.
