(** Properties C67-C69: JSON read as a dynamic value, decoding through such a value ([decode_buffer]), and internally
    tagged enums in JSON, which decode that way. Specifications used: [JsonSpec.v] (the grammar [text] of RFC 8259,
    the meaning [means] of a document for a type), [JsonNumSpec.v], [JsonAnySpec.v] (the value [jvalue] of a
    document), [ValueSpec.v] and [TaggedSpec.v].

    [oc] says whether arithmetic overflow checks are compiled in (debug builds). [fl] computes the bits of
    the floating point number for the parts of a number that is not an integer. *)
From Verif Require Import Base Options Int Utf8 Types Json JsonNum JsonSpec JsonNumSpec Value ValueSpec Tagged TaggedSpec
  JsonAny JsonAnySpec BaseFacts TypesFacts JsonFacts JsonText JsonDec JsonEnc JsonSafe JsonMore JsonNumFacts JsonAnyFacts JsonFinite JsonBufFacts
  ValueFacts TaggedFacts PropsInt PropsStorage PropsJson PropsTagged.
Local Open Scope N_scope.

(** * C67 *)

(** Every JSON document without fractions and exponents, whatever its spacing and escapes, is read as its value, up
    to where it ends. Missing: numbers with a fraction or an exponent, for which see the next theorem. *)
Theorem C67_value_partial :
  forall oc fl w j s x rest, space w -> text j s -> jvalue j x -> (numeric j = true -> ends rest = true) ->
    json_decode_value oc fl (w ++ s ++ rest) = Ok (x, rest).
Proof. intros. eapply json_decode_value_ok; eassumption. Qed.
Print Assumptions C67_value_partial.

(** Every such document with integers of at most 128 bits has a value, and only one. *)
Theorem C67_value_exists :
  forall j, small j = true -> exists x, jvalue j x /\ forall x', jvalue j x' -> x' = x.
Proof.
  intros j H. destruct (small_jvalue (jdepth j) j (le_n _) H) as [x Hx]. exists x. split; [assumption|].
  intros x' Hx'. exact (jvalue_unique (jdepth j) j (le_n _) x' x Hx' Hx).
Qed.
Print Assumptions C67_value_exists.

(** A number is only read off the text of a number (where the digits after the point and of the
    exponent may be missing). It becomes the integer that it is equal to, in the least type for it, or the floating
    point number for its parts. *)
Theorem C67_number_exact :
  forall fl bs x r, parse_number true fl bs = Ok (x, r) ->
    exists w neg ds fs e s, space w /\ bs = w ++ (sign neg ++ s) ++ r /\ decimal true ds fs e s /\
      ((exists n, equals ds fs e n /\ number_of neg n x) \/
       exists q, x = NF64 (fl neg q) /\ parts_exact ds fs e q).
Proof.
  intros fl bs x r H. apply parse_number_exact in H. destruct H as (w & neg & ds & fs & e & s & H1 & H2 & H3 & H4).
  exists w, neg, ds, fs, e, s. split; [assumption|]. split; [assumption|]. split; [assumption|].
  destruct H4 as [H4|(q & -> & Hq)]; [now left|]. right. exists q. split; [reflexivity|exact Hq].
Qed.
Print Assumptions C67_number_exact.

(** The text of a number that is an integer of at most 128 bits is read as it. Missing: what [C66_accepts_refuted]
    shows to be an error there; here it becomes a floating point number. *)
Theorem C67_integer_partial :
  forall oc fl w neg ds fs e s n x rest,
    space w -> decimal false ds fs e s -> ends rest = true -> equals ds fs e n -> number_of neg n x ->
    n <> 0 \/ e = 0%Z ->
    ((0 < e)%Z -> JsonNumSpec.value fs = 0 -> (Z.of_nat (length fs) <= e)%Z) ->
    ((e < 0)%Z -> JsonNumSpec.value ds < 2 ^ 128) ->
    (- 2 ^ 31 < e < 2 ^ 31)%Z ->
    parse_number oc fl (w ++ (sign neg ++ s) ++ rest) = Ok (x, rest).
Proof. intros. eapply parse_number_accepts; eassumption. Qed.
Print Assumptions C67_integer_partial.

(** The text of a number that is no integer is read as the floating point number for its parts. Missing: digits
    before or after the point that do not fit 128 bits, and exponents outside of the range of [i32]. *)
Theorem C67_float_partial :
  forall oc fl w neg ds fs e s rest,
    space w -> decimal false ds fs e s -> ends rest = true -> (forall n, ~ equals ds fs e n) ->
    JsonNumSpec.value ds < 2 ^ 128 -> JsonNumSpec.value fs < 2 ^ 128 -> (- 2 ^ 31 + Z.of_nat (length fs) < e < 2 ^ 31)%Z ->
    exists q, parse_number oc fl (w ++ (sign neg ++ s) ++ rest) = Ok (NF64 (fl neg q), rest) /\ parts_exact ds fs e q.
Proof. intros. eapply parse_number_float; eassumption. Qed.
Print Assumptions C67_float_partial.

(** Without overflow checks any input gives a value that is well formed (strings are UTF-8, numbers in the
    range of their type) and a proper suffix of the input, or an error. *)
Theorem C67_safe :
  forall p fl bs, (forall neg q, fl neg q < 2 ^ 64) -> lenN bs < 2 ^ usize_bits p ->
    match json_decode_value false fl bs with
    | Ok (x, r) => value_ok p x /\ exists pre, pre <> [] /\ bs = pre ++ r
    | Err => True
    | Panic => False
    end.
Proof.
  intros p fl bs Hf Hl. pose proof (json_decode_value_post false fl true p bs ltac:(auto) Hf Hl) as P.
  destruct (json_decode_value false fl bs) as [[x r]| |]; [exact P|exact I|discriminate P].
Qed.
Print Assumptions C67_safe.

(** With overflow checks decoding panics for 2^128, which without them is read as 0, and for 1.5e-2147483648. *)
Theorem C67_panics_refuted :
  exists bs bs', int_text (2 ^ 128) bs /\
    forall fl, json_decode_value true fl bs = Panic /\ json_decode_value false fl bs = Ok (UNum (NU W8 0), []) /\
      json_decode_value true fl bs' = Panic.
Proof.
  exists [51; 52; 48; 50; 56; 50; 51; 54; 54; 57; 50; 48; 57; 51; 56; 52; 54; 51; 52; 54; 51; 51; 55; 52; 54; 48; 55; 52; 51; 49; 55; 54; 56; 50; 49; 49; 52; 53; 54],
    [49; 46; 53; 101; 45; 50; 49; 52; 55; 52; 56; 51; 54; 52; 56].
  split; [|intros fl; split; [vm_compute; reflexivity|split; vm_compute; reflexivity]].
  split; [discriminate|]. split; [repeat (apply Forall_cons; [red; lia|]); apply Forall_nil|].
  split; [discriminate|vm_compute; reflexivity].
Qed.
Print Assumptions C67_panics_refuted.

Example C67_nonvacuous :
  (* {"a": [1, -129, 2.5e1, "\u00e9"], "": null} *)
  (forall oc fl, json_decode_value oc fl
    [32; 123; 34; 97; 34; 58; 32; 91; 49; 44; 45; 49; 50; 57; 44; 50; 46; 53; 101; 49; 44; 34; 92; 117; 48; 48; 101; 57; 34; 93; 44; 34; 34; 58;
     110; 117; 108; 108; 125; 33]
  = Ok (UMap [(UStr [97], USeq [UNum (NU W8 1); UNum (NI W16 (-129)); UNum (NU W8 25); UStr [195; 169]]); (UStr [], UUnit)], [33])) /\
  (* 0.25 *)
  (forall oc fl, json_decode_value oc fl [48; 46; 50; 53]
   = Ok (UNum (NF64 (fl false {| pt_base := 0; pt_m := 25; pt_exp := 2; pt_e := 0 |})), [])) /\
  jvalue (JObj [([97], JArr [JInt false 1; JInt true 129]); ([], JNull)])
    (UMap [(UStr [97], USeq [UNum (NU W8 1); UNum (NI W16 (-129))]); (UStr [], UUnit)]) /\
  small (JObj [([97], JArr [JInt false 1; JInt true 129]); ([], JNull)]) = true.
Proof.
  split; [intros [|] fl; vm_compute; reflexivity|]. split; [intros [|] fl; vm_compute; reflexivity|]. split; [|reflexivity].
  assert (A : jvalue (JArr [JInt false 1; JInt true 129]) (USeq [UNum (NU W8 1); UNum (NI W16 (-129))])).
  { constructor. constructor; [|constructor; [|constructor]].
    - constructor. exact (least_unsigned_ok 1 ltac:(reflexivity)).
    - constructor. exact (number_neg_ok 129 ltac:(reflexivity)). }
  constructor. constructor; [split; [reflexivity|exact A]|]. constructor; [split; [reflexivity|constructor]|constructor].
Qed.

(** * C68 *)

(** Decoding through a buffered value gives what decoding directly gives (C24): the value that the document means
    for the type. Missing: the types that [jbuf] excludes, see below, and documents that have a number with a fraction or
    an exponent anywhere. *)
Theorem C68_buffered_partial :
  forall p oc fl t w j s x v rest, wf p t -> jbuf t = true ->
    space w -> text j s -> jvalue j x -> means p t j v -> (numeric j = true -> ends rest = true) ->
    json_decode_buffered p oc fl t (w ++ s ++ rest) = Ok (v, rest).
Proof.
  intros p oc fl t w j s x v rest Hw Hb Hsp Ht Hx Hm He. unfold json_decode_buffered.
  rewrite (json_decode_value_ok oc fl j x w s rest) by assumption. cbn [bind].
  rewrite json_keys, (buffers_all p (JSON_BUFFER_OPTIONS p) t Hw Hb false j v x) by assumption. reflexivity.
Qed.
Print Assumptions C68_buffered_partial.

(** What was encoded decodes through a buffered value. *)
Theorem C68_roundtrip_partial :
  forall p oc fl t v bs w rest, wf p t -> jsonable t = true -> jbuf t = true -> has_type p t v = true ->
    space w -> ends rest = true -> json_encode p t v = Ok bs ->
    json_decode_buffered p oc fl t (w ++ bs ++ rest) = Ok (v, rest).
Proof.
  intros p oc fl t v bs w rest Hw Hj Hb Hv Hs He E.
  pose proof (jbuf_no_float t Hb) as Hnf.
  destruct (jenc_ok p t Hj Hw v Hv (no_float_finite p t Hw v Hnf Hv)) as (j & bs' & E' & Ht & Hm & _ & Hsm). specialize (Hsm Hnf). apply loosen in Ht. unfold json_encode in E. rewrite E in E'. injection E' as <-.
  destruct (small_jvalue (jdepth j) j (le_n _) Hsm) as [x Hx]. exact (C68_buffered_partial p oc fl t w j bs x v rest Hw Hb Hs Ht Hx Hm (fun _ => He)).
Qed.
Print Assumptions C68_roundtrip_partial.

(** Without overflow checks any input gives a value of the type and a proper suffix of the input, or an error. *)
Theorem C68_safe :
  forall p fl t bs, wf p t -> (forall neg q, fl neg q < 2 ^ 64) -> lenN bs < 2 ^ usize_bits p ->
    match json_decode_buffered p false fl t bs with
    | Ok (v, r) => has_type p t v = true /\ exists pre, pre <> [] /\ bs = pre ++ r
    | Err => True
    | Panic => False
    end.
Proof.
  intros p fl t bs Hw Hf Hl. unfold json_decode_buffered. pose proof (C67_safe p fl bs Hf Hl) as P.
  destruct (json_decode_value false fl bs) as [[x r]| |]; cbn [bind]; [|exact I|contradiction]. destruct P as [Hx Hr].
  pose proof (vdec_safe p (JSON_BUFFER_OPTIONS p) (is_map_keys_as_numbers_value (JSON_BUFFER_OPTIONS p)) t Hw false x Hx) as S.
  destruct (vdec p _ _ false t x) as [v| |]; cbn [bind]; [|exact I|contradiction]. split; [exact S|exact Hr].
Qed.
Print Assumptions C68_safe.

(** Values that decode directly but not through a buffered value: an optional value, given or not; a character; a
    default-tagged enum; bytes; a packed struct. *)
Theorem C68_types_refuted :
  exists l, (length l = 6)%nat /\
    forall t v, In (t, v) l -> wf ex_plat t /\ jsonable t = true /\ has_type ex_plat t v = true /\
      exists bs, json_encode ex_plat t v = Ok bs /\
        forall oc fl, json_decode ex_plat oc t bs = Ok (v, []) /\ json_decode_buffered ex_plat oc fl t bs = Err.
Proof.
  exists [(TOpt TBool, VNone); (TOpt TBool, VSome (VBool true)); (TChar, VN 97);
          (TEnum false TStr [(VBytes [97], TBool)], VVar 0 (VBool true));
          (TBytes, VBytes [1; 2]); (TPack false [(None, TBool)], VList [VBool true])].
  split; [reflexivity|]. intros t v H.
  repeat (destruct H as [H|H]; [injection H as <- <-;
    (split; [cbn [wf allP map fold_right snd fst]; repeat split; intros ft d [<-|[]]; cbn; discriminate|]);
    (split; [reflexivity|]); (split; [reflexivity|]); eexists; (split; [vm_compute; reflexivity|]);
    intros [|] fl; (split; [vm_compute; reflexivity|vm_compute; reflexivity])|]). destruct H.
Qed.
Print Assumptions C68_types_refuted.

Definition ex_bty : ty :=
  TStruct TStr
    [(ex_key [110] None, TStr);
     (ex_key [108] (Some (VList [])), TVec (TI W32));
     (ex_key [109] None, TMap (TI W8) (TTup [TUsize; TBool]))].
Definition ex_bval : val :=
  VList [VBytes [195; 169; 10]; VList []; VMap [(VZ (-3), VList [VN 300; VBool true]); (VZ 4, VList [VN 0; VBool false])]].

Example C68_nonvacuous :
  wf ex_plat ex_bty /\ jsonable ex_bty = true /\ jbuf ex_bty = true /\ has_type ex_plat ex_bty ex_bval = true /\
  exists bs, json_encode ex_plat ex_bty ex_bval = Ok bs /\
    forall oc fl, json_decode_buffered ex_plat oc fl ex_bty bs = Ok (ex_bval, []).
Proof.
  split.
  { cbn [ex_bty wf allP map fold_right snd fst]. repeat split; try reflexivity.
    - intros ft d [<-|[<-|[<-|[]]]]; cbn; intros E; inversion E; reflexivity.
    - intros ft v [<-|[<-|[<-|[]]]]; cbn; try discriminate. destruct v as [| | | | | | |[|]| |]; try discriminate. reflexivity. }
  split; [reflexivity|]. split; [reflexivity|]. split; [reflexivity|]. eexists. split; [vm_compute; reflexivity|].
  intros [|] fl; vm_compute; reflexivity.
Qed.

(** * C69 *)

(** An internally tagged enum is written as an object: the tag with the name of the variant,
    then the fields of the variant. *)
Theorem C69_internal_is_struct :
  forall p e i name fs vs, nth_error (e_vars e) i = Some (name, TStruct (e_key e) fs) ->
    json_int_enc p e (VVar i (VList vs)) = json_encode p (with_tag e [] fs) (VList (name :: vs)).
Proof.
  intros p e i name fs vs Hi. unfold with_tag, json_encode. cbn [json_int_enc app]. rewrite Hi.
  cbn [jenc map fst snd always fskip jenc_fields fname].
  destruct (jkenc p (e_key e) (e_tag e)); cbn [bind]; try reflexivity.
  destruct (jenc p (e_name e) name); cbn [bind]; try reflexivity.
  destruct (jenc_fields _ _ vs); cbn [bind]; reflexivity.
Qed.
Print Assumptions C69_internal_is_struct.

(** A document, an object with the tag in any place, decodes to the variant it names with what the object means for the body of
    the variant. Missing: types that [jbuf] excludes and documents that have a number with a fraction or an exponent. *)
Theorem C69_document_partial :
  forall p oc fl e i name t w l1 ks jn l2 s x v rest, ewf p e -> jbuf (e_name e) = true -> jbuf t = true ->
    nth_error (e_vars e) i = Some (name, t) ->
    space w -> text (JObj (l1 ++ (ks, jn) :: l2)) s -> jvalue (JObj (l1 ++ (ks, jn) :: l2)) x ->
    Forall (fun m => exists k, key_means p (e_key e) (fst m) k /\ k <> e_tag e) l1 ->
    key_means p (e_key e) ks (e_tag e) -> means p (e_name e) jn name ->
    means p t (JObj (l1 ++ (ks, jn) :: l2)) v ->
    json_int_dec p oc fl e (w ++ s ++ rest) = Ok (VVar i v, rest).
Proof.
  intros p oc fl e i name t w l1 ks jn l2 s x v rest (Hwp & Hwk & _) Jn Jt Hi Hw Ht Hx H1 H2 H3 H4.
  cbn [TaggedSpec.plain wf] in Hwp. destruct Hwp as (Hwn & Hwb & _ & Hd). rewrite allP_Forall, Forall_forall in Hwb.
  pose proof (Hwb _ (nth_error_In _ _ Hi)) as Hwt. cbn [snd] in Hwt.
  unfold json_int_dec. rewrite (json_decode_value_ok oc fl (JObj (l1 ++ (ks, jn) :: l2)) x w s rest) by (assumption || discriminate). cbn [bind].
  rewrite json_keys, (json_internal_value p _ e i name t l1 ks jn l2 v x) by assumption. reflexivity.
Qed.
Print Assumptions C69_document_partial.

(** Round trip. *)
Theorem C69_roundtrip_partial :
  forall p oc fl e v bs w rest, ewf p e -> internal_ok p e ->
    each_ty (fun t => jsonable t = true /\ jbuf t = true) e -> keyable (e_key e) = true ->
    has_type p (TaggedSpec.plain e) v = true -> space w -> json_int_enc p e v = Ok bs ->
    json_int_dec p oc fl e (w ++ bs ++ rest) = Ok (v, rest).
Proof.
  intros p oc fl e v bs w rest Hw Hi (_ & [Jn Bn] & Hb) Hk Hv Hs He. destruct v as [| | | | | | | | |i x]; try discriminate.
  destruct (ewf_var p e i x Hw Hv) as (name & t & Hn & Hx & _ & Hnt & _).
  destruct (Hi name t (nth_error_In _ _ Hn)) as (fs & -> & Hwt).
  destruct x as [| | | | | | |vs| |]; try discriminate.
  destruct (Hb _ _ (nth_error_In _ _ Hn)) as [Jt Bt]. cbn [jsonable] in Jt. apply andb_true_iff in Jt. destruct Jt as [_ Jt].
  rewrite (C69_internal_is_struct p e i name fs vs Hn) in He. cbn [has_type] in Hx.
  destruct (json_int_encodes p e name fs vs Hw Hwt Hk Jn Jt Hnt (jbuf_no_float _ Bn) (jbuf_no_float _ Bt) Hx) as (ks & jn & l & bs' & E & H1 & H2 & H3 & H4 & H5).
  rewrite He in E. injection E as <-. destruct (small_jvalue _ _ (le_n _) H2) as [x Hjx].
  exact (C69_document_partial p oc fl e i name _ w [] ks jn l bs x (VList vs) rest Hw Bn Bt Hn Hs H1 Hjx (Forall_nil _) H3 H4 H5).
Qed.
Print Assumptions C69_roundtrip_partial.

(** Without overflow checks any input gives a value of the enum and a proper suffix of the input, or an error. *)
Theorem C69_safe :
  forall p fl e bs, ewf p e -> (forall neg q, fl neg q < 2 ^ 64) -> lenN bs < 2 ^ usize_bits p ->
    match json_int_dec p false fl e bs with
    | Ok (v, r) => has_type p (TaggedSpec.plain e) v = true /\ exists pre, pre <> [] /\ bs = pre ++ r
    | Err => True
    | Panic => False
    end.
Proof.
  intros p fl e bs Hw Hf Hl. unfold json_int_dec. pose proof (C67_safe p fl bs Hf Hl) as P.
  destruct (json_decode_value false fl bs) as [[x r]| |]; cbn [bind]; [|exact I|contradiction]. destruct P as [Hx Hr].
  pose proof (int_dec_value_safe p (JSON_BUFFER_OPTIONS p) (is_map_keys_as_numbers_value (JSON_BUFFER_OPTIONS p)) e x Hw Hx) as S.
  destruct (int_dec_value p _ _ e x) as [v| |]; cbn [bind]; [|exact I|contradiction]. split; [exact S|exact Hr].
Qed.
Print Assumptions C69_safe.

(** A variant with an optional field is encoded, and nothing decodes it. *)
Theorem C69_optional_refuted :
  exists p e v bs, ewf p e /\ internal_ok p e /\ has_type p (TaggedSpec.plain e) v = true /\ json_int_enc p e v = Ok bs /\
    forall oc fl, json_int_dec p oc fl e bs = Err.
Proof.
  exists ex_plat, {| e_key := TStr; e_tag := VBytes [116]; e_content := VBytes [99]; e_name := TStr;
                     e_vars := [(VBytes [97], TStruct TStr [(ex_key [110] None, TOpt TBool)])] |}, (VVar 0 (VList [VSome (VBool true)])).
  eexists. split.
  { split; [|repeat split; discriminate]. cbn [TaggedSpec.plain e_name e_vars wf allP map fold_right snd fst].
    repeat split; try reflexivity; intros ft d [<-|[]]; cbn; discriminate. }
  split.
  { intros name t [E|[]]. injection E as <- <-. eexists. split; [reflexivity|]. cbn [with_tag e_key e_tag app wf allP map fold_right snd fst].
    repeat split; try reflexivity; intros ft d [<-|[<-|[]]]; cbn; discriminate. }
  split; [reflexivity|]. split; [vm_compute; reflexivity|]. intros [|] fl; vm_compute; reflexivity.
Qed.
Print Assumptions C69_optional_refuted.

Example C69_nonvacuous :
  ewf ex_plat ex_enum /\ has_type ex_plat (TaggedSpec.plain ex_enum) ex_enum_val = true /\
  json_int_enc ex_plat ex_enum ex_enum_val
  = Ok [123; 34; 116; 34; 58; 34; 97; 34; 44; 34; 110; 34; 58; 34; 195; 169; 34; 44; 34; 108; 34; 58; 91; 53; 44; 45; 49; 93; 125] /\
  (* {"n": "x", "t": "a", "z": {}} *)
  forall oc fl, json_int_dec ex_plat oc fl ex_enum
    [123; 34; 110; 34; 58; 32; 34; 120; 34; 44; 34; 116; 34; 58; 34; 97; 34; 44; 34; 122; 34; 58; 123; 125; 125; 33]
  = Ok (VVar 0 (VList [VBytes [120]; VList []]), [33]).
Proof.
  split; [exact ex_enum_wf|]. split; [reflexivity|]. split; [vm_compute; reflexivity|].
  intros [|] fl; vm_compute; reflexivity.
Qed.
