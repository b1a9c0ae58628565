(** Property C79: dynamic values in JSON: what they are written as, what they are when they are read back, and that this
    is the same from then on. Specifications used: [JsonSpec.v] (the grammar [gtext] of RFC 8259, the meaning [means] of a
    document for a type), [JsonAnySpec.v], [JsonValueSpec.v] and [ValueSpec.v].

    [oc] says whether arithmetic overflow checks are compiled in (debug builds). [fl] computes the bits of
    the floating point number for the parts of a number that is not an integer. *)
From Verif Require Import Base Options Int Utf8 Types FloatSpec Json JsonNum JsonSpec JsonNumSpec Value ValueSpec Any JsonAny JsonAnySpec JsonValue JsonValueSpec
  BaseFacts JsonFacts JsonText JsonEnc JsonAnyFacts JsonValueFacts PropsInt.
Local Open Scope N_scope.

(** A value is written if all the keys of its maps and variants are strings or integers, and it is an error otherwise. *)
Theorem C79_encodes :
  forall x, match json_encode_value x with
            | Ok _ => keys_like x = true
            | Err => keys_like x = false
            | Panic => False
            end.
Proof. exact encodes_iff. Qed.
Print Assumptions C79_encodes.

(** It is written as a JSON document for it. Missing: infinities and NaN, see [C79_infinity_refuted]. *)
Theorem C79_document_partial :
  forall p x bs, value_ok p x -> numbers finite_number x = true -> json_encode_value x = Ok bs ->
    exists j, document p x j /\ gtext true j bs.
Proof.
  intros p x bs Hok HF H. destruct (json_encode_value_good p x bs Hok HF H) as (j & D & T & _). eauto.
Qed.
Print Assumptions C79_document_partial.

(** Whatever whitespace comes before it, it is read back as what remains of it in JSON, and that is written as the same
    text again. Missing: floating point numbers, see [C79_float_refuted]. *)
Theorem C79_roundtrip_partial :
  forall p oc fl x bs w rest, value_ok p x -> numbers whole_number x = true -> json_encode_value x = Ok bs ->
    space w -> (a_number x = true -> ends rest = true) ->
    exists y, json_decode_value oc fl (w ++ bs ++ rest) = Ok (y, rest) /\ remains x y /\ json_encode_value y = Ok bs.
Proof.
  intros p oc fl x bs w rest Hok HW H Hw He.
  assert (HF : numbers finite_number x = true).
  { clear - HW. induction x using AnyFacts.value_ind'; cbn [numbers] in *; try reflexivity.
    - destruct n; try reflexivity; discriminate.
    - rewrite forallb_forall in *. rewrite Forall_forall in H. auto.
    - rewrite forallb_forall in *. rewrite Forall_forall in H. intros e He. specialize (HW e He). apply andb_true_iff in HW.
      destruct (H e He) as [A B], HW as [C D]. now rewrite (A C), (B D).
    - apply andb_true_iff in HW. destruct HW as [C D]. now rewrite (IHx1 C), (IHx2 D).
    - auto. }
  destruct (json_encode_value_good p x bs Hok HF H) as (j & _ & T & Nm & R). destruct (R HW) as (y & R1 & R2).
  exists y. split; [|split; [assumption|]].
  - apply (json_decode_value_ok oc fl j); try assumption; [now apply (loosen true)|]. now rewrite Nm.
  - destruct (remains_settled x y R1) as [_ E]. now rewrite E.
Qed.
Print Assumptions C79_roundtrip_partial.

(** What remains of a value is determined, and nothing more is lost the second time. *)
Theorem C79_settles :
  forall x y, remains x y -> remains y y /\ forall y', remains x y' -> y' = y.
Proof. intros x y H. split; [exact (proj1 (remains_settled x y H))|]. intros y' H'. exact (remains_fun x y' y H' H). Qed.
Print Assumptions C79_settles.

(** A document of integers without [-0], read, written and read once more, is the same value. *)
Theorem C79_read_write_read_partial :
  forall p oc fl w j s x rest, value_ok p x -> space w -> text j s -> jvalue j x -> (numeric j = true -> ends rest = true) ->
    numbers not_minus_zero x = true ->
    json_decode_value oc fl (w ++ s ++ rest) = Ok (x, rest) /\
    exists bs, json_encode_value x = Ok bs /\ json_decode_value oc fl bs = Ok (x, []).
Proof.
  intros p oc fl w j s x rest Hok Hw Ht Hx He HZ. split; [now apply (json_decode_value_ok oc fl j)|].
  pose proof (jvalue_settled x j Hx HZ) as R. pose proof (jvalue_written x j Hx) as [HK HW].
  pose proof (encodes_iff x) as HE. destruct (json_encode_value x) as [bs| |] eqn:E; [|rewrite HK in HE; discriminate|contradiction].
  exists bs. split; [reflexivity|].
  destruct (C79_roundtrip_partial p oc fl x bs [] [] Hok HW E) as (y & D & Ry & _); [constructor|reflexivity|].
  rewrite app_nil_r in D. cbn [app] in D. now rewrite (remains_fun x x y R Ry).
Qed.
Print Assumptions C79_read_write_read_partial.

(** Floating point numbers: [1.0] is written as the text "1.0" and read back as the integer [1]. *)
Theorem C79_float_refuted :
  exists x bs, numbers finite_number x = true /\ value_ok ex_plat x /\ json_encode_value x = Ok bs /\
    x = UNum (NF32 0x3F800000) /\
    forall oc fl, json_decode_value oc fl bs = Ok (UNum (NU W8 1), []).
Proof.
  exists (UNum (NF32 0x3F800000)), [49; 46; 48]. split; [reflexivity|]. split; [constructor; reflexivity|].
  split; [vm_compute; reflexivity|]. split; [reflexivity|]. intros [] fl; vm_compute; reflexivity.
Qed.
Print Assumptions C79_float_refuted.

(** Infinity is written as a word that is no JSON document. *)
Theorem C79_infinity_refuted :
  exists x bs, value_ok ex_plat x /\ json_encode_value x = Ok bs /\ (forall j, ~ text j bs) /\
    forall oc fl, json_decode_value oc fl bs = Err.
Proof.
  exists (UNum (NF64 0x7FF0000000000000)), [105; 110; 102]. split; [constructor; reflexivity|]. split; [vm_compute; reflexivity|].
  split; [|intros [] fl; vm_compute; reflexivity].
  intros j H. remember [105; 110; 102] as b eqn:E. destruct H as [| | |neg n s Hs|neg ds fs e sf se Hd Hf He Hne| | |]; try discriminate E.
  - destruct Hs as (Hne & Hd & _). destruct neg; [discriminate E|]. cbn [sign app] in E. destruct s as [|d s]; [contradiction|].
    injection E as -> _. inversion Hd as [|? ? D]; subst. unfold digit in D. lia.
  - destruct Hd as (Hne' & Hd & _). destruct neg; [discriminate E|]. cbn [sign app] in E. destruct ds as [|d ds]; [contradiction|].
    injection E as -> _. inversion Hd as [|? ? D]; subst. unfold digit in D. lia.
Qed.
Print Assumptions C79_infinity_refuted.

(** [-0] is read as a signed zero, which is written as [0] and read as an unsigned zero. *)
Theorem C79_minus_zero_refuted :
  exists j s x, text j s /\ jvalue j x /\ exists bs, json_encode_value x = Ok bs /\
    forall oc fl, json_decode_value oc fl s = Ok (x, []) /\ exists y, json_decode_value oc fl bs = Ok (y, []) /\ y <> x.
Proof.
  exists (JInt true 0), [45; 48], (UNum (NI W8 0)). split; [apply (text_int true 0 [48]); exact (ItoaFacts.itoa_text 0)|].
  split; [constructor; exact (number_neg_ok 0 eq_refl)|]. exists [48]. split; [reflexivity|]. intros oc fl.
  split; [destruct oc; vm_compute; reflexivity|]. exists (UNum (NU W8 0)). split; [destruct oc; vm_compute; reflexivity|discriminate].
Qed.
Print Assumptions C79_minus_zero_refuted.

Definition ex_value : value :=
  UMap [(UNum (NI W32 (-7)), UVariant (UStr [97]) (UBytes [0; 255])); (UStr [34; 195; 169], USeq [UChar 8364; UOpt (Some UUnit); UNum (NUsize 300)])].
Example C79_nonvacuous : value_ok ex_plat ex_value /\ numbers finite_number ex_value = true /\ numbers whole_number ex_value = true /\
  keys_like ex_value = true /\ a_number ex_value = false /\
  json_encode_value ex_value = Ok ([123; 34; 45; 55; 34; 58; 123; 34; 97; 34; 58; 91; 48; 44; 50; 53; 53; 93; 125; 44; 34; 92; 34; 195; 169; 34; 58; 91;
    34; 226; 130; 172; 34; 44; 110; 117; 108; 108; 44; 51; 48; 48; 93; 125]) /\
  exists y, remains ex_value y /\ y = UMap [(UStr [45; 55], UMap [(UStr [97], USeq [UNum (NU W8 0); UNum (NU W8 255)])]);
    (UStr [34; 195; 169], USeq [UStr [226; 130; 172]; UUnit; UNum (NU W16 300)])] /\ numbers not_minus_zero y = true.
Proof.
  assert (Hok : value_ok ex_plat ex_value).
  { unfold ex_value. repeat first [constructor | reflexivity]. }
  split; [exact Hok|]. repeat (split; [vm_compute; reflexivity|]).
  destruct (C79_roundtrip_partial ex_plat false (fun _ _ => 0) ex_value _ [] [] Hok eq_refl eq_refl ltac:(constructor) ltac:(discriminate)) as (y & D & R & _).
  exists y. split; [exact R|]. assert (E : y = UMap [(UStr [45; 55], UMap [(UStr [97], USeq [UNum (NU W8 0); UNum (NU W8 255)])]);
    (UStr [34; 195; 169], USeq [UStr [226; 130; 172]; UUnit; UNum (NU W16 300)])]); [|now subst].
  vm_compute in D. congruence.
Qed.
Example C79_key_is_error : json_encode_value (UMap [(UBool true, UUnit)]) = Err.
Proof. reflexivity. Qed.
