(** Properties C22-C26 and C44-C48: the JSON format. Specifications used: [JsonSpec.v] (the
    grammar [text] of RFC 8259, the meaning [means] of a document for a type) and
    [has_type] and [wf] of [Types.v].

    [oc] says whether arithmetic overflow checks are compiled in (debug builds).
    [ends rest]: the text that follows a number does not continue it. Floating point numbers are not
    accepted after whitespace (C74): hence [is_float t = true -> w = []], and for types with floating point
    numbers inside ([has_float]) text without whitespace after colons, [gtext true]. [text] is [gtext false], all
    texts. *)
From Coq Require Import Permutation.
From Verif Require Import Base Options Int Utf8 Types Json JsonSpec BaseFacts Utf8Facts
  TypesFacts IntFacts JsonFacts JsonText JsonDec JsonEnc JsonSafe JsonExt JsonMore JsonExact JsonFinite PropsInt PropsStorage.
Local Open Scope N_scope.

(** The type and the values used by the examples. *)
Definition ex_jty : ty :=
  TStruct TStr
    [(ex_key [110] None, TStr);
     (ex_key [108] (Some (VList [])), TVec (TI W32));
     (ex_key [109] None, TMap (TI W8) (TOpt TUsize));
     (ex_key [101] None, TEnum false (TU W8)
        [(VN 0, TUnit); (VN 7, TTup [TBool; TArray 2 (TU W16)])])].
Definition ex_jval : val :=
  VList [VBytes [195; 169; 10]; VList [];
         VMap [(VZ (-3), VSome (VN 300)); (VZ 4, VNone)];
         VVar 1 (VList [VBool true; VList [VN 1; VN 65535]])].

Lemma ex_jwf : wf ex_plat ex_jty.
Proof.
  cbn [ex_jty wf allP map fold_right snd fst]. repeat split; try reflexivity.
  - intros ft d [<-|[<-|[<-|[<-|[]]]]]; cbn; intros E; inversion E; reflexivity.
  - intros ft v [<-|[<-|[<-|[<-|[]]]]]; cbn; try discriminate.
    destruct v as [| | | | | | |[|]| |]; try discriminate. reflexivity.
Qed.

(** * C22 *)

(** A string is written as a quoted body in which there is no control character, a quote
    only after a backslash, and whose characters are those of the string. *)
Theorem C22_json_string_text :
  forall p cs,
    Forall (fun c => char_valid c = true) cs ->
    exists inner,
      json_encode p TStr (VBytes (str_bytes cs)) = Ok (34 :: inner ++ [34]) /\
      body cs inner /\
      Forall (fun b => 32 <= b) inner /\
      (forall a b, inner = a ++ 34 :: b -> exists a', a = a' ++ [92]).
Proof.
  intros p cs H. exists (flat_map escape_byte (str_bytes cs)).
  pose proof (escape_body cs H) as B. split; [reflexivity|]. split; [exact B|].
  split; [exact (body_plain_bytes _ _ B)|]. exact (body_quotes _ _ B).
Qed.
Print Assumptions C22_json_string_text.

(** The decoder returns the characters of any quoted body, however they are escaped. *)
Theorem C22_json_string_decode :
  forall p oc cs inner w rest,
    space w -> body cs inner ->
    json_decode p oc TStr (w ++ (34 :: inner ++ [34]) ++ rest) = Ok (VBytes (str_bytes cs), rest).
Proof.
  intros p oc cs s w rest Hw Hb. unfold json_decode. cbn [jdec].
  rewrite parse_string_text with (cs := cs); auto.
Qed.
Print Assumptions C22_json_string_decode.

(** A string is encoded into text that decodes to the same string. *)
Theorem C22_json_string_roundtrip :
  forall p oc s bs w rest,
    bytes_ok s = true -> utf8_valid s = true -> space w -> json_encode p TStr (VBytes s) = Ok bs ->
    json_decode p oc TStr (w ++ bs ++ rest) = Ok (VBytes s, rest).
Proof.
  intros p oc s bs w rest Ho Hs Hw E. destruct (utf8_str s Ho Hs) as (cs & Hc & ->).
  destruct (C22_json_string_text p cs Hc) as (inner & E' & B & _).
  rewrite E in E'. injection E' as ->. now apply C22_json_string_decode.
Qed.
Print Assumptions C22_json_string_roundtrip.

(** What is accepted as a string is a JSON string and nothing else: in particular no control
    character that is not escaped. *)
Theorem C22_json_string_exact :
  forall p oc bs v rest, bytes_ok bs = true ->
    json_decode p oc TStr bs = Ok (v, rest) <->
    exists w cs inner, space w /\ body cs inner /\ bs = w ++ (34 :: inner ++ [34]) ++ rest /\
      v = VBytes (str_bytes cs).
Proof.
  intros p oc bs v rest BO. split.
  - unfold json_decode. cbn [jdec]. intros H. apply bind_ok in H as ([s r] & P & H). injection H as <- <-.
    apply parse_string_inv in P as (w & cs & inner & S & B & -> & ->); auto.
    exists w, cs, inner. auto.
  - intros (w & cs & inner & S & B & -> & ->). now apply C22_json_string_decode.
Qed.
Print Assumptions C22_json_string_exact.

(** Bytes that are not UTF-8 are never accepted. *)
Theorem C22_json_string_valid :
  forall p oc bs v rest, lenN bs < 2 ^ usize_bits p ->
    json_decode p oc TStr bs = Ok (v, rest) ->
    exists s, v = VBytes s /\ utf8_valid s = true.
Proof.
  intros p oc bs v rest L E.
  pose proof (jdec_typed p oc TStr I false ltac:(discriminate) bs L) as T.
  unfold json_decode in E. rewrite E in T. destruct T as [T _]. cbn [fst] in T.
  cbn [has_type] in T. destruct v as [| | | |s| | | | |]; try discriminate. exists s. split; [reflexivity|].
  apply andb_prop in T. destruct T as [T _]. now apply andb_prop in T.
Qed.
Print Assumptions C22_json_string_valid.

Example C22_nonvacuous :
  json_encode ex_plat TStr (VBytes [34; 7; 10; 195; 169; 92; 240; 159; 152; 128])
  = Ok [34; 92; 34; 92; 117; 48; 48; 48; 55; 92; 110; 195; 169; 92; 92; 240; 159; 152; 128; 34] /\
  json_decode ex_plat true TStr
    [32; 34; 92; 117; 100; 56; 51; 100; 92; 117; 100; 101; 48; 48; 92; 47; 34; 9]
  = Ok (VBytes [240; 159; 152; 128; 47], [9]) /\
  json_decode ex_plat true TStr [34; 10; 34] = Err /\
  json_decode ex_plat true TStr [34; 92; 117; 100; 56; 51; 100; 34] = Err /\
  json_decode ex_plat true TStr [34; 195; 34] = Err.
Proof. vm_compute. auto 6. Qed.

(** * C23 *)

(** Decimal text of an integer in range decodes to the integer. *)
Theorem C23_json_unsigned_text :
  forall p oc w n sp s rest,
    space sp -> int_text n s -> ends rest = true -> n < 2 ^ bits w ->
    json_decode p oc (TU w) (sp ++ s ++ rest) = Ok (VN n, rest).
Proof.
  intros p oc w n sp s rest Hs Hn Hr Hb. unfold json_decode. cbn [jdec].
  now rewrite (parse_unsigned_ok oc (bits w) sp n s rest Hs Hn Hr Hb).
Qed.
Print Assumptions C23_json_unsigned_text.

Theorem C23_json_signed_text :
  forall p oc w neg n sp s rest,
    space sp -> int_text n s -> ends rest = true -> in_sb (bits w) (z_of neg n) = true ->
    json_decode p oc (TI w) (sp ++ (sign neg ++ s) ++ rest) = Ok (VZ (z_of neg n), rest).
Proof.
  intros p oc w neg n sp s rest Hs Hn Hr Hb.
  apply (jdec_ok p oc (TI w) I false (JInt neg n)); auto; try discriminate; [|now constructor].
  exists neg, n. auto.
Qed.
Print Assumptions C23_json_signed_text.

(** Integers are written in decimal and decode to themselves. *)
Theorem C23_json_unsigned_roundtrip :
  forall p oc w n sp rest,
    space sp -> ends rest = true -> n < 2 ^ bits w ->
    exists s, json_encode p (TU w) (VN n) = Ok s /\ int_text n s /\
      json_decode p oc (TU w) (sp ++ s ++ rest) = Ok (VN n, rest).
Proof.
  intros p oc w n sp rest Hs Hr Hb. exists (itoa n). split; [reflexivity|].
  pose proof (itoa_text n) as T. split; [exact T|]. now apply C23_json_unsigned_text.
Qed.
Print Assumptions C23_json_unsigned_roundtrip.

Theorem C23_json_signed_roundtrip :
  forall p oc w z sp rest,
    space sp -> ends rest = true -> in_sb (bits w) z = true ->
    exists neg n s, json_encode p (TI w) (VZ z) = Ok (sign neg ++ s) /\ int_text n s /\ z = z_of neg n /\
      json_decode p oc (TI w) (sp ++ (sign neg ++ s) ++ rest) = Ok (VZ z, rest).
Proof.
  intros p oc w z sp rest Hs Hr Hb.
  destruct (jenc_ok p (TI w) eq_refl I (VZ z) Hb eq_refl) as (j & bs & E & T & (neg & n & -> & Hi & Ez) & _).
  injection Ez as ->.
  assert (X : exists s, bs = sign neg ++ s /\ int_text n s) by (inversion T; subst; eauto).
  destruct X as (s & -> & Hn). exists neg, n, s. split; [exact E|]. split; [exact Hn|]. split; [reflexivity|].
  now apply C23_json_signed_text.
Qed.
Print Assumptions C23_json_signed_roundtrip.

(** With overflow checks, an integer that is accepted is the integer that is written, all of its
    digits are consumed, and it is in range. *)
Theorem C23_json_unsigned_exact :
  forall p w bs v rest,
    json_decode p true (TU w) bs = Ok (v, rest) ->
    exists sp n s, bs = sp ++ s ++ rest /\ space sp /\ int_text n s /\ v = VN n /\ n < 2 ^ bits w /\
      (n = 0 \/ rest = [] \/ exists b r, rest = b :: r /\ ~ digit b).
Proof.
  intros p w bs v rest E. unfold json_decode in E. cbn [jdec] in E. unfold parse_unsigned in E.
  apply bind_ok in E. destruct E as ([n r] & E & E'). injection E' as <- <-.
  pose proof (bits_ge w) as B.
  destruct (unsigned_base_mod true (bits w) (skip_ws bs) n r ltac:(lia) E) as (m & s & E1 & Hm & Hmax & Hn & Ht).
  specialize (Ht eq_refl). destruct (skip_ws_split bs) as (sp & Hs & Eb).
  assert (Hlt : n < 2 ^ bits w) by (rewrite Hn; apply N.mod_lt; apply N.pow_nonzero; lia).
  clear Hn. subst n. exists sp, m, s. rewrite <- E1. repeat split; try assumption; apply Hm.
Qed.
Print Assumptions C23_json_unsigned_exact.

(** Without overflow checks it is that integer modulo the width. *)
Theorem C23_json_unsigned_modulo :
  forall p oc w bs v rest,
    json_decode p oc (TU w) bs = Ok (v, rest) ->
    exists sp n s, bs = sp ++ s ++ rest /\ space sp /\ int_text n s /\ v = VN (n mod 2 ^ bits w).
Proof.
  intros p oc w bs v rest E. unfold json_decode in E. cbn [jdec] in E. unfold parse_unsigned in E.
  apply bind_ok in E. destruct E as ([n r] & E & E'). injection E' as <- <-.
  pose proof (bits_ge w) as B.
  destruct (unsigned_base_mod oc (bits w) (skip_ws bs) n r ltac:(lia) E) as (m & s & E1 & Hm & _ & Hn & _).
  destruct (skip_ws_split bs) as (sp & Hs & Eb).
  exists sp, m, s. rewrite <- E1. subst n. repeat split; try assumption; apply Hm.
Qed.
Print Assumptions C23_json_unsigned_modulo.

Theorem C23_json_signed_exact :
  forall p w bs v rest,
    json_decode p true (TI w) bs = Ok (v, rest) ->
    exists sp neg n s, bs = sp ++ (sign neg ++ s) ++ rest /\ space sp /\ int_text n s /\
      v = VZ (z_of neg n) /\ in_sb (bits w) (z_of neg n) = true.
Proof.
  intros p w bs v rest E. unfold json_decode in E. cbn [jdec] in E.
  apply bind_ok in E. destruct E as ([z r] & E & E'). injection E' as <- <-.
  pose proof (bits_ge w) as B. rewrite parse_signed_eq in E.
  destruct (skip_ws_split bs) as (sp & Hs & Eb).
  destruct (skip_ws bs) as [|b r0]; [discriminate|].
  pose proof (pow_half (bits w) ltac:(lia)) as P.
  destruct (N.eqb_spec b 45) as [->|_]; apply bind_ok in E; destruct E as ([n r1] & E1 & E2);
    apply bind_ok in E2; destruct E2 as (z' & E2 & E3); injection E3 as -> ->;
    destruct (unsigned_base_mod true (bits w) _ n r ltac:(lia) E1) as (m & s & E4 & Hm & _ & _ & Ht);
    specialize (Ht eq_refl); subst n.
  - unfold negate in E2. destruct (N.ltb_spec (2 ^ (bits w - 1)) m) as [|H]; [discriminate|].
    injection E2 as <-. exists sp, true, m, s. rewrite Eb, E4. repeat split; try assumption; try apply Hm.
    apply in_sb_iff. cbn [z_of]. lia.
  - unfold signed in E2. destruct (N.ltb_spec (2 ^ (bits w - 1) - 1) m) as [|H]; [discriminate|].
    injection E2 as <-. exists sp, false, m, s. rewrite Eb, E4. repeat split; try assumption; try apply Hm.
    apply in_sb_iff. cbn [z_of]. lia.
Qed.
Print Assumptions C23_json_signed_exact.

(** Text that does not start with a number is an error. *)
Theorem C23_json_not_a_number :
  forall p oc w bs,
    (forall sp n s rest, space sp -> int_text n s -> bs <> sp ++ s ++ rest) ->
    json_decode p oc (TU w) bs = Err.
Proof.
  intros p oc w bs H. unfold json_decode. cbn [jdec]. unfold parse_unsigned.
  destruct (skip_ws_split bs) as (sp & Hs & Eb).
  destruct (skip_ws bs) as [|b r]; [reflexivity|]. cbn [unsigned_base].
  assert (G : forall n, int_text n [b] -> False).
  { intros n Hn. exact (H sp n [b] r Hs Hn Eb). }
  destruct (N.eqb_spec b 48) as [->|H0].
  - exfalso. apply (G 0). repeat split; [discriminate|repeat constructor; unfold digit; lia].
  - unfold is_digit_nonzero, between. destruct (N.leb_spec 49 b) as [A|A]; cbn [andb]; [|reflexivity].
    destruct (N.leb_spec b 57) as [C|C]; [|reflexivity].
    exfalso. apply (G (b - 48)). repeat split; [discriminate|repeat constructor; unfold digit; lia|].
    cbn. intros ->. lia.
Qed.
Print Assumptions C23_json_not_a_number.

(** Out of range: when it is the last digit that takes the number out of range, debug builds panic and
    release builds return the wrong number. *)
Theorem C23_json_overflow :
  forall p oc w n sp s rest,
    space sp -> int_text n s -> ends rest = true -> 2 ^ bits w <= n -> 10 * (n / 10) < 2 ^ bits w ->
    json_decode p oc (TU w) (sp ++ s ++ rest)
    = if oc then Panic else Ok (VN (n - 2 ^ bits w), rest).
Proof.
  intros p oc w n sp s rest Hs Hn Hr H1 H2. unfold json_decode. cbn [jdec]. unfold parse_unsigned.
  rewrite (skip_ws_space sp (s ++ rest) Hs), (int_head_ws n s rest Hn).
  pose proof (bits_ge w) as B.
  rewrite (unsigned_base_wrap oc (bits w) n s rest ltac:(lia) Hn Hr H1 H2). now destruct oc.
Qed.
Print Assumptions C23_json_overflow.

(** So out-of-range numbers are not always rejected: "256" as a [u8]. *)
Theorem C23_json_out_of_range_refuted :
  exists w n s, int_text n s /\ 2 ^ bits w <= n /\ forall p,
    json_decode p true (TU w) s = Panic /\
    json_decode p false (TU w) s = Ok (VN 0, []).
Proof.
  exists W8, 256, [50; 53; 54]. split; [|split; [vm_compute; discriminate|intros p; vm_compute; auto]].
  repeat split; try discriminate. repeat constructor; unfold digit; lia.
Qed.
Print Assumptions C23_json_out_of_range_refuted.

(** With overflow checks an out-of-range number is never accepted. *)
Theorem C23_json_out_of_range_partial :
  forall p w n sp s rest x,
    space sp -> int_text n s -> ends rest = true -> 2 ^ bits w <= n ->
    json_decode p true (TU w) (sp ++ s ++ rest) <> Ok x.
Proof.
  intros p w n sp s rest [v r] Hs Hn Hr Hb E.
  unfold json_decode in E. cbn [jdec] in E. unfold parse_unsigned in E.
  rewrite (skip_ws_space sp (s ++ rest) Hs), (int_head_ws n s rest Hn) in E.
  apply bind_ok in E. destruct E as (y & E & _).
  destruct Hn as (H1 & H2 & H3 & H4). destruct s as [|b s]; [congruence|].
  cbn [app unsigned_base] in E. pose proof (bits_ge w) as B.
  assert (P : 2 ^ 4 <= 2 ^ bits w) by (apply N.pow_le_mono_r; lia).
  inversion H2 as [|? ? Hb2 Hs2]; subst. unfold digit in Hb2.
  destruct (N.eqb_spec b 48) as [->|H0].
  - specialize (H3 eq_refl). injection H3 as ->. change (value [48]) with 0 in Hb.
    change (2 ^ 4) with 16 in P. lia.
  - destruct (is_digit_nonzero b); [|discriminate].
    revert E. apply digits_big; [assumption|change (2 ^ 4) with 16 in P; lia|].
    unfold value in Hb. cbn [fold_left] in Hb. exact Hb.
Qed.
Print Assumptions C23_json_out_of_range_partial.

Example C23_nonvacuous :
  json_encode ex_plat (TI W128) (VZ (-170141183460469231731687303715884105728))
  = Ok (45 :: itoa 170141183460469231731687303715884105728) /\
  json_decode ex_plat true (TI W128) (45 :: itoa 170141183460469231731687303715884105728)
  = Ok (VZ (-170141183460469231731687303715884105728), []) /\
  json_decode ex_plat true (TU W16) [32; 54; 53; 53; 51; 53; 44] = Ok (VN 65535, [44]) /\
  json_decode ex_plat true (TU W16) [54; 53; 53; 52; 48; 48] = Err /\
  json_decode ex_plat true (TU W16) [54; 53; 53; 51; 54] = Panic /\
  json_decode ex_plat false (TU W16) [54; 53; 53; 51; 57] = Ok (VN 3, []) /\
  json_decode ex_plat true (TI W8) [45; 49; 50; 57] = Err /\
  json_decode ex_plat true (TU W8) [120] = Err.
Proof. vm_compute. auto 9. Qed.

(** * C24 *)

(** Every value of a representable type is encoded, and decodes back from its text, preceded by any whitespace
    and followed by anything that does not continue a number. *)
Theorem C24_json_roundtrip :
  forall p oc t v,
    jsonable t = true -> wf p t -> has_type p t v = true -> finite t v = true ->
    exists bs, json_encode p t v = Ok bs /\
      forall w rest, space w -> (is_float t = true -> w = []) -> ends rest = true ->
        json_decode p oc t (w ++ bs ++ rest) = Ok (v, rest).
Proof.
  intros p oc t v Hj Hw Hv HF. destruct (jenc_ok p t Hj Hw v Hv HF) as (j & bs & E & T & M & _).
  exists bs. split; [exact E|]. intros w rest Hs Hi Hr. exact (jdec_ok p oc t Hw true j v w bs rest (fun _ => eq_refl) Hi M Hs T Hr).
Qed.
Print Assumptions C24_json_roundtrip.

(** Without floating point numbers the two hypotheses about them hold. *)
Theorem C24_json_roundtrip_no_float :
  forall p oc t v,
    jsonable t = true -> wf p t -> has_type p t v = true -> has_float t = false ->
    exists bs, json_encode p t v = Ok bs /\
      forall w rest, space w -> ends rest = true ->
        json_decode p oc t (w ++ bs ++ rest) = Ok (v, rest).
Proof.
  intros p oc t v Hj Hw Hv HF. destruct (C24_json_roundtrip p oc t v Hj Hw Hv (no_float_finite p t Hw v HF Hv)) as (bs & E & D).
  exists bs. split; [exact E|]. intros w rest Hs Hr. apply D; auto. intros Hi. apply float_has in Hi. congruence.
Qed.
Print Assumptions C24_json_roundtrip_no_float.

(** Whatever the input, what is decoded is a value of the type, and at least one byte was consumed. *)
Theorem C24_json_typed :
  forall p oc t bs v rest,
    wf p t -> lenN bs < 2 ^ usize_bits p -> json_decode p oc t bs = Ok (v, rest) ->
    has_type p t v = true /\ exists pre, pre <> [] /\ bs = pre ++ rest.
Proof.
  intros p oc t bs v rest Hw L E.
  pose proof (jdec_typed p oc t Hw false ltac:(discriminate) bs L) as T.
  unfold json_decode in E. rewrite E in T. exact T.
Qed.
Print Assumptions C24_json_typed.

(** Decoding arbitrary bytes does not panic, unless with overflow checks
    (C23_json_out_of_range_refuted) or with fixed-size byte arrays (C26_json_array_panics). *)
Theorem C24_json_no_panic_partial :
  forall p t bs,
    wf p t -> no_arr t = true -> lenN bs < 2 ^ usize_bits p -> json_decode p false t bs <> Panic.
Proof.
  intros p t bs Hw Hn L E.
  pose proof (jdec_typed p false t Hw true ltac:(auto) bs L) as T.
  unfold json_decode in E. rewrite E in T. discriminate.
Qed.
Print Assumptions C24_json_no_panic_partial.

(** Missing: infinities and NaN are written as words that are accepted only where the input ends. *)
Theorem C24_json_infinite_refuted :
  exists t v, forall p oc, wf p t /\ has_type p t v = true /\ jsonable t = true /\
    exists bs, json_encode p t v = Ok bs /\ json_decode p oc t bs = Err.
Proof.
  exists (TVec TF64), (VList [VN 9218868437227405312]). intros p oc. split; [exact I|].
  split; [cbn; unfold len_ok, lenN; destruct p as [[|] [| |]]; reflexivity|]. split; [reflexivity|].
  exists [91; 105; 110; 102; 93]. split; vm_compute; reflexivity.
Qed.
Print Assumptions C24_json_infinite_refuted.

(** Missing: an optional value whose content is itself written as [null] does not survive. *)
Theorem C24_json_nested_option_refuted :
  exists t v, forall p, wf p t /\ has_type p t v = true /\
    exists bs v', json_encode p t v = Ok bs /\ json_decode p true t bs = Ok (v', []) /\ v' <> v.
Proof.
  exists (TOpt (TOpt TBool)), (VSome VNone). intros p. split; [exact I|]. split; [reflexivity|].
  exists lit_null, VNone. repeat split. discriminate.
Qed.
Print Assumptions C24_json_nested_option_refuted.

(** [struct { a: f64, l: Vec<f32>, o: Option<f64> }] with 0, [-2.5, 0.1] and -0 (other numbers of
    64 bits take coqchk minutes):
    {"a":0.0,"l":[-2.5,0.1],"o":-0.0} *)
Definition ex_fty : ty := TStruct TStr [(ex_key [97] None, TF64); (ex_key [108] None, TVec TF32); (ex_key [111] None, TOpt TF64)].
Definition ex_fval : val := VList [VN 0; VList [VN 0xC0200000; VN 0x3DCCCCCD]; VSome (VN 0x8000000000000000)].
Definition ex_ftext : bytes :=
  [123; 34;97;34;58; 48;46;48; 44; 34;108;34;58; 91; 45;50;46;53; 44; 48;46;49; 93; 44; 34;111;34;58; 45;48;46;48; 125].
Example C24_float_nonvacuous :
  jsonable ex_fty = true /\ wf ex_plat ex_fty /\ has_type ex_plat ex_fty ex_fval = true /\ finite ex_fty ex_fval = true /\
  json_encode ex_plat ex_fty ex_fval = Ok ex_ftext /\
  json_decode ex_plat true ex_fty (32 :: ex_ftext ++ [44]) = Ok (ex_fval, [44]).
Proof.
  split; [reflexivity|]. split.
  { cbn [ex_fty wf allP map fold_right snd fst]. repeat split; try reflexivity.
    - intros ft d [<-|[<-|[<-|[]]]]; cbn; intros E; inversion E; reflexivity.
    - intros ft v [<-|[<-|[<-|[]]]]; cbn; try discriminate; destruct v; discriminate. }
  split; [vm_compute; reflexivity|]. split; [vm_compute; reflexivity|]. split; vm_compute; reflexivity.
Qed.

Example C24_nonvacuous :
  jsonable ex_jty = true /\ has_type ex_plat ex_jty ex_jval = true /\
  json_encode ex_plat ex_jty ex_jval
  = Ok [123; 34;110;34;58; 34;195;169;92;110;34; 44;
        34;109;34;58; 123; 34;45;51;34;58;51;48;48; 44; 34;52;34;58;110;117;108;108; 125; 44;
        34;101;34;58; 123; 34;55;34;58; 91; 116;114;117;101; 44; 91;49;44;54;53;53;51;53;93; 93; 125; 125].
Proof. vm_compute. auto. Qed.

(** * C25 *)

(** Skipping consumes exactly one value, whatever its text, and what the encoder emits is such text. *)
Theorem C25_json_skip :
  forall p oc j w s rest,
    space w -> text j s -> ends rest = true ->
    json_decode p oc TUnit (w ++ s ++ rest) = Ok (VUnit, rest).
Proof.
  intros p oc j w s rest Hw Ht Hr. unfold json_decode. cbn [jdec].
  now rewrite (skip_value_text (tight := false) w j s rest Hw Ht Hr).
Qed.
Print Assumptions C25_json_skip.

Theorem C25_json_skip_encoded :
  forall p oc t v bs w rest,
    jsonable t = true -> wf p t -> has_type p t v = true -> finite t v = true -> json_encode p t v = Ok bs ->
    space w -> ends rest = true ->
    json_decode p oc TUnit (w ++ bs ++ rest) = Ok (VUnit, rest).
Proof.
  intros p oc t v bs w rest Hj Hw Hv HF E Hs Hr.
  destruct (jenc_ok p t Hj Hw v Hv HF) as (j & bs' & E' & T & _ & _). apply loosen in T.
  unfold json_encode in E. rewrite E in E'. injection E' as <-.
  exact (C25_json_skip p oc j w bs rest Hs T Hr).
Qed.
Print Assumptions C25_json_skip_encoded.

Example C25_nonvacuous :
  json_decode ex_plat true TUnit
    [32; 123; 34;97;34; 32;58; 91;49;44;32;45;50;46;53;69;43;57;93; 44; 34;92;34;34;58;110;117;108;108; 125; 44; 49]
  = Ok (VUnit, [44; 49]).
Proof. reflexivity. Qed.

(** * C26 *)

(** A fixed-size byte array: the right number of elements is accepted, fewer are an error. *)
Theorem C26_json_array_partial :
  forall p oc n l bs w s rest,
    space w -> text (JArr l) s -> Forall2 (fun j b => j = JInt false b /\ b < 256) l bs ->
    ends rest = true ->
    (lenN bs = n -> json_decode p oc (TArr n) (w ++ s ++ rest) = Ok (VBytes bs, rest)) /\
    (lenN bs < n -> json_decode p oc (TArr n) (w ++ s ++ rest) = Err).
Proof.
  intros p oc n l bs w s rest Hw Ht Hl Hr.
  assert (G : lenN bs <= n -> json_decode p oc (TArr n) (w ++ s ++ rest) =
                              if lenN bs =? n then Ok (VBytes bs, rest) else Err).
  { intros H. unfold json_decode. cbn [jdec].
    rewrite (dec_sequence_text (tight := false) (arr_step oc n) w l s [] bs rest Hw Ht (arr_runs oc n l bs Hl H)). reflexivity. }
  split; intros H; rewrite G by lia.
  - subst n. now rewrite N.eqb_refl.
  - destruct (N.eqb_spec (lenN bs) n); [lia|reflexivity].
Qed.
Print Assumptions C26_json_array_partial.

(** More elements panic: always, not in some corner case. *)
Theorem C26_json_array_panics :
  forall p oc n l bs w s rest,
    space w -> text (JArr l) s -> Forall2 (fun j b => j = JInt false b /\ b < 256) l bs ->
    n < lenN bs ->
    json_decode p oc (TArr n) (w ++ s ++ rest) = Panic.
Proof.
  intros p oc n l bs w s rest Hw Ht Hl H.
  assert (Hn : (N.to_nat n < length bs)%nat) by (unfold lenN in H; lia).
  destruct (nth_error bs (N.to_nat n)) as [b|] eqn:Eb; [|apply nth_error_None in Eb; lia].
  destruct (nth_error_split bs (N.to_nat n) Eb) as (bs1 & bs2 & -> & Len).
  apply Forall2_app_inv_r in Hl. destruct Hl as (l1 & l2' & Hl1 & Hl2 & ->).
  inversion Hl2 as [|j ? l2 ? [-> Hb] Hl3]; subst.
  unfold json_decode. cbn [jdec].
  rewrite (dec_sequence_stop (tight := false) (arr_step oc n) Panic w l1 (JInt false b) l2 s [] bs1 rest); try assumption; try discriminate.
  - reflexivity.
  - apply arr_runs; [assumption|unfold lenN; lia].
  - intros bb rest0 Hbb Hr0. unfold arr_step.
    assert (L : lenN bs1 = n) by (unfold lenN; lia). rewrite L, N.leb_refl, N.ltb_irrefl.
    assert (X : int_text b bb) by (inversion Hbb; subst; assumption). rename bb into s0. rename X into Hn0.
    pose proof (parse_unsigned_ok oc 8 [] b s0 rest0 space_nil Hn0 Hr0 Hb) as K. cbn [app] in K.
    rewrite K. reflexivity.
Qed.
Print Assumptions C26_json_array_panics.

Theorem C26_json_array_refuted :
  exists n s, text (JArr [JInt false 1; JInt false 2]) s /\ n = 1 /\
    forall p oc, json_decode p oc (TArr n) s = Panic.
Proof.
  exists 1, [91; 49; 44; 50; 93].
  assert (D1 : forall b, digit b -> b <> 48 -> int_text (b - 48) [b]).
  { intros b Hb H0. repeat split; [discriminate|repeat constructor; apply Hb|intros E; cbn in E; congruence]. }
  split; [|split; [reflexivity|intros p [|]; reflexivity]].
  apply (text_arr _ [49; 44; 50]).
  apply (elems_more [] (JInt false 1) [49] [] [JInt false 2] [50]); try constructor; try discriminate.
  - apply (text_int false 1 [49]). apply (D1 49); [unfold digit; lia|discriminate].
  - apply (elems_one [] (JInt false 2) [50] []); [constructor| |constructor].
    apply (text_int false 2 [50]). apply (D1 50); [unfold digit; lia|discriminate].
Qed.
Print Assumptions C26_json_array_refuted.

(** A fixed-size array of anything else: exactly the right number of elements, otherwise an error. *)
Theorem C26_json_array_of :
  forall p oc tight n t l vs w s rest,
    wf p (TArray n t) -> space w -> gtext tight (JArr l) s -> Forall2 (means p t) l vs -> ends rest = true ->
    (has_float t = true -> tight = true) ->
    json_decode p oc (TArray n t) (w ++ s ++ rest)
    = if lenN vs =? n then Ok (VList vs, rest) else Err.
Proof.
  intros p oc tight n t l vs w s rest Hwf Hw Ht Hl Hr Hf.
  assert (Hwt : wf p t) by apply Hwf. pose proof (jdec_ok p oc t Hwt) as D.
  unfold json_decode. cbn [jdec].
  set (step := fun (s : list val) (bs : bytes) => let* (v, r) := jdec p oc t bs in
                                   if lenN s <? n then Ok (s ++ [v], r) else Err).
  assert (R : forall l vs, Forall2 (means p t) l vs -> lenN vs <= n -> runs (tight := tight) step [] l vs).
  { intros l0 vs0 H0 Hle. rewrite <- (map_id vs0) at 1.
    apply (runs_bounded (means p t) step (fun x => x) n) with (acc := []);
      [|assumption|change (lenN (@nil val)) with 0; lia].
    intros j x st b r Hlt M T Hr0. unfold step. rewrite (decodes_here p t _ tight j x b r D Hf M T Hr0). cbn [bind].
    destruct (N.ltb_spec (lenN st) n); [reflexivity|lia]. }
  destruct (N.leb_spec (lenN vs) n) as [H|H].
  - rewrite (dec_sequence_text (tight := tight) step w l s [] vs rest Hw Ht (R l vs Hl H)). reflexivity.
  - destruct (N.eqb_spec (lenN vs) n) as [|_]; [lia|].
    assert (Hn : (N.to_nat n < length vs)%nat) by (unfold lenN in H; lia).
    destruct (nth_error vs (N.to_nat n)) as [b|] eqn:Eb; [|apply nth_error_None in Eb; lia].
    destruct (nth_error_split vs (N.to_nat n) Eb) as (bs1 & bs2 & -> & Len).
    apply Forall2_app_inv_r in Hl. destruct Hl as (l1 & l2' & Hl1 & Hl2 & ->).
    inversion Hl2 as [|j ? l2 ? M Hl3]; subst.
    rewrite (dec_sequence_stop (tight := tight) step Err w l1 j l2 s [] bs1 rest); try assumption; try discriminate.
    + reflexivity.
    + apply R; [assumption|unfold lenN; lia].
    + intros bb rest0 Hbb Hr0. unfold step. rewrite (decodes_here p t _ tight j b bb rest0 D Hf M Hbb Hr0). cbn [bind].
      destruct (N.ltb_spec (lenN bs1) n); [unfold lenN in *; lia|reflexivity].
Qed.
Print Assumptions C26_json_array_of.

Example C26_nonvacuous :
  json_decode ex_plat true (TArr 2) [91; 49; 44; 50; 93] = Ok (VBytes [1; 2], []) /\
  json_decode ex_plat true (TArr 3) [91; 49; 44; 50; 93] = Err /\
  json_decode ex_plat true (TArray 1 TBool) [91; 116; 114; 117; 101; 93; 32] = Ok (VList [VBool true], [32]) /\
  json_decode ex_plat true (TArray 0 TBool) [91; 116; 114; 117; 101; 93] = Err.
Proof. vm_compute. auto. Qed.

(** * C44 *)

(** The text is valid UTF-8: [json::to_string] builds a [String] from it without a check. *)
Theorem C44_json_utf8 :
  forall p t v bs,
    wf p t -> has_type p t v = true -> json_encode p t v = Ok bs -> utf8_valid bs = true.
Proof. exact (fun p t v bs Hw Hv He => jenc_utf8 p t Hw v bs Hv He). Qed.
Print Assumptions C44_json_utf8.

Example C44_nonvacuous :
  exists bs, json_encode ex_plat ex_jty ex_jval = Ok bs /\ wf ex_plat ex_jty /\
    has_type ex_plat ex_jty ex_jval = true /\ (60 < length bs)%nat.
Proof.
  eexists. split; [vm_compute; reflexivity|]. split; [exact ex_jwf|]. split; [reflexivity|]. cbn. lia.
Qed.

(** * C45 *)

(** The text is that of a JSON document that denotes the value. *)
Theorem C45_json_grammar :
  forall p t v,
    jsonable t = true -> wf p t -> has_type p t v = true -> finite t v = true ->
    exists bs j, json_encode p t v = Ok bs /\ text j bs /\ means p t j v.
Proof.
  intros p t v Hj Hw Hv HF. destruct (jenc_ok p t Hj Hw v Hv HF) as (j & bs & E & T & M & _). apply loosen in T.
  exists bs, j. auto.
Qed.
Print Assumptions C45_json_grammar.

(** Infinities and NaN are written as words that are not JSON. *)
Theorem C45_json_infinite_refuted :
  forall p, json_encode p TF64 (VN 9218868437227405312) = Ok [105; 110; 102] /\
    json_encode p TF64 (VN 18442240474082181120) = Ok [45; 105; 110; 102] /\
    json_encode p TF64 (VN 9221120237041090560) = Ok [78; 97; 78] /\
    forall j, ~ text j [105; 110; 102] /\ ~ text j [78; 97; 78].
Proof.
  intros p. split; [|split; [|split]]; try (vm_compute; reflexivity).
  intros j. split; intros T; apply text_head in T; destruct T as (b & r & E & _ & T); injection E as <- _; cbn in T;
    destruct j as [|[|]| |[|]| | |]; discriminate.
Qed.
Print Assumptions C45_json_infinite_refuted.

Example C45_nonvacuous :
  jsonable ex_jty = true /\ wf ex_plat ex_jty /\ has_type ex_plat ex_jty ex_jval = true.
Proof. split; [reflexivity|]. split; [exact ex_jwf|reflexivity]. Qed.

(** * C46 *)

(** The result depends on the document only, not on its text: whitespace, the escapes used in strings and what follows
    make no difference. *)
Theorem C46_json_denotation :
  forall p oc t tight j v w s rest,
    wf p t -> means p t j v -> space w -> gtext tight j s -> ends rest = true ->
    (has_float t = true -> tight = true) -> (is_float t = true -> w = []) ->
    json_decode p oc t (w ++ s ++ rest) = Ok (v, rest).
Proof. exact (fun p oc t tight j v w s rest Hw M Hs T Hr Hf Hi => jdec_ok p oc t Hw tight j v w s rest Hf Hi M Hs T Hr). Qed.
Print Assumptions C46_json_denotation.

(** The order of the members of a struct makes no difference, when their keys are different. *)
Theorem C46_json_member_order :
  forall p oc tight kt fs l l' v s' w rest,
    (has_float (TStruct kt fs) = true -> tight = true) -> wf p (TStruct kt fs) -> means p (TStruct kt fs) (JObj l) v ->
    (forall i i' m m' k, nth_error l i = Some m -> nth_error l i' = Some m' ->
       key_means p kt (fst m) k -> key_means p kt (fst m') k -> i = i') ->
    Permutation l l' -> space w -> gtext tight (JObj l') s' -> ends rest = true ->
    json_decode p oc (TStruct kt fs) (w ++ s' ++ rest) = Ok (v, rest).
Proof.
  intros p oc tight kt fs l l' v s' w rest HF Hwf M Hd Hp Hs T Hr.
  apply (jdec_ok p oc (TStruct kt fs) Hwf tight (JObj l')); try assumption; try discriminate.
  destruct M as (l0 & kvs & vs & E & -> & Hl & Hf). injection E as <-.
  pose proof (kvs_nodup p kt l kvs _ Hl Hd) as ND.
  destruct (Forall2_perm _ l l' Hp kvs Hl) as (kvs' & Hp' & Hl').
  exists l', kvs', vs. split; [reflexivity|]. split; [reflexivity|]. split; [exact Hl'|].
  clear -Hf ND Hp'. induction Hf; constructor; [|assumption].
  eapply field_value_perm; eassumption.
Qed.
Print Assumptions C46_json_member_order.

(** Floating point numbers are not accepted after whitespace, so the result depends on the whitespace: {"a": 1.5} is an
    error for a struct with a field [a] of type [f64]. *)
Theorem C46_json_float_space :
  forall p oc t c s, is_float t = true -> c = 32 \/ c = 9 \/ c = 10 \/ c = 13 -> json_decode p oc t (c :: s) = Err.
Proof. intros p oc t c s Hf Hc. apply jdec_float_space; [assumption|]. destruct Hc as [->|[->|[->| ->]]]; reflexivity. Qed.
Print Assumptions C46_json_float_space.

Theorem C46_json_float_space_refuted :
  exists t j v s1 s2, text j s1 /\ text j s2 /\ wf ex_plat t /\ means ex_plat t j v /\
    forall oc, json_decode ex_plat oc t s1 = Ok (v, []) /\ json_decode ex_plat oc t s2 = Err.
Proof.
  set (t := TStruct TStr [(ex_key [97] None, TF64)]).
  exists t, (JObj [([97], JNum false [49] [53] 0)]), (VList [VN 0x3FF8000000000000]),
    [123; 34; 97; 34; 58; 49; 46; 53; 125], [123; 34; 97; 34; 58; 32; 49; 46; 53; 125].
  assert (N1 : text (JNum false [49] [53] 0) [49; 46; 53]).
  { apply (text_num false [49] [53] 0%Z [46; 53] []); [| |left; auto|discriminate].
    - split; [discriminate|]. split; [repeat constructor; unfold digit; lia|]. split; [discriminate|reflexivity].
    - right. split; [repeat constructor; unfold digit; lia|]. split; [discriminate|reflexivity]. }
  assert (W : forall w, space w -> text (JObj [([97], JNum false [49] [53] 0)]) (123 :: ([] ++ (34 :: [97] ++ [34]) ++ [] ++ 58 :: w ++ [49; 46; 53] ++ []) ++ [125])).
  { intros w Hw. apply text_obj, members_one, member_intro; try apply space_nil; auto; [|discriminate].
    apply body_ascii. repeat constructor; lia. }
  split; [exact (W [] space_nil)|]. split; [apply (W [32]); repeat constructor; now left|].
  split. { cbn [t wf allP map fold_right snd fst]. repeat split; try reflexivity.
    - intros ft d [<-|[]]; cbn; intros E; inversion E; reflexivity.
    - intros ft v [<-|[]]; cbn; discriminate. }
  split; [|intros [|]; (split; [vm_compute; reflexivity|vm_compute; reflexivity])].
  exists [([97], JNum false [49] [53] 0)], [(VBytes [97], VN 0x3FF8000000000000)], [VN 0x3FF8000000000000].
  split; [reflexivity|]. split; [reflexivity|]. split.
  - constructor; [|constructor]. split; [reflexivity|]. intros R [E|[]]. injection E as <-.
    exists false, 0x3FF8000000000000. split; [reflexivity|]. right. exists [49], [53], 0%Z. split; [reflexivity|].
    split; [left; cbn; lia|]. split; [vm_compute; discriminate|]. split; intros _; vm_compute; auto.
  - constructor; [|constructor]. left. exists [], []. split; [reflexivity|]. intros [].
Qed.
Print Assumptions C46_json_float_space_refuted.

(** The decoder also accepts text that is not JSON: missing and repeated commas, numbers
    run together. *)
Theorem C46_json_grammar_refuted :
  forall p oc,
    json_decode p oc (TVec (TU W8)) [91; 49; 32; 50; 44; 44; 51; 44; 93] = Ok (VList [VN 1; VN 2; VN 3], []) /\
    json_decode p oc (TVec (TU W8)) [91; 48; 49; 50; 93] = Ok (VList [VN 0; VN 12], []) /\
    json_decode p oc (TMap (TU W8) TBool) [123; 34; 49; 50; 97; 34; 58; 116; 114; 117; 101; 125]
    = Ok (VMap [(VN 12, VBool true)], []).
Proof. intros p [|]; vm_compute; auto. Qed.
Print Assumptions C46_json_grammar_refuted.

Example C46_nonvacuous :
  (* { "b" : 2 , "\u0061":1} *)
  json_decode ex_plat true (TStruct TStr [(ex_key [97] None, TU W8); (ex_key [98] None, TU W8)])
    [123; 32; 34; 98; 34; 32; 58; 32; 50; 32; 44; 10; 34; 92; 117; 48; 48; 54; 49; 34; 58; 49; 125]
  = Ok (VList [VN 1; VN 2], []).
Proof. reflexivity. Qed.

(** * C47 *)

(** Members with unknown keys are ignored, wherever they are and whatever their value. *)
Theorem C47_json_unknown_member :
  forall p oc tight kt fs l1 l2 ks k j v s w rest,
    (has_float (TStruct kt fs) = true -> tight = true) -> wf p (TStruct kt fs) -> means p (TStruct kt fs) (JObj (l1 ++ l2)) v ->
    key_means p kt ks k -> (forall ft, In ft fs -> fname (fst ft) <> k) ->
    space w -> gtext tight (JObj (l1 ++ (ks, j) :: l2)) s -> ends rest = true ->
    json_decode p oc (TStruct kt fs) (w ++ s ++ rest) = Ok (v, rest).
Proof.
  intros p oc tight kt fs l1 l2 ks k j v s w rest HF Hwf M Hk Hn Hs T Hr.
  apply (jdec_ok p oc (TStruct kt fs) Hwf tight (JObj (l1 ++ (ks, j) :: l2))); try assumption; try discriminate.
  destruct M as (l0 & kvs & vs & E & -> & Hl & Hf). injection E as <-.
  apply Forall2_app_inv_l in Hl. destruct Hl as (k1 & k2 & Hl1 & Hl2 & ->).
  exists (l1 ++ (ks, j) :: l2), (k1 ++ (k, VUnit) :: k2), vs.
  split; [reflexivity|]. split; [reflexivity|]. split.
  - apply Forall2_app; [assumption|]. constructor; [|assumption]. cbn [fst snd]. split; [assumption|].
    intros R Hin. apply in_map_iff in Hin. destruct Hin as (ft & E & Hin). injection E as E _.
    now apply Hn in Hin.
  - clear -Hf Hn. revert Hn. induction Hf as [|ft x fs vs H _ IH]; intros Hn; constructor.
    + apply field_value_insert; [|assumption]. intros ->. apply (Hn ft); [now left|reflexivity].
    + apply IH. intros ft' Hin. apply Hn. now right.
Qed.
Print Assumptions C47_json_unknown_member.

(** A field that is absent takes its default value; without one it is an error. [l]: the members,
    [kvs]: their keys and values. *)
Theorem C47_json_missing_field :
  forall p oc tight kt fs1 f t fs2 l kvs vs1 vs2 s w rest,
    let fs := fs1 ++ (f, t) :: fs2 in
    (has_float (TStruct kt fs) = true -> tight = true) ->
    wf p (TStruct kt fs) -> space w -> gtext tight (JObj l) s -> ends rest = true ->
    Forall2 (fun m kv => key_means p kt (fst m) (fst kv) /\
       (forall ft, In ft fs -> fname (fst ft) = fst kv -> means p (snd ft) (snd m) (snd kv))) l kvs ->
    ~ In (fname f) (map fst kvs) ->
    Forall2 (fun ft x => field_value (fst ft) kvs x) fs1 vs1 ->
    Forall2 (fun ft x => field_value (fst ft) kvs x) fs2 vs2 ->
    json_decode p oc (TStruct kt fs) (w ++ s ++ rest)
    = match fdefault f with
      | Some d => Ok (VList (vs1 ++ d :: vs2), rest)
      | None => Err
      end.
Proof.
  intros p oc tight kt fs1 f t fs2 l kvs vs1 vs2 s w rest fs HF Hwf Hs T Hr Hl Hn H1 H2.
  assert (Hne : fs <> []) by (unfold fs; now destruct fs1).
  unfold json_decode. rewrite (struct_text p oc tight kt fs l kvs w s rest HF Hwf Hne Hs T Hl).
  destruct (fdefault f) as [d|] eqn:Ed.
  - rewrite (fill_values fs kvs (vs1 ++ d :: vs2)); [reflexivity|].
    apply Forall2_app; [assumption|]. constructor; [|assumption]. right. auto.
  - rewrite (fill_missing fs kvs f t); try assumption; [reflexivity|].
    apply in_or_app. right. now left.
Qed.
Print Assumptions C47_json_missing_field.

(** A variant that is not known is an error. *)
Theorem C47_json_unknown_variant :
  forall p oc sk kt vs ks j k s w rest,
    wf p (TEnum sk kt vs) -> space w -> text (JObj [(ks, j)]) s -> key_means p kt ks k ->
    (forall tv, In tv vs -> fst tv <> k) ->
    json_decode p oc (TEnum sk kt vs) (w ++ s ++ rest) = Err.
Proof.
  intros p oc sk kt vs ks j k s w rest Hwf Hs T Hk Hn.
  destruct Hwf as (Hk1 & _). inversion T as [| | | | | | |l0 b Hb]; subst.
  unfold json_decode. cbn [jdec app].
  rewrite (expect_at KOBrace 123 _ w) by (assumption || reflexivity). cbn [bind].
  inversion Hb as [|m b' Hm|m b' l' r Hm Hl Hne]; subst; [|congruence].
  inversion Hm as [w1 k' kb w2 w3 j2 b2 w4 Hw1 Hkb Hw2 Hw3 Hti Hb2 Hw4]; subst.
  rewrite <- !app_assoc. rewrite (jkdec_ok p oc kt Hk1 ks k w1 kb) by assumption. cbn [bind].
  destruct (find_name k (map fst vs)) as [i|] eqn:E; [|reflexivity].
  apply find_name_some in E. rewrite nth_error_map in E.
  destruct (nth_error vs i) as [tv|] eqn:En; [|discriminate]. cbn in E. injection E as E.
  apply nth_error_In in En. now apply Hn in En.
Qed.
Print Assumptions C47_json_unknown_variant.

Example C47_nonvacuous :
  let T := TStruct TStr [(ex_key [97] None, TU W8); (ex_key [98] (Some (VN 9)), TU W8)] in
  (* {"z":[{}],"a":1} *)
  json_decode ex_plat true T [123; 34; 122; 34; 58; 91; 123; 125; 93; 44; 34; 97; 34; 58; 49; 125]
  = Ok (VList [VN 1; VN 9], []) /\
  (* {"b":1} *)
  json_decode ex_plat true T [123; 34; 98; 34; 58; 49; 125] = Err /\
  (* {"3":1} *)
  json_decode ex_plat true (TEnum false (TU W8) [(VN 2, TU W8)]) [123; 34; 51; 34; 58; 49; 125] = Err.
Proof. vm_compute. auto. Qed.

(** * C48 *)

(** A document cut short is never accepted, when the type is one whose text ends with a delimiter or
    is a word. *)
Theorem C48_json_prefix_error :
  forall p oc t v bs pre suf,
    jsonable t = true -> wf p t -> has_type p t v = true -> finite t v = true -> delimited t = true ->
    json_encode p t v = Ok bs -> bs = pre ++ suf -> suf <> [] ->
    forall x, json_decode p oc t pre <> Ok x.
Proof.
  intros p oc t v bs pre suf Hj Hw Hv HF Hd E -> Hs.
  destruct (C24_json_roundtrip p oc t v Hj Hw Hv HF) as (bs' & E' & R). rewrite E in E'. injection E' as <-.
  specialize (R [] [] space_nil (fun _ => eq_refl) eq_refl). rewrite app_nil_r in R. cbn [app] in R.
  exact (jdec_prefix p oc t pre suf v Hd Hs R).
Qed.
Print Assumptions C48_json_prefix_error.

(** What such a type accepts does not depend on what follows. *)
Theorem C48_json_stable :
  forall p oc t bs more v rest,
    delimited t = true -> json_decode p oc t bs = Ok (v, rest) ->
    json_decode p oc t (bs ++ more) = Ok (v, rest ++ more).
Proof.
  intros p oc t bs more v rest Hd E. apply (jdec_ext p oc t bs more v rest E). rewrite Hd. discriminate.
Qed.
Print Assumptions C48_json_stable.

(** The others are numbers, where it does not hold. *)
Theorem C48_json_number_prefix_refuted :
  exists v bs pre suf, forall p oc, json_encode p (TU W8) v = Ok bs /\ bs = pre ++ suf /\ suf <> [] /\
    exists v', json_decode p oc (TU W8) pre = Ok (v', []) /\ v' <> v.
Proof.
  exists (VN 12), [49; 50], [49], [50]. intros p [|]; repeat split; try discriminate; exists (VN 1); split; try reflexivity; discriminate.
Qed.
Print Assumptions C48_json_number_prefix_refuted.

Example C48_nonvacuous :
  delimited ex_jty = true /\
  json_decode ex_plat true ex_jty [123; 34;110;34;58; 34;195;169;92;110;34; 44] = Err.
Proof. vm_compute. auto. Qed.
