(** Property C74: types used through serde ([musli::serde], [#[musli(with = musli::serde)]]).
    Specification used: [shape] (Serde.v), the Müsli type that the documentation calls compatible with
    a serde type, [has_type] and [wf] (Types.v), and the JSON grammar of JsonSpec.v. *)
From Verif Require Import Base Options Int Utf8 Types Storage Wire Desc Fmt FmtSpec Json JsonSpec Serde
  TypesFacts StorageFacts FmtFacts FmtStab WireFacts DescFacts JsonFacts JsonText JsonDec JsonEnc JsonSafe JsonFinite
  StorageSafe SerdeFacts SerdeJsonFacts PropsInt PropsStorage PropsWire PropsDesc PropsJson.
Local Open Scope N_scope.

(** [struct { n: String, o: Option<u16>, #[serde(skip_serializing_if = ...)] l: Vec<i32>, m: BTreeMap<i8, ()>, e: Vec<E> }],
    [enum E { A, B(u8), C(bool, u8), D { x: char } }]. *)
Definition ex_sf (s : bytes) : sfield := {| sname := s; sdefault := None; sskip := fun _ => false |}.
Definition ex_sty : sty :=
  SStruct
    [(ex_sf [110], SStr);
     (ex_sf [111], SOpt (SU W16));
     ({| sname := [108]; sdefault := Some (VList []); sskip := val_eqb (VList []) |}, SSeq (SI W32));
     (ex_sf [109], SMap (SI W8) SUnit);
     (ex_sf [101], SSeq (SEnum
        [([65], (Own, SUnit)); ([66], (Newtype, SU W8)); ([67], (Own, STup [SBool; SU W8]));
         ([68], (Own, SStruct [(ex_sf [120], SChar)]))]))].
Definition ex_sval : val :=
  VList [VBytes [195; 169]; VSome (VN 300); VList []; VMap [(VZ (-3), VUnit); (VZ 4, VUnit)];
         VList [VVar 0 VUnit; VVar 1 (VN 9); VVar 2 (VList [VBool true; VN 7]); VVar 3 (VList [VN 8364])]].

Lemma ex_swf : wf ex_plat (shape ex_sty).
Proof.
  unfold ex_sty. cbn [shape wf allP map fold_right snd fst missing sdefault]. repeat split; try reflexivity.
  - intros ft d [<-|[]]; cbn; discriminate.
  - intros ft v [<-|[]]; cbn; discriminate.
  - intros ft d [<-|[<-|[<-|[<-|[<-|[]]]]]]; cbn; intros E; inversion E; reflexivity.
  - intros ft v [<-|[<-|[<-|[<-|[<-|[]]]]]]; cbn; try discriminate.
    destruct v as [| | | | | | |[|]| |]; try discriminate. reflexivity.
Qed.

(** ** What is written *)

(** serde's serialization writes byte for byte what the compatible Müsli type writes; where one
    fails so does the other. *)
Theorem C74_wire_same_bytes :
  forall p o t v, senc (wire p o) t v = wire_encode p o (shape t) v.
Proof. exact (fun p o => senc_shape (wire p o) p o). Qed.
Print Assumptions C74_wire_same_bytes.

Theorem C74_desc_same_bytes :
  forall p o t v, senc (descriptive p o) t v = descriptive_encode p o (shape t) v.
Proof. exact (fun p o => senc_shape (descriptive p o) p o). Qed.
Print Assumptions C74_desc_same_bytes.

(** In the storage format the same holds unless the options select native memory layouts. *)
Theorem C74_storage_same_bytes :
  forall p o t v, is_native_fixed p o = false ->
    senc (storage p o) t v = storage_encode p o (shape t) v.
Proof. intros p o t v H. exact (senc_storage p o t v H). Qed.
Print Assumptions C74_storage_same_bytes.

Theorem C74_json_same_text :
  forall p t v, sjenc t v = json_encode p (shape t) v.
Proof. exact sjenc_shape. Qed.
Print Assumptions C74_json_same_text.

(** ** What is read back *)

(** serde reads what was written by serde, which is what is written by the compatible Müsli type. *)
Theorem C74_wire_roundtrip :
  forall p o t v bs rest,
    wf p (shape t) -> has_type p (shape t) v = true ->
    senc (wire p o) t v = Ok bs \/ wire_encode p o (shape t) v = Ok bs ->
    sdec (wire p o) t (bs ++ rest) = Ok (v, rest).
Proof.
  intros p o t v bs rest Hw Hv He.
  assert (E : senc (wire p o) t v = Ok bs) by (destruct He as [He|He]; [exact He|now rewrite C74_wire_same_bytes]).
  exact (s_roundtrip (wire p o) p t (rt_srt _ p (wire_rt_laws p o)) Hw v bs rest Hv
    (fun e => match Bool.diff_false_true e with end) E).
Qed.
Print Assumptions C74_wire_roundtrip.

Theorem C74_desc_roundtrip :
  forall p o t v bs rest,
    wf p (shape t) -> has_type p (shape t) v = true ->
    senc (descriptive p o) t v = Ok bs \/ descriptive_encode p o (shape t) v = Ok bs ->
    sdec (descriptive p o) t (bs ++ rest) = Ok (v, rest).
Proof.
  intros p o t v bs rest Hw Hv He.
  assert (E : senc (descriptive p o) t v = Ok bs) by (destruct He as [He|He]; [exact He|now rewrite C74_desc_same_bytes]).
  exact (s_roundtrip (descriptive p o) p t (rt_srt _ p (desc_rt_laws p o)) Hw v bs rest Hv
    (fun e => match Bool.diff_false_true e with end) E).
Qed.
Print Assumptions C74_desc_roundtrip.

(** With any options, as serde does not take the path of native memory layouts. *)
Theorem C74_storage_roundtrip :
  forall p o t v bs rest,
    wf p (shape t) -> has_type p (shape t) v = true ->
    senc (storage p o) t v = Ok bs ->
    sdec (storage p o) t (bs ++ rest) = Ok (v, rest).
Proof.
  intros p o t v bs rest Hw Hv He.
  exact (s_roundtrip (storage p o) p t (storage_srt p o) Hw v bs rest Hv
    (fun e => match Bool.diff_false_true e with end) He).
Qed.
Print Assumptions C74_storage_roundtrip.

(** Values of JSON-compatible types, with finite floating point numbers. *)
Theorem C74_json_roundtrip :
  forall p oc t v,
    jsonable (shape t) = true -> wf p (shape t) -> has_type p (shape t) v = true -> finite (shape t) v = true ->
    exists bs, sjenc t v = Ok bs /\ json_encode p (shape t) v = Ok bs /\
      forall w rest, space w -> (is_float (shape t) = true -> w = []) -> ends rest = true ->
        sjdec oc t (w ++ bs ++ rest) = Ok (v, rest).
Proof.
  intros p oc t v Hj Hw Hv HF. destruct (jenc_ok p (shape t) Hj Hw v Hv HF) as (j & bs & E & T & M & (_ & U) & _).
  exists bs. split; [rewrite sjenc_shape with (p := p); exact E|]. split; [exact E|].
  intros w rest Hs Hi Hr. exact (sjdec_ok p oc t Hw true j v w bs rest (fun _ => eq_refl) Hi M U Hs T Hr).
Qed.
Print Assumptions C74_json_roundtrip.

(** Any text of a document that denotes a value is read as this value, if no object of it repeats a
    member. *)
Theorem C74_json_denotation :
  forall p oc t tight j v w s rest,
    wf p (shape t) -> means p (shape t) j v -> unrepeated j -> space w -> gtext tight j s -> ends rest = true ->
    (has_float (shape t) = true -> tight = true) -> (is_float (shape t) = true -> w = []) ->
    sjdec oc t (w ++ s ++ rest) = Ok (v, rest).
Proof.
  exact (fun p oc t tight j v w s rest Hw M U Hs T Hr Hf Hi => sjdec_ok p oc t Hw tight j v w s rest Hf Hi M U Hs T Hr).
Qed.
Print Assumptions C74_json_denotation.

(** What is written in JSON repeats no member (RFC 8259, section 4). *)
Theorem C74_json_unrepeated :
  forall p t v,
    jsonable t = true -> wf p t -> has_type p t v = true -> finite t v = true ->
    exists bs j, json_encode p t v = Ok bs /\ text j bs /\ means p t j v /\ unrepeated j.
Proof.
  intros p t v Hj Hw Hv HF. destruct (jenc_ok p t Hj Hw v Hv HF) as (j & bs & E & T & M & (_ & U) & _).
  apply loosen in T. exists bs, j. auto.
Qed.
Print Assumptions C74_json_unrepeated.

(** ** Arbitrary input *)

(** On any bytes, deserializing is an error or gives what the compatible Müsli type decodes, and
    the same bytes are left; structs without fields are an exception ([fielded]). *)
Theorem C74_wire_agree :
  forall p o t bs, fielded t = true ->
    sdec (wire p o) t bs = Err \/ sdec (wire p o) t bs = wire_decode p o (shape t) bs.
Proof. exact (fun p o t bs H => sdec_fits (wire p o) p o t H bs). Qed.
Print Assumptions C74_wire_agree.

Theorem C74_desc_agree :
  forall p o t bs, fielded t = true ->
    sdec (descriptive p o) t bs = Err \/ sdec (descriptive p o) t bs = descriptive_decode p o (shape t) bs.
Proof. exact (fun p o t bs H => sdec_fits (descriptive p o) p o t H bs). Qed.
Print Assumptions C74_desc_agree.

Theorem C74_storage_agree :
  forall p o t bs, is_native_fixed p o = false ->
    sdec (storage p o) t bs = Err \/ sdec (storage p o) t bs = storage_decode p o (shape t) bs.
Proof. exact (fun p o t bs H => sdec_storage_fits p o t H bs). Qed.
Print Assumptions C74_storage_agree.

Theorem C74_json_agree :
  forall p oc t bs, fielded t = true ->
    sjdec oc t bs = Err \/ sjdec oc t bs = json_decode p oc (shape t) bs.
Proof. exact (fun p oc t bs H => sjdec_fits p oc t H bs). Qed.
Print Assumptions C74_json_agree.

(** So what is accepted is a value of the type, made of a prefix of the input, and in the storage
    format nothing panics. *)
Theorem C74_wire_typed :
  forall p o t bs v rest, fielded t = true -> plain_width o = true -> wf p (shape t) -> bytes_ok bs = true ->
    sdec (wire p o) t bs = Ok (v, rest) ->
    has_type p (shape t) v = true /\ exists used, bs = used ++ rest.
Proof.
  intros p o t bs v rest Hf Hp Hw Hb E. pose proof (C41_wire_decode_typed p o (shape t) bs Hp Hw Hb) as T.
  destruct (C74_wire_agree p o t bs Hf) as [A|A]; rewrite E in A; [discriminate|]. now rewrite <- A in T.
Qed.
Print Assumptions C74_wire_typed.

Theorem C74_desc_typed :
  forall p o t bs v rest, fielded t = true -> wf p (shape t) -> bytes_ok bs = true ->
    sdec (descriptive p o) t bs = Ok (v, rest) ->
    has_type p (shape t) v = true /\ exists used, bs = used ++ rest.
Proof.
  intros p o t bs v rest Hf Hw Hb E. pose proof (C41_desc_decode_typed p o (shape t) bs Hw Hb) as T.
  destruct (C74_desc_agree p o t bs Hf) as [A|A]; rewrite E in A; [discriminate|]. now rewrite <- A in T.
Qed.
Print Assumptions C74_desc_typed.

Theorem C74_storage_safe :
  forall p o t bs, is_native_fixed p o = false -> wf p (shape t) -> bytes_ok bs = true ->
    match sdec (storage p o) t bs with
    | Ok (v, rest) => has_type p (shape t) v = true /\ exists used, bs = used ++ rest
    | Err => True
    | Panic => False
    end.
Proof.
  intros p o t bs Hn Hw Hb. pose proof (C12_storage_decode_safe p o (shape t) bs Hw Hb) as T.
  destruct (C74_storage_agree p o t bs Hn) as [A|A]; rewrite A; [exact I|exact T].
Qed.
Print Assumptions C74_storage_safe.

Theorem C74_json_typed :
  forall p oc t bs v rest, fielded t = true -> wf p (shape t) -> lenN bs < 2 ^ usize_bits p ->
    sjdec oc t bs = Ok (v, rest) ->
    has_type p (shape t) v = true /\ exists pre, pre <> [] /\ bs = pre ++ rest.
Proof.
  intros p oc t bs v rest Hf Hw L E.
  destruct (C74_json_agree p oc t bs Hf) as [A|A]; rewrite E in A; [discriminate|].
  exact (C24_json_typed p oc (shape t) bs v rest Hw L (eq_sym A)).
Qed.
Print Assumptions C74_json_typed.

(** The two do not accept the same inputs: a field that occurs twice is an error with serde, whereas the
    Müsli type takes the last one. *)
Theorem C74_duplicate_field_refuted :
  exists t bs v, wf ex_plat (shape t) /\ wire_decode ex_plat WIRE_OPTIONS (shape t) bs = Ok (v, []) /\
    sdec (wire ex_plat WIRE_OPTIONS) t bs = Err.
Proof.
  exists (SStruct [(ex_sf [120], SU W8)]), [132; 65; 120; 193; 65; 120; 194], (VList [VN 2]).
  split; [|split; vm_compute; reflexivity].
  cbn [shape wf allP map fold_right snd fst missing sdefault]. repeat split; try reflexivity.
  - intros ft d [<-|[]]; cbn; discriminate.
  - intros ft v [<-|[]]; cbn; discriminate.
Qed.
Print Assumptions C74_duplicate_field_refuted.

Example C74_nonvacuous :
  fielded ex_sty = true /\ wf ex_plat (shape ex_sty) /\ has_type ex_plat (shape ex_sty) ex_sval = true /\
  jsonable (shape ex_sty) = true /\ finite (shape ex_sty) ex_sval = true /\
  is_native_fixed ex_plat STORAGE_OPTIONS = false /\ plain_width WIRE_OPTIONS = true /\
  (exists bs, senc (wire ex_plat WIRE_OPTIONS) ex_sty ex_sval = Ok bs) /\
  (exists bs, senc (descriptive ex_plat DESCRIPTIVE_OPTIONS) ex_sty ex_sval = Ok bs) /\
  (exists bs, senc (storage ex_plat STORAGE_OPTIONS) ex_sty ex_sval = Ok bs).
Proof.
  split; [reflexivity|]. split; [exact ex_swf|]. split; [vm_compute; reflexivity|]. split; [reflexivity|].
  split; [reflexivity|]. split; [reflexivity|]. split; [reflexivity|].
  split; [eexists; vm_compute; reflexivity|]. split; eexists; vm_compute; reflexivity.
Qed.

(** [{"n":"é","o":300,"m":{"-3":null,"4":null},"e":[{"A":null},{"B":9},{"C":[true,7]},{"D":{"x":"€"}}]}] *)
Example C74_json_nonvacuous :
  sjenc ex_sty ex_sval = Ok
    [123; 34; 110; 34; 58; 34; 195; 169; 34; 44; 34; 111; 34; 58; 51; 48; 48; 44; 34; 109; 34; 58; 123; 34; 45; 51; 34; 58;
     110; 117; 108; 108; 44; 34; 52; 34; 58; 110; 117; 108; 108; 125; 44; 34; 101; 34; 58; 91; 123; 34; 65; 34; 58; 110; 117;
     108; 108; 125; 44; 123; 34; 66; 34; 58; 57; 125; 44; 123; 34; 67; 34; 58; 91; 116; 114; 117; 101; 44; 55; 93; 125; 44;
     123; 34; 68; 34; 58; 123; 34; 120; 34; 58; 34; 226; 130; 172; 34; 125; 125; 93; 125] /\
  sjdec true (SStruct [(ex_sf [120], SOpt (SU W8))]) [123; 32; 34; 121; 34; 58; 91; 49; 44; 123; 125; 93; 32; 125] =
    Ok (VList [VNone], []) /\
  sjdec true (SStruct [(ex_sf [120], SOpt (SU W8))]) [123; 34; 120; 34; 58; 49; 44; 34; 120; 34; 58; 50; 125] = Err.
Proof. split; [|split]; vm_compute; reflexivity. Qed.
