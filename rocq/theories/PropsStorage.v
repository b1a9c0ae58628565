(** Properties C09-C13 and C40: the storage and packed formats. Specifications used:
    [has_type] and [wf] of [Types.v] (what a value of a type is) and [StorageSpec.v]. *)
From Verif Require Import Base Options Int Utf8 Types Storage StorageSpec
  IntFacts StorageFacts StorageSafe DecFacts PropsInt.
Local Open Scope N_scope.

(** A type and a value used by the examples: a struct with a string, a list of
    integers left out when empty, a map from characters to optional integers, and an enum. *)
Definition ex_key (s : bytes) (d : option val) : finfo :=
  {| fname := VBytes s; fdefault := d;
     fskip := match d with Some x => val_eqb x | None => fun _ => false end |}.
Definition ex_ty : ty :=
  TStruct TStr
    [(ex_key [110] None, TStr);
     (ex_key [108] (Some (VList [])), TVec (TI W32));
     (ex_key [109] None, TMap TChar (TOpt TUsize));
     (ex_key [101] None, TEnum false (TU W8)
        [(VN 0, TUnit); (VN 7, TTup [TBool; TArray 2 (TU W16)])])].
Definition ex_val : val :=
  VList [VBytes [195; 169]; VList [];
         VMap [(VN 128512, VSome (VN 300)); (VN 97, VNone)];
         VVar 1 (VList [VBool true; VList [VN 1; VN 65535]])].

Lemma ex_wf : wf ex_plat ex_ty.
Proof.
  cbn [ex_ty wf allP map fold_right snd fst]. repeat split; try reflexivity.
  - intros ft d [<-|[<-|[<-|[<-|[]]]]]; cbn; intros E; inversion E; reflexivity.
  - intros ft v [<-|[<-|[<-|[<-|[]]]]]; cbn; try discriminate.
    destruct v as [| | | | | | |[|]| |]; try discriminate. reflexivity.
Qed.

(** * C09 *)

(** Encoding a value of the type always succeeds with a byte string when lengths fit
    the configured width. *)
Theorem C09_storage_encode_total :
  forall p o t v, lengths_fit p o -> wf p t -> has_type p t v = true ->
    exists bs, storage_encode p o t v = Ok bs /\ bytes_ok bs = true.
Proof. exact (fun p o t v Hl Hw => enc_total p o t Hl false Hw v). Qed.
Print Assumptions C09_storage_encode_total.

(** Round trip with exact consumption. [posok]: optional values in a packed struct are at the
    end of the input (documented in packed/mod.rs). [fast_ok]: see
    [StorageSpec]; it holds for every type when the options are not native fixed. Missing:
    native fixed options with types for which it fails, refuted below. *)
Theorem C09_storage_roundtrip_partial :
  forall p o t v bs rest,
    wf p t -> posok (is_native_fixed p o) false false t = true -> fast_ok p o t ->
    has_type p t v = true -> storage_encode p o t v = Ok bs ->
    storage_decode p o t (bs ++ rest) = Ok (v, rest).
Proof.
  exact (fun p o t v bs rest Hw Hp Hf Hv He =>
    roundtrip p o false false t Hw Hp Hf v bs rest Hv
      (fun e : false = true => match Bool.diff_false_true e with end) He).
Qed.
Print Assumptions C09_storage_roundtrip_partial.

(** Under options that do not enable the fast path (such as the default options), every type
    with trailing options only round-trips. *)
Theorem C09_storage_roundtrip :
  forall p o t v bs rest,
    is_native_fixed p o = false ->
    wf p t -> posok false false false t = true ->
    has_type p t v = true -> storage_encode p o t v = Ok bs ->
    storage_decode p o t (bs ++ rest) = Ok (v, rest).
Proof.
  intros p o t v bs rest Hn Hw Hp.
  apply C09_storage_roundtrip_partial; try assumption.
  - now rewrite Hn.
  - intros E. congruence.
Qed.
Print Assumptions C09_storage_roundtrip.

Example C09_nonvacuous :
  wf ex_plat ex_ty /\ posok false false false ex_ty = true /\
  has_type ex_plat ex_ty ex_val = true /\ lengths_fit ex_plat STORAGE_OPTIONS /\
  is_native_fixed ex_plat STORAGE_OPTIONS = false /\
  storage_encode ex_plat STORAGE_OPTIONS ex_ty ex_val =
    Ok [3; 1; 110; 2; 195; 169; 1; 109; 2; 128; 236; 7; 1; 172; 2; 97; 0;
        1; 101; 7; 2; 1; 2; 1; 255; 255; 3] /\
  fast_ok ex_plat (PACKED_OPTIONS ex_plat) ex_ty /\
  is_native_fixed ex_plat (PACKED_OPTIONS ex_plat) = true.
Proof.
  split; [exact ex_wf|]. repeat split; try reflexivity. left. reflexivity.
Qed.

(** With native fixed options the fast path is not coherent for every type: the
    tuple [([true, false],)] is not decoded back. *)
Theorem C09_native_fixed_array_of_bool_refuted :
  exists p o t v bs, wf p t /\ posok (is_native_fixed p o) false false t = true /\
    byteorder_value o = native_bo p /\ has_type p t v = true /\
    storage_encode p o t v = Ok bs /\ storage_decode p o t bs <> Ok (v, []).
Proof.
  exists ex_plat, (PACKED_OPTIONS ex_plat), (TTup [TArray 2 TBool]),
    (VList [VList [VBool true; VBool false]]).
  eexists. split; [cbn [wf allP map fold_right]; repeat split; reflexivity|].
  repeat (split; [vm_compute; reflexivity|]). vm_compute. discriminate.
Qed.
Print Assumptions C09_native_fixed_array_of_bool_refuted.

(** A packed struct [{ a: [u8; 4], b: bool }] is not decoded back either. *)
Theorem C09_native_fixed_packed_refuted :
  exists p o t v bs, wf p t /\ posok (is_native_fixed p o) false false t = true /\
    byteorder_value o = native_bo p /\ has_type p t v = true /\
    storage_encode p o t v = Ok bs /\ storage_decode p o t bs <> Ok (v, []).
Proof.
  exists ex_plat, (PACKED_OPTIONS ex_plat),
    (TPack true [(None, TArray 4 (TU W8)); (None, TBool)]),
    (VList [VList [VN 1; VN 2; VN 3; VN 4]; VBool true]).
  eexists. split.
  { cbn [wf allP map fold_right snd]; repeat split; try reflexivity.
    intros ft d [<-|[<-|[]]]; discriminate. }
  repeat (split; [vm_compute; first [reflexivity|discriminate]|]). vm_compute. discriminate.
Qed.
Print Assumptions C09_native_fixed_packed_refuted.

(** Fixed options with the other byte order: [Some('a')] decodes to another
    character or an error. *)
Theorem C09_native_fixed_byte_order_refuted :
  exists p calls t v bs, wf p t /\
    let o := build p calls in
    posok (is_native_fixed p o) false false t = true /\ has_type p t v = true /\
    coh false t = true /\
    storage_encode p o t v = Ok bs /\ storage_decode p o t bs <> Ok (v, []).
Proof.
  exists ex_plat, [CFixed; CByteOrder Big], (TOpt TChar), (VSome (VN 97)).
  eexists. split; [exact I|]. repeat (split; [vm_compute; reflexivity|]). vm_compute. discriminate.
Qed.
Print Assumptions C09_native_fixed_byte_order_refuted.

(** * C10 *)

(** A strict prefix of an encoding is an error. [delimited]: the type does not use
    optional values in packed structs, which are recognised by the end of the input. *)
Theorem C10_storage_prefix_error_partial :
  forall p o t v bs pre ext,
    wf p t -> delimited false t = true -> fast_ok p o t ->
    has_type p t v = true -> storage_encode p o t v = Ok bs -> bytes_ok bs = true ->
    bs = pre ++ ext -> ext <> [] ->
    storage_decode p o t pre = Err.
Proof. exact (fun p o t v bs pre ext => prefix_error p o false t v bs pre ext). Qed.
Print Assumptions C10_storage_prefix_error_partial.

Example C10_nonvacuous :
  delimited false ex_ty = true /\
  storage_decode ex_plat STORAGE_OPTIONS ex_ty
    [3; 1; 110; 2; 195; 169; 1; 109; 2; 128; 236; 7; 1; 172; 2; 97; 0;
     1; 101; 7; 2; 1; 2; 1; 255; 255] = Err.
Proof. vm_compute. split; reflexivity. Qed.

(** Missing above and false: a packed struct whose last field is optional decodes from a
    truncated message. *)
Theorem C10_packed_optional_refuted :
  exists p t v v' bs pre ext, wf p t /\ posok false false true t = true /\
    has_type p t v = true /\ storage_encode p STORAGE_OPTIONS t v = Ok bs /\ bs = pre ++ ext /\
    ext <> [] /\ storage_decode p STORAGE_OPTIONS t pre = Ok (v', []) /\ v' <> v.
Proof.
  exists ex_plat, (TPack true [(None, TU W32); (None, TOpt (TU W32))]), (VList [VN 1; VSome (VN 2)]),
    (VList [VN 1; VNone]), [1; 2], [1], [2].
  split.
  { cbn [wf allP map fold_right snd]; repeat split; try reflexivity.
    intros ft d [<-|[<-|[]]] H; inversion H; reflexivity. }
  repeat (split; [vm_compute; first [reflexivity|discriminate]|]). vm_compute. discriminate.
Qed.
Print Assumptions C10_packed_optional_refuted.

(** * C11 *)

(** If two encodings followed by anything agree, so do the values and what follows. *)
Theorem C11_storage_unambiguous :
  forall p o t v1 v2 b1 b2 r1 r2,
    wf p t -> posok (is_native_fixed p o) false false t = true -> fast_ok p o t ->
    has_type p t v1 = true -> has_type p t v2 = true ->
    storage_encode p o t v1 = Ok b1 -> storage_encode p o t v2 = Ok b2 ->
    b1 ++ r1 = b2 ++ r2 -> v1 = v2 /\ r1 = r2.
Proof. exact (fun p o t => unambiguous p o false t). Qed.
Print Assumptions C11_storage_unambiguous.

Example C11_nonvacuous :
  let t := TVec (TOpt (TU W8)) in
  let a := VList [VSome (VN 0); VNone] in
  let b := VList [VNone; VSome (VN 0)] in
  has_type ex_plat t a = true /\ has_type ex_plat t b = true /\
  storage_encode ex_plat STORAGE_OPTIONS t a = Ok [2; 1; 0; 0] /\
  storage_encode ex_plat STORAGE_OPTIONS t b = Ok [2; 0; 1; 0].
Proof. vm_compute. repeat split. Qed.

(** * C12 *)

(** Whatever the bytes, decoding ends without a panic, in an error or in a value of the
    type, and what is left is a suffix of the input. Termination: [storage_decode] is a total
    function. *)
Theorem C12_storage_decode_safe :
  forall p o t bs, wf p t -> bytes_ok bs = true ->
    match storage_decode p o t bs with
    | Ok (v, rest) => has_type p t v = true /\ exists used, bs = used ++ rest
    | Err => True
    | Panic => False
    end.
Proof. exact (fun p o t bs Hw => dec_sound p o t false Hw bs). Qed.
Print Assumptions C12_storage_decode_safe.

Theorem C12_packed_decode_safe :
  forall p o t bs, wf p t -> bytes_ok bs = true ->
    match packed_decode p o t bs with
    | Ok (v, rest) => has_type p t v = true /\ exists used, bs = used ++ rest
    | Err => True
    | Panic => False
    end.
Proof. exact (fun p o t bs Hw => dec_sound p o t true Hw bs). Qed.
Print Assumptions C12_packed_decode_safe.

Example C12_nonvacuous :
  storage_decode ex_plat STORAGE_OPTIONS ex_ty [255; 255; 255; 255; 255; 255; 255; 255; 255; 1; 1; 110] = Err /\
  storage_decode ex_plat STORAGE_OPTIONS (TVec TBool) [3; 1; 0; 1; 99] =
    Ok (VList [VBool true; VBool false; VBool true], [99]).
Proof. vm_compute. split; reflexivity. Qed.

(** * C13 *)

(** A packed message with nothing after it decodes to its value; optional values may
    come last. *)
Theorem C13_packed_roundtrip_partial :
  forall p o t v bs,
    wf p t -> posok (is_native_fixed p o) true true t = true -> fast_ok p o t ->
    has_type p t v = true -> packed_encode p o t v = Ok bs ->
    packed_decode p o t bs = Ok (v, []).
Proof.
  intros p o t v bs Hw Hp Hf Hv He.
  pose proof (roundtrip p o true true t Hw Hp Hf v bs [] Hv (fun _ => eq_refl) He) as H.
  rewrite app_nil_r in H. exact H.
Qed.
Print Assumptions C13_packed_roundtrip_partial.

(** Types without optional values also leave what follows alone. *)
Theorem C13_packed_roundtrip_followed_partial :
  forall p o t v bs rest,
    wf p t -> posok (is_native_fixed p o) true false t = true -> fast_ok p o t ->
    has_type p t v = true -> packed_encode p o t v = Ok bs ->
    packed_decode p o t (bs ++ rest) = Ok (v, rest).
Proof.
  exact (fun p o t v bs rest Hw Hp Hf Hv He =>
    roundtrip p o true false t Hw Hp Hf v bs rest Hv
      (fun e : false = true => match Bool.diff_false_true e with end) He).
Qed.
Print Assumptions C13_packed_roundtrip_followed_partial.

(** An absent optional value takes no bytes and the end of the input is an absent value. *)
Theorem C13_packed_absent :
  forall p o t, packed_encode p o (TOpt t) VNone = Ok [] /\
                packed_decode p o (TOpt t) [] = Ok (VNone, []).
Proof. exact (fun p o t => conj eq_refl eq_refl). Qed.
Print Assumptions C13_packed_absent.

(** Optional fields can be added at the end: old messages decode with the new fields absent.
    Missing: structs of plain
    integers under native fixed options, where the old message is the memory of the struct. *)
Theorem C13_packed_new_reads_old_partial :
  forall p o c c' fs extra vs bs,
    is_native_fixed p o && bw_enc (TPack c fs) = false ->
    wf p (TPack c fs) -> posok (is_native_fixed p o) true true (TPack c fs) = true ->
    fast_ok p o (TPack c fs) ->
    extra <> [] -> (forall ft, In ft extra -> exists t, snd ft = TOpt t) ->
    has_type p (TPack c fs) (VList vs) = true ->
    packed_encode p o (TPack c fs) (VList vs) = Ok bs ->
    packed_decode p o (TPack c' (fs ++ extra)) bs =
      Ok (VList (vs ++ map (fun _ => VNone) extra), []).
Proof. exact pack_new_reads_old. Qed.
Print Assumptions C13_packed_new_reads_old_partial.

(** ... and new messages can be read by the old type, which ignores what follows. *)
Theorem C13_packed_old_reads_new_partial :
  forall p o c c' fs extra vs ws bs,
    is_native_fixed p o && bw_enc (TPack c fs) = false ->
    is_native_fixed p o && bw_dec (TPack c fs) = false ->
    is_native_fixed p o && bw_enc (TPack c' (fs ++ extra)) = false ->
    wf p (TPack c fs) -> posok (is_native_fixed p o) true false (TPack c fs) = true ->
    fast_ok p o (TPack c fs) ->
    has_type p (TPack c fs) (VList vs) = true ->
    packed_encode p o (TPack c' (fs ++ extra)) (VList (vs ++ ws)) = Ok bs ->
    exists rest, packed_decode p o (TPack c fs) bs = Ok (VList vs, rest).
Proof. exact pack_old_reads_new. Qed.
Print Assumptions C13_packed_old_reads_new_partial.

(** The example of packed/mod.rs:24-60, with the options the format uses by default. *)
Definition ex_v1 : ty := TPack false [(None, TStr)].
Definition ex_v2 : ty := TPack false [(None, TStr); (Some VNone, TOpt (TU W32))].
Example C13_nonvacuous :
  let p := ex_plat in let o := PACKED_OPTIONS p in
  let nf := is_native_fixed p o in
  posok nf true true ex_v2 = true /\ posok nf true true ex_v1 = true /\
  posok nf true false ex_v1 = true /\ coh false ex_v2 = true /\ coh false ex_v1 = true /\
  has_type p ex_v2 (VList [VBytes [65]; VSome (VN 61)]) = true /\
  packed_encode p o ex_v2 (VList [VBytes [65]; VSome (VN 61)]) =
    Ok [1; 0; 0; 0; 0; 0; 0; 0; 65; 61; 0; 0; 0] /\
  packed_decode p o ex_v1 [1; 0; 0; 0; 0; 0; 0; 0; 65; 61; 0; 0; 0] =
    Ok (VList [VBytes [65]], [61; 0; 0; 0]) /\
  packed_encode p o ex_v1 (VList [VBytes [65]]) = Ok [1; 0; 0; 0; 0; 0; 0; 0; 65] /\
  packed_decode p o ex_v2 [1; 0; 0; 0; 0; 0; 0; 0; 65] = Ok (VList [VBytes [65]; VNone], []).
Proof. vm_compute. repeat split. Qed.

(** Fields with [#[musli(default)]] that are not optional cannot be added: the default is
    ignored by the generated code, with every options. *)
Theorem C13_packed_default_field_refuted :
  exists p fs extra d v, wf p (TPack false (fs ++ extra)) /\
    map fst extra = [Some d] /\
    has_type p (TPack false fs) (VList [v]) = true /\
    (exists bs, packed_encode p STORAGE_OPTIONS (TPack false fs) (VList [v]) = Ok bs /\
       packed_decode p STORAGE_OPTIONS (TPack false (fs ++ extra)) bs = Err) /\
    (exists bs, packed_encode p (PACKED_OPTIONS p) (TPack false fs) (VList [v]) = Ok bs /\
       packed_decode p (PACKED_OPTIONS p) (TPack false (fs ++ extra)) bs = Err).
Proof.
  exists ex_plat, [(None, TStr)], [(Some (VN 0), TU W32)], (VN 0), (VBytes [65]). split.
  { cbn [wf allP map fold_right snd app]; repeat split; try reflexivity.
    intros ft d [<-|[<-|[]]] H; inversion H; reflexivity. }
  split; [reflexivity|]. split; [vm_compute; reflexivity|].
  split; (eexists; split; [vm_compute; reflexivity|vm_compute; reflexivity]).
Qed.
Print Assumptions C13_packed_default_field_refuted.

(** * C40 *)

(** A sequence written with any number of elements decodes as an array of [n] exactly when it
    has [n] elements. *)
Theorem C40_storage_array_count :
  forall p o n t vs bs rest,
    wf p t -> posok (is_native_fixed p o) false false t = true -> fast_ok p o (TVec t) ->
    has_type p (TVec t) (VList vs) = true ->
    storage_encode p o (TVec t) (VList vs) = Ok bs ->
    storage_decode p o (TArray n t) (bs ++ rest) =
      if lenN vs =? n then Ok (VList vs, rest) else Err.
Proof. exact (fun p o => array_count p o false). Qed.
Print Assumptions C40_storage_array_count.

(** Whatever the bytes after it, a count other than the right one is an error. *)
Theorem C40_storage_array_wrong_count :
  forall p o n t m l body,
    wf p (TArray n t) -> m < 2 ^ usize_bits p -> encode_usize p o m = Ok l -> m <> n ->
    bytes_ok body = true -> storage_decode p o (TArray n t) (l ++ body) = Err.
Proof. exact (fun p o => array_wrong_count p o false). Qed.
Print Assumptions C40_storage_array_wrong_count.

Theorem C40_storage_tuple_wrong_count :
  forall p o ts m l body,
    wf p (TTup ts) -> m < 2 ^ usize_bits p -> encode_usize p o m = Ok l -> m <> lenN ts ->
    bytes_ok body = true -> storage_decode p o (TTup ts) (l ++ body) = Err.
Proof. exact (fun p o => tuple_wrong_count p o false). Qed.
Print Assumptions C40_storage_tuple_wrong_count.

Example C40_storage_nonvacuous :
  storage_encode ex_plat STORAGE_OPTIONS (TVec (TU W16)) (VList [VN 5; VN 600]) = Ok [2; 5; 216; 4] /\
  storage_decode ex_plat STORAGE_OPTIONS (TArray 2 (TU W16)) [2; 5; 216; 4] = Ok (VList [VN 5; VN 600], []) /\
  storage_decode ex_plat STORAGE_OPTIONS (TArray 1 (TU W16)) [2; 5; 216; 4] = Err /\
  storage_decode ex_plat STORAGE_OPTIONS (TArray 3 (TU W16)) [2; 5; 216; 4] = Err /\
  storage_decode ex_plat STORAGE_OPTIONS (TTup [TU W16]) [2; 5; 216; 4] = Err.
Proof. vm_compute. repeat split. Qed.
