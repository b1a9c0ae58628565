(** Properties C14-C17, C41, C42 and C40 for the wire format. Specifications used: [has_type]
    and [wf] of [Types.v], [StorageSpec.v] and [FmtSpec.v]. *)
From Verif Require Import Base Options Int Utf8 Types Storage StorageSpec Fmt FmtSpec Wire
  BaseFacts IntFacts StorageFacts StabFacts DecFacts FmtFacts FmtSafe FmtStab FmtEvolve FmtCount SkipFacts WireFacts
  PropsInt PropsStorage.
Local Open Scope N_scope.

(** * C14 *)

(** Encoding a value of the type succeeds when lengths fit the configured width. *)
Theorem C14_wire_encode_total :
  forall p o t v, lengths_fit p o -> plain_width o = true -> wf p t ->
    has_type p t v = true -> fits p o t v = true ->
    exists bs, wire_encode p o t v = Ok bs /\ bytes_ok bs = true.
Proof.
  intros p o t v Hl Hp Hw Hv Hf.
  apply (genc_total (wire p o) p o t (wire_tot_laws p o Hl Hp) Hl Hw v).
  now rewrite Hv, Hf.
Qed.
Print Assumptions C14_wire_encode_total.

(** Round trip with exact consumption. Missing: packed structs that the storage format does
    not round-trip ([packs_ok]), see below. *)
Theorem C14_wire_roundtrip_partial :
  forall p o t v bs rest,
    wf p t -> packs_ok p o t -> has_type p t v = true ->
    wire_encode p o t v = Ok bs ->
    wire_decode p o t (bs ++ rest) = Ok (v, rest).
Proof.
  intros p o t v bs rest Hw Hp Hv He.
  exact (g_roundtrip (wire p o) p o t (wire_rt_laws p o) Hw Hp v bs rest Hv
    (fun e => match Bool.diff_false_true e with end) He).
Qed.
Print Assumptions C14_wire_roundtrip_partial.

(** Types without packed structs need no further condition, whatever the options. *)
Theorem C14_wire_roundtrip :
  forall p o t v bs rest,
    wf p t -> packs (fun _ => false) t = true -> has_type p t v = true ->
    wire_encode p o t v = Ok bs ->
    wire_decode p o t (bs ++ rest) = Ok (v, rest).
Proof.
  exact (fun p o t v bs rest Hw Hp =>
    C14_wire_roundtrip_partial p o t v bs rest Hw (unpacked_ok p o t Hp)).
Qed.
Print Assumptions C14_wire_roundtrip.

Definition ex_wire_bytes : bytes :=
  [134; 65; 110; 66; 195; 169; 65; 109; 132; 255; 128; 236; 7; 129; 255; 172; 2; 255; 97; 128;
   65; 101; 130; 199; 130; 193; 130; 193; 255; 255; 255; 3].

Example C14_nonvacuous :
  wf ex_plat ex_ty /\ packs (fun _ => false) ex_ty = true /\
  has_type ex_plat ex_ty ex_val = true /\ fits ex_plat WIRE_OPTIONS ex_ty ex_val = true /\
  lengths_fit ex_plat WIRE_OPTIONS /\ plain_width WIRE_OPTIONS = true /\
  wire_encode ex_plat WIRE_OPTIONS ex_ty ex_val = Ok ex_wire_bytes /\
  packs_ok ex_plat WIRE_OPTIONS (TVec ex_v2).
Proof.
  split; [exact ex_wf|]. do 6 (split; [vm_compute; first [reflexivity|now left]|]).
  split; [vm_compute; reflexivity|vm_compute; discriminate].
Qed.

(** The missing part is false: a packed struct [{ a: [u8; 4], b: bool }] inside of another
    under native fixed options, as for the storage format. *)
Theorem C14_wire_packed_native_fixed_refuted :
  exists p o t v bs, wf p t /\ byteorder_value o = native_bo p /\ has_type p t v = true /\
    packs (pack_pos (is_native_fixed p o)) t = true /\
    wire_encode p o t v = Ok bs /\ wire_decode p o t bs <> Ok (v, []).
Proof.
  exists ex_plat, (PACKED_OPTIONS ex_plat),
    (TPack true [(None, TPack true [(None, TArray 4 (TU W8)); (None, TBool)])]),
    (VList [VList [VList [VN 1; VN 2; VN 3; VN 4]; VBool true]]).
  eexists. split.
  { cbn [wf allP map fold_right snd]; repeat split; try reflexivity.
    - intros ft d [<-|[<-|[]]]; discriminate.
    - intros ft d [<-|[]]; discriminate. }
  repeat (split; [vm_compute; first [reflexivity|discriminate]|]). vm_compute. discriminate.
Qed.
Print Assumptions C14_wire_packed_native_fixed_refuted.

(** * C15 *)

(** Skipping passes over exactly the encoding of a value of any type. [wok]: [usize] and
    [isize] need the variable length width. The size condition is that the message with one
    more byte fits the address space. *)
Theorem C15_wire_skip_partial :
  forall p o t v bs rest,
    wf p t -> leaves (wok o) t = true -> has_type p t v = true ->
    wire_encode p o t v = Ok bs -> 1 + lenN bs < 2 ^ usize_bits p ->
    wire_skip p o (bs ++ rest) = Ok (tt, rest).
Proof. exact (fun p o t v bs rest => g_skip (wire p o) p o (wok o) (wskip_n p o) (wire_skip_laws p o) t v bs rest). Qed.
Print Assumptions C15_wire_skip_partial.

Example C15_nonvacuous :
  leaves (wok WIRE_OPTIONS) ex_ty = true /\ 1 + lenN ex_wire_bytes < 2 ^ usize_bits ex_plat /\
  wire_skip ex_plat WIRE_OPTIONS (ex_wire_bytes ++ [1; 2]) = Ok (tt, [1; 2]) /\
  leaves (wok ex_fixed) (TVec (TU W64)) = true /\
  wire_encode ex_plat ex_fixed (TVec (TU W64)) (VList [VN 258]) = Ok [129; 72; 0; 0; 0; 0; 0; 0; 1; 2].
Proof. vm_compute. repeat split. Qed.

(** Missing above and false: with a fixed length width, the tag in front of a [usize] does not
    announce the number of bytes that follow, and [skip] consumes part of the next value. *)
Theorem C15_wire_skip_usize_refuted :
  exists p calls v bs rest rest', has_type p TUsize v = true /\
    wire_encode p (build p calls) TUsize v = Ok bs /\
    wire_decode p (build p calls) TUsize (bs ++ rest) = Ok (v, rest) /\
    wire_skip p (build p calls) (bs ++ rest) = Ok (tt, rest') /\ rest' <> rest.
Proof.
  exists ex_plat, [CPointer WU32], (VN 7), [72; 7; 0; 0; 0], [64; 64; 64; 64; 64], [64].
  repeat (split; [vm_compute; first [reflexivity|discriminate]|]). discriminate.
Qed.
Print Assumptions C15_wire_skip_usize_refuted.

(** * C16 *)

(** A message of type [tW] read at type [tR]: reordered, added and removed struct
    fields and variants, at any depth. [upg] says what the reader gets. *)
Theorem C16_wire_upgrade_partial :
  forall p o tW tR w r bs rest,
    wf p tW -> packs_ok p o tW -> leaves (wok o) tW = true -> wf p tR ->
    upg tW tR w r -> has_type p tW w = true ->
    wire_encode p o tW w = Ok bs -> 1 + lenN bs < 2 ^ usize_bits p ->
    wire_decode p o tR (bs ++ rest) = Ok (r, rest).
Proof.
  exact (fun p o tW tR w r bs rest =>
    g_upgrade (wire p o) p o (wok o) (wskip_n p o) tW tR w r bs rest
      (wire_rt_laws p o) (wire_skip_laws p o)).
Qed.
Print Assumptions C16_wire_upgrade_partial.

(** Under variable lengths, and without packed structs, for every pair of types. *)
Theorem C16_wire_upgrade :
  forall p o tW tR w r bs rest,
    length_value o = WVariable -> packs (fun _ => false) tW = true ->
    wf p tW -> wf p tR -> upg tW tR w r -> has_type p tW w = true ->
    wire_encode p o tW w = Ok bs -> 1 + lenN bs < 2 ^ usize_bits p ->
    wire_decode p o tR (bs ++ rest) = Ok (r, rest).
Proof.
  intros p o tW tR w r bs rest Hl Hp Hw. apply C16_wire_upgrade_partial; auto.
  - now apply unpacked_ok.
  - apply leaves_all. intros t. unfold wok. rewrite Hl. now destruct t.
Qed.
Print Assumptions C16_wire_upgrade.

(** A field that the reader requires and that was not written is an error. *)
Theorem C16_wire_missing_field :
  forall p o kt fsW fsR ws ss bs rest,
    wf p (TStruct kt fsW) -> packs_ok p o (TStruct kt fsW) -> leaves (wok o) (TStruct kt fsW) = true ->
    wf p (TStruct kt fsR) -> has_type p (TStruct kt fsW) (VList ws) = true ->
    Forall2 (read_slot fsW ws) fsR ss ->
    (exists i fr, nth_error fsR i = Some fr /\ nth_error ss i = Some None /\ fdefault (fst fr) = None) ->
    wire_encode p o (TStruct kt fsW) (VList ws) = Ok bs -> 1 + lenN bs < 2 ^ usize_bits p ->
    wire_decode p o (TStruct kt fsR) (bs ++ rest) = Err.
Proof.
  exact (fun p o kt fsW fsR ws ss bs rest =>
    g_missing (wire p o) p o (wok o) (wskip_n p o) kt fsW fsR ws ss bs rest
      (wire_rt_laws p o) (wire_skip_laws p o)).
Qed.
Print Assumptions C16_wire_missing_field.

(** A variant that the reader does not have is an error. *)
Theorem C16_wire_unknown_variant :
  forall p o fW fR kt vsW vsR i k t w bs rest,
    wf p (TEnum fW kt vsW) -> packs_ok p o (TEnum fW kt vsW) ->
    nth_error vsW i = Some (k, t) -> ~ In k (map fst vsR) ->
    wire_encode p o (TEnum fW kt vsW) (VVar i w) = Ok bs ->
    wire_decode p o (TEnum fR kt vsR) (bs ++ rest) = Err.
Proof.
  exact (fun p o fW fR kt vsW vsR i k t w bs rest =>
    g_unknown_variant (wire p o) p o fW fR kt vsW vsR i k t w bs rest (wire_rt_laws p o)).
Qed.
Print Assumptions C16_wire_unknown_variant.

(** A reader of [ex_ty] that dropped two fields, added one with a default, reordered the
    others and replaced a variant. *)
Definition ex_reader : ty :=
  TStruct TStr
    [(ex_key [101] None, TEnum false (TU W8)
        [(VN 9, TStr); (VN 7, TTup [TBool; TArray 2 (TU W16)])]);
     (ex_key [120] (Some (VN 5)), TU W32);
     (ex_key [110] None, TStr)].
Definition ex_read : val :=
  VList [VVar 1 (VList [VBool true; VList [VN 1; VN 65535]]); VN 5; VBytes [195; 169]].

Lemma ex_reader_wf : wf ex_plat ex_reader.
Proof.
  cbn [ex_reader wf allP map fold_right snd fst]. repeat split; try reflexivity.
  - intros ft d [<-|[<-|[<-|[]]]]; cbn; intros E; inversion E; reflexivity.
  - intros ft v [<-|[<-|[<-|[]]]]; cbn; try discriminate.
    destruct v as [| | n | | | | | | |]; try discriminate. intros E. destruct n as [|q]; [discriminate|]. apply Pos.eqb_eq in E. now subst.
Qed.

Lemma ex_upg : upg ex_ty ex_reader ex_val ex_read.
Proof.
  apply U_struct. unfold ex_reader. repeat (apply Forall2_cons || apply Forall2_nil).
  - left. do 3 eexists. split; [exists 3%nat; repeat split; reflexivity|]. split; [reflexivity|].
    eapply (U_enum false false (TU W8) _ _ 1 1); [reflexivity|reflexivity|apply U_same].
  - right. split; [|reflexivity]. intros f t w (i & H1 & H2 & H3).
    destruct i as [|[|[|[|[|i]]]]]; try discriminate; inversion H1; discriminate.
  - left. do 3 eexists. split; [exists 0%nat; repeat split; reflexivity|]. split; [reflexivity|]. apply U_same.
Qed.

Example C16_nonvacuous :
  wf ex_plat ex_ty /\ wf ex_plat ex_reader /\ upg ex_ty ex_reader ex_val ex_read /\
  length_value WIRE_OPTIONS = WVariable /\
  wire_decode ex_plat WIRE_OPTIONS ex_reader ex_wire_bytes = Ok (ex_read, []).
Proof.
  split; [exact ex_wf|]. split; [exact ex_reader_wf|]. split; [exact ex_upg|].
  split; [reflexivity|vm_compute; reflexivity].
Qed.

Example C16_missing_nonvacuous :
  let fsW := [(ex_key [110] None, TStr)] in
  let fsR := [(ex_key [110] None, TStr); (ex_key [111] None, TStr)] in
  Forall2 (read_slot fsW [VBytes [65]]) fsR [Some (VBytes [65]); None] /\
  (exists i fr, nth_error fsR i = Some fr /\ nth_error [Some (VBytes [65]); None] i = Some None /\
     fdefault (fst fr) = None).
Proof.
  split.
  - repeat (apply Forall2_cons || apply Forall2_nil).
    + left. do 4 eexists. split; [exists 0%nat; repeat split; reflexivity|]. split; [reflexivity|].
      split; [apply U_same|reflexivity].
    + right. split; [|reflexivity]. intros f t w (i & H1 & H2 & H3).
      destruct i as [|[|i]]; try discriminate; inversion H1; discriminate.
  - exists 1%nat. eexists. repeat split.
Qed.

(** * C17 *)

(** A tag is one byte from which the kind and the data that is smaller than 63 can be read
    back; data 63 stands for a length that follows. *)
Theorem C17_wire_tag :
  forall k d, d < 64 ->
    wtag k d < 256 /\ wtag_kind (wtag k d) = k /\
    wtag_data (wtag k d) = if d =? 63 then None else Some d.
Proof.
  intros k d Hd. split; [now apply wtag_byte|]. split; [now apply wtag_kind_new|].
  destruct (N.eqb_spec d 63) as [->|Hne]; [apply wtag_data_full|apply wtag_data_new; lia].
Qed.
Print Assumptions C17_wire_tag.

(** Every byte is the tag of its kind and data. *)
Theorem C17_wire_tag_onto :
  forall b, b < 256 ->
    b = wtag (wtag_kind b) (match wtag_data b with Some d => d | None => 63 end).
Proof.
  intros b Hb. apply N.eqb_eq. revert b Hb. apply byte_sweep. vm_compute. reflexivity.
Qed.
Print Assumptions C17_wire_tag_onto.

(** A length announced by a tag reads back, embedded or not. *)
Theorem C17_wire_length :
  forall p o k n b rest, n < 2 ^ usize_bits p -> wlen_enc p o k n = Ok b ->
    wlen_dec p o k (b ++ rest) = Ok (n, rest).
Proof. exact wlen_rt. Qed.
Print Assumptions C17_wire_length.

Example C17_nonvacuous :
  wlen_enc ex_plat WIRE_OPTIONS Sequence 62 = Ok [190] /\
  wlen_enc ex_plat WIRE_OPTIONS Sequence 63 = Ok [191; 63] /\
  wlen_enc ex_plat ex_fixed Prefix 300 = Ok [127; 1; 44] /\
  wtag_kind 0 = Reserved.
Proof. vm_compute. repeat split. Qed.

(** * C40 *)

Theorem C40_wire_array_count :
  forall p o n t vs bs rest,
    wf p t -> packs_ok p o t -> has_type p (TVec t) (VList vs) = true ->
    wire_encode p o (TVec t) (VList vs) = Ok bs ->
    wire_decode p o (TArray n t) (bs ++ rest) =
      if lenN vs =? n then Ok (VList vs, rest) else Err.
Proof. exact (fun p o n t vs bs rest => g_array_count (wire p o) p o n t vs bs rest (wire_rt_laws p o)). Qed.
Print Assumptions C40_wire_array_count.

(** Whatever bytes follow the announced count. *)
Theorem C40_wire_array_wrong_count :
  forall p o n t m l body, m < 2 ^ usize_bits p -> wlen_enc p o Sequence m = Ok l -> m <> n ->
    forall v r, wire_decode p o (TArray n t) (l ++ body) <> Ok (v, r).
Proof. exact (fun p o n t m l body => g_array_wrong (wire p o) p o n t m l body (wire_rt_laws p o)). Qed.
Print Assumptions C40_wire_array_wrong_count.

Theorem C40_wire_tuple_short :
  forall p o ts m l body, m < 2 ^ usize_bits p -> wlen_enc p o Sequence m = Ok l -> m < lenN ts ->
    forall v r, wire_decode p o (TTup ts) (l ++ body) <> Ok (v, r).
Proof. exact (fun p o ts m l body => g_tuple_short (wire p o) p o ts m l body (wire_rt_laws p o)). Qed.
Print Assumptions C40_wire_tuple_short.

(** A longer tuple is not rejected: it decodes to its first elements, and the others are
    skipped. *)
Theorem C40_wire_tuple_long :
  forall p o ts es vs ws bs rest,
    wf p (TTup (ts ++ es)) -> packs_ok p o (TTup (ts ++ es)) -> leaves (wok o) (TTup es) = true ->
    length vs = length ts -> has_type p (TTup (ts ++ es)) (VList (vs ++ ws)) = true ->
    wire_encode p o (TTup (ts ++ es)) (VList (vs ++ ws)) = Ok bs -> 1 + lenN bs < 2 ^ usize_bits p ->
    wire_decode p o (TTup ts) (bs ++ rest) = Ok (VList vs, rest).
Proof.
  exact (fun p o ts es vs ws bs rest =>
    g_tuple_long (wire p o) p o (wok o) (wskip_n p o) ts es vs ws bs rest
      (wire_rt_laws p o) (wire_skip_laws p o) (fun n bs => eq_refl)).
Qed.
Print Assumptions C40_wire_tuple_long.

Theorem C40_wire_tuple_long_refuted :
  exists p ts ts' v v' bs, wf p (TTup ts) /\ wf p (TTup ts') /\ lenN ts < lenN ts' /\
    has_type p (TTup ts') v = true /\ wire_encode p WIRE_OPTIONS (TTup ts') v = Ok bs /\
    wire_decode p WIRE_OPTIONS (TTup ts) bs = Ok (v', []).
Proof.
  exists ex_plat, [TU W16], [TU W16; TStr], (VList [VN 600; VBytes [65]]), (VList [VN 600]).
  eexists. split; [cbn [wf allP map fold_right]; repeat split; reflexivity|].
  split; [cbn [wf allP map fold_right]; repeat split; reflexivity|].
  repeat (split; [vm_compute; reflexivity|]). vm_compute. reflexivity.
Qed.
Print Assumptions C40_wire_tuple_long_refuted.

Example C40_wire_nonvacuous :
  wire_encode ex_plat WIRE_OPTIONS (TVec (TU W16)) (VList [VN 5; VN 600]) = Ok [130; 197; 255; 216; 4] /\
  wire_decode ex_plat WIRE_OPTIONS (TArray 2 (TU W16)) [130; 197; 255; 216; 4] = Ok (VList [VN 5; VN 600], []) /\
  wire_decode ex_plat WIRE_OPTIONS (TArray 1 (TU W16)) [130; 197; 255; 216; 4] = Err /\
  wire_decode ex_plat WIRE_OPTIONS (TTup [TU W16; TU W16; TBool]) [130; 197; 255; 216; 4] = Err.
Proof. vm_compute. repeat split. Qed.

(** * C41 *)

(** Whatever the bytes: an error, or a value of the type and a suffix of the input, or the
    overflow check of [skip]. *)
Theorem C41_wire_decode_typed :
  forall p o t bs, plain_width o = true -> wf p t -> bytes_ok bs = true ->
    match wire_decode p o t bs with
    | Ok (v, rest) => has_type p t v = true /\ exists used, bs = used ++ rest
    | _ => True
    end.
Proof.
  intros p o t bs Hp Hw Hb.
  pose proof (g_stab (wire p o) p o True t (wire_stab_laws p o Hp) Hw (or_introl I) bs [] Hb) as H.
  unfold wire_decode. destruct (gdec _ p o t bs) as [[v r]| |]; auto. tauto.
Qed.
Print Assumptions C41_wire_decode_typed.

(** No panic for types whose decoding skips nothing. *)
Theorem C41_wire_no_panic_partial :
  forall p o t bs, plain_width o = true -> wf p t -> noskip t = true -> bytes_ok bs = true ->
    wire_decode p o t bs <> Panic.
Proof.
  intros p o t bs Hp Hw Hn Hb E.
  pose proof (g_stab (wire p o) p o False t (wire_stab_laws p o Hp) Hw (or_intror Hn) bs [] Hb) as H.
  unfold wire_decode in E. rewrite E in H. tauto.
Qed.
Print Assumptions C41_wire_no_panic_partial.

(** Missing and false (in a build with overflow checks): nested sequences that announce
    [usize::MAX] elements overflow the counter of [skip]. *)
Theorem C41_wire_skip_overflow_refuted :
  exists p t bs, wf p t /\ bytes_ok bs = true /\ wire_decode p WIRE_OPTIONS t bs = Panic.
Proof.
  exists ex_plat, TUnit,
    [131; 191; 255; 255; 255; 255; 255; 255; 255; 255; 255; 1].
  split; [exact I|]. split; vm_compute; reflexivity.
Qed.
Print Assumptions C41_wire_skip_overflow_refuted.

Example C41_nonvacuous :
  noskip (TMap TStr (TVec (TOpt (TI W64)))) = true /\ plain_width WIRE_OPTIONS = true /\
  wire_decode ex_plat WIRE_OPTIONS (TMap TStr (TVec (TOpt (TI W64))))
    [130; 65; 97; 129; 129; 193; 7] = Ok (VMap [(VBytes [97], VList [VSome (VZ (-1))])], [7]) /\
  wire_decode ex_plat WIRE_OPTIONS (TMap TStr (TVec (TOpt (TI W64)))) [130; 65; 255; 129; 129; 193] = Err.
Proof. vm_compute. repeat split. Qed.

(** * C42 *)

(** A truncated message is an error, whatever it may be at another length. *)
Theorem C42_wire_prefix_error_partial :
  forall p o t v bs pre ext,
    plain_width o = true -> wf p t -> packs_ok p o t ->
    has_type p t v = true -> wire_encode p o t v = Ok bs -> bytes_ok bs = true ->
    bs = pre ++ ext -> ext <> [] ->
    wire_decode p o t pre = Err.
Proof.
  intros p o t v bs pre ext Hp Hw Hpk Hv He Hb Hs Hx.
  apply (stab_prefix True (fun v => has_type p t v = true) _ bs v pre ext); auto.
  - exact (g_stab (wire p o) p o True t (wire_stab_laws p o Hp) Hw (or_introl I)).
  - rewrite <- (app_nil_r bs). now apply C14_wire_roundtrip_partial.
Qed.
Print Assumptions C42_wire_prefix_error_partial.

(** Two messages that are followed by anything agree only if the values and what follows
    agree. *)
Theorem C42_wire_unambiguous :
  forall p o t v1 v2 b1 b2 r1 r2,
    wf p t -> packs_ok p o t -> has_type p t v1 = true -> has_type p t v2 = true ->
    wire_encode p o t v1 = Ok b1 -> wire_encode p o t v2 = Ok b2 ->
    b1 ++ r1 = b2 ++ r2 -> v1 = v2 /\ r1 = r2.
Proof.
  intros p o t v1 v2 b1 b2 r1 r2 Hw Hp H1 H2 E1 E2 E.
  pose proof (C14_wire_roundtrip_partial p o t v1 b1 r1 Hw Hp H1 E1) as D1.
  pose proof (C14_wire_roundtrip_partial p o t v2 b2 r2 Hw Hp H2 E2) as D2.
  rewrite E, D2 in D1. inversion D1. auto.
Qed.
Print Assumptions C42_wire_unambiguous.

Example C42_nonvacuous :
  bytes_ok ex_wire_bytes = true /\
  wire_decode ex_plat WIRE_OPTIONS ex_ty (firstn 31 ex_wire_bytes) = Err /\
  wire_decode ex_plat WIRE_OPTIONS ex_ty (firstn 6 ex_wire_bytes) = Err.
Proof. vm_compute. repeat split. Qed.
