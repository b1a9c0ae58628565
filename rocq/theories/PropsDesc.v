(** Properties C18-C21, and C40-C42 for the descriptive format. Specifications used:
    [has_type] and [wf] of [Types.v], [StorageSpec.v] and [FmtSpec.v]. *)
From Verif Require Import Base Options Int Utf8 Types Storage StorageSpec Fmt FmtSpec Desc
  BaseFacts IntFacts StorageFacts StabFacts DecFacts FmtFacts FmtSafe FmtStab FmtEvolve FmtCount SkipFacts DescFacts
  PropsInt PropsStorage PropsWire.
Local Open Scope N_scope.

(** * C18 *)

(** Encoding a value of the type succeeds when lengths fit the configured width. *)
Theorem C18_desc_encode_total :
  forall p o t v, lengths_fit p o -> wf p t ->
    has_type p t v = true -> fits p o t v = true ->
    exists bs, descriptive_encode p o t v = Ok bs /\ bytes_ok bs = true.
Proof.
  intros p o t v Hl Hw Hv Hf.
  apply (genc_total (descriptive p o) p o t (desc_tot_laws p o Hl) Hl Hw v).
  now rewrite Hv, Hf.
Qed.
Print Assumptions C18_desc_encode_total.

(** Round trip with exact consumption. Missing: packed structs that the storage format does
    not round-trip ([packs_ok]), see below. *)
Theorem C18_desc_roundtrip_partial :
  forall p o t v bs rest,
    wf p t -> packs_ok p o t -> has_type p t v = true ->
    descriptive_encode p o t v = Ok bs ->
    descriptive_decode p o t (bs ++ rest) = Ok (v, rest).
Proof.
  intros p o t v bs rest Hw Hp Hv He.
  exact (g_roundtrip (descriptive p o) p o t (desc_rt_laws p o) Hw Hp v bs rest Hv
    (fun e => match Bool.diff_false_true e with end) He).
Qed.
Print Assumptions C18_desc_roundtrip_partial.

(** Types without packed structs need no further condition, whatever the options. *)
Theorem C18_desc_roundtrip :
  forall p o t v bs rest,
    wf p t -> packs (fun _ => false) t = true -> has_type p t v = true ->
    descriptive_encode p o t v = Ok bs ->
    descriptive_decode p o t (bs ++ rest) = Ok (v, rest).
Proof.
  exact (fun p o t v bs rest Hw Hp =>
    C18_desc_roundtrip_partial p o t v bs rest Hw (unpacked_ok p o t Hp)).
Qed.
Print Assumptions C18_desc_roundtrip.

Definition ex_desc_bytes : bytes :=
  [131; 193; 110; 194; 195; 169; 193; 109; 130; 229; 128; 236; 7; 225; 89; 172; 2; 229; 97; 224;
   193; 101; 228; 77; 7; 98; 226; 98; 81; 1; 81; 255; 255; 3].

Example C18_desc_nonvacuous :
  wf ex_plat ex_ty /\ packs (fun _ => false) ex_ty = true /\
  has_type ex_plat ex_ty ex_val = true /\ fits ex_plat DESCRIPTIVE_OPTIONS ex_ty ex_val = true /\
  lengths_fit ex_plat DESCRIPTIVE_OPTIONS /\
  descriptive_encode ex_plat DESCRIPTIVE_OPTIONS ex_ty ex_val = Ok ex_desc_bytes /\
  packs_ok ex_plat DESCRIPTIVE_OPTIONS (TVec ex_v2).
Proof.
  split; [exact ex_wf|]. do 5 (split; [vm_compute; first [reflexivity|now left]|]).
  split; [vm_compute; reflexivity|vm_compute; discriminate].
Qed.

(** The missing part is false: a packed struct [{ a: [u8; 4], b: bool }] inside of another
    under native fixed options, as for the storage format. *)
Theorem C18_desc_packed_native_fixed_refuted :
  exists p o t v bs, wf p t /\ byteorder_value o = native_bo p /\ has_type p t v = true /\
    packs (pack_pos (is_native_fixed p o)) t = true /\
    descriptive_encode p o t v = Ok bs /\ descriptive_decode p o t bs <> Ok (v, []).
Proof.
  exists ex_plat, (PACKED_OPTIONS ex_plat),
    (TPack true [(None, TPack true [(None, TArray 4 (TU W8)); (None, TBool)])]),
    (VList [VList [VList [VN 1; VN 2; VN 3; VN 4]; VBool true]]).
  eexists. split.
  { cbn [wf allP map fold_right snd]; repeat split; try reflexivity.
    - intros ft d [<-|[<-|[]]]; discriminate.
    - intros ft d [<-|[]]; discriminate. }
  repeat (split; [vm_compute; first [reflexivity|discriminate]|]). vm_compute. discriminate.
Qed.
Print Assumptions C18_desc_packed_native_fixed_refuted.

(** * C19 *)

(** Skipping passes over exactly the encoding of a value of any type. The
    size condition is that the message with one more byte fits the address space. *)
Theorem C19_desc_skip :
  forall p o t v bs rest,
    wf p t -> has_type p t v = true -> descriptive_encode p o t v = Ok bs ->
    1 + lenN bs < 2 ^ usize_bits p ->
    descriptive_skip p o (bs ++ rest) = Ok (tt, rest).
Proof.
  exact (fun p o t v bs rest Hw =>
    g_skip (descriptive p o) p o (fun _ => true) (dskip_n p o) (desc_skip_laws p o) t v bs rest Hw
      (leaves_all _ t (fun _ => eq_refl))).
Qed.
Print Assumptions C19_desc_skip.

Example C19_desc_nonvacuous :
  1 + lenN ex_desc_bytes < 2 ^ usize_bits ex_plat /\
  descriptive_skip ex_plat DESCRIPTIVE_OPTIONS (ex_desc_bytes ++ [1; 2]) = Ok (tt, [1; 2]).
Proof. vm_compute. repeat split. Qed.

(** * C20 *)

(** A message of type [tW] read at type [tR]: reordered, added and removed struct
    fields and variants, at any depth. [upg] says what the reader gets. *)
Theorem C20_desc_upgrade_partial :
  forall p o tW tR w r bs rest,
    wf p tW -> packs_ok p o tW -> wf p tR ->
    upg tW tR w r -> has_type p tW w = true ->
    descriptive_encode p o tW w = Ok bs -> 1 + lenN bs < 2 ^ usize_bits p ->
    descriptive_decode p o tR (bs ++ rest) = Ok (r, rest).
Proof.
  exact (fun p o tW tR w r bs rest Hw Hp =>
    g_upgrade (descriptive p o) p o (fun _ => true) (dskip_n p o) tW tR w r bs rest
      (desc_rt_laws p o) (desc_skip_laws p o) Hw Hp (leaves_all _ tW (fun _ => eq_refl))).
Qed.
Print Assumptions C20_desc_upgrade_partial.

(** Without packed structs, for every pair of types. *)
Theorem C20_desc_upgrade :
  forall p o tW tR w r bs rest,
    packs (fun _ => false) tW = true ->
    wf p tW -> wf p tR -> upg tW tR w r -> has_type p tW w = true ->
    descriptive_encode p o tW w = Ok bs -> 1 + lenN bs < 2 ^ usize_bits p ->
    descriptive_decode p o tR (bs ++ rest) = Ok (r, rest).
Proof.
  exact (fun p o tW tR w r bs rest Hp Hw =>
    C20_desc_upgrade_partial p o tW tR w r bs rest Hw (unpacked_ok p o tW Hp)).
Qed.
Print Assumptions C20_desc_upgrade.

(** A field that the reader requires and that was not written is an error. *)
Theorem C20_desc_missing_field :
  forall p o kt fsW fsR ws ss bs rest,
    wf p (TStruct kt fsW) -> packs_ok p o (TStruct kt fsW) ->
    wf p (TStruct kt fsR) -> has_type p (TStruct kt fsW) (VList ws) = true ->
    Forall2 (read_slot fsW ws) fsR ss ->
    (exists i fr, nth_error fsR i = Some fr /\ nth_error ss i = Some None /\ fdefault (fst fr) = None) ->
    descriptive_encode p o (TStruct kt fsW) (VList ws) = Ok bs -> 1 + lenN bs < 2 ^ usize_bits p ->
    descriptive_decode p o (TStruct kt fsR) (bs ++ rest) = Err.
Proof.
  exact (fun p o kt fsW fsR ws ss bs rest Hw Hp =>
    g_missing (descriptive p o) p o (fun _ => true) (dskip_n p o) kt fsW fsR ws ss bs rest
      (desc_rt_laws p o) (desc_skip_laws p o) Hw Hp (leaves_all _ _ (fun _ => eq_refl))).
Qed.
Print Assumptions C20_desc_missing_field.

(** A variant that the reader does not have is an error. *)
Theorem C20_desc_unknown_variant :
  forall p o fW fR kt vsW vsR i k t w bs rest,
    wf p (TEnum fW kt vsW) -> packs_ok p o (TEnum fW kt vsW) ->
    nth_error vsW i = Some (k, t) -> ~ In k (map fst vsR) ->
    descriptive_encode p o (TEnum fW kt vsW) (VVar i w) = Ok bs ->
    descriptive_decode p o (TEnum fR kt vsR) (bs ++ rest) = Err.
Proof.
  exact (fun p o fW fR kt vsW vsR i k t w bs rest =>
    g_unknown_variant (descriptive p o) p o fW fR kt vsW vsR i k t w bs rest (desc_rt_laws p o)).
Qed.
Print Assumptions C20_desc_unknown_variant.

Example C20_desc_nonvacuous :
  wf ex_plat ex_ty /\ wf ex_plat ex_reader /\ upg ex_ty ex_reader ex_val ex_read /\
  descriptive_decode ex_plat DESCRIPTIVE_OPTIONS ex_reader ex_desc_bytes = Ok (ex_read, []).
Proof.
  split; [exact ex_wf|]. split; [exact ex_reader_wf|]. split; [exact ex_upg|].
  vm_compute; reflexivity.
Qed.

(** * C21 *)

(** An integer written at one width and signedness reads at another as the same number
    if it is in range there. Missing: a signed integer that an unsigned type of the
    same width or less can only represent with its highest bit (refuted below). *)
Theorem C21_desc_convert_partial :
  forall p o t s w t' s' w' z bs rest,
    int_ty p t = Some (s, w) -> int_ty p t' = Some (s', w') ->
    in_range s w z -> in_range s' w' z ->
    (s = true -> s' = false -> (z < 2 ^ (Z.of_N w' - 1))%Z) ->
    descriptive_encode p o t (int_val s z) = Ok bs ->
    descriptive_decode p o t' (bs ++ rest) = Ok (int_val s' z, rest).
Proof. exact convert. Qed.
Print Assumptions C21_desc_convert_partial.

(** An integer that the other signedness cannot represent is an error, as long as it fits
    the bits of the other type. *)
Theorem C21_desc_reject_partial :
  forall p o t s w t' s' w' z bs rest,
    int_ty p t = Some (s, w) -> int_ty p t' = Some (s', w') ->
    in_range s w z -> ~ in_range s' w' z -> (0 < z -> z < 2 ^ Z.of_N w')%Z -> s <> s' ->
    (z < 0 -> - 2 ^ (Z.of_N w' - 1) <= z)%Z ->
    descriptive_encode p o t (int_val s z) = Ok bs ->
    descriptive_decode p o t' (bs ++ rest) = Err.
Proof. exact convert_reject. Qed.
Print Assumptions C21_desc_reject_partial.

Example C21_nonvacuous :
  descriptive_encode ex_plat DESCRIPTIVE_OPTIONS (TI W64) (VZ (-100)) = Ok [88; 199; 1] /\
  descriptive_decode ex_plat DESCRIPTIVE_OPTIONS (TI W8) [88; 199; 1] = Ok (VZ (-100), []) /\
  in_range true 64 (-100)%Z /\ in_range true 8 (-100)%Z /\ ~ in_range false 8 (-100)%Z /\
  descriptive_decode ex_plat DESCRIPTIVE_OPTIONS (TU W8) [88; 199; 1] = Err /\
  descriptive_encode ex_plat DESCRIPTIVE_OPTIONS (TU W8) (VN 200) = Ok [77; 200; 1] /\
  descriptive_decode ex_plat DESCRIPTIVE_OPTIONS TIsize [77; 200; 1] = Ok (VZ 200, []) /\
  descriptive_decode ex_plat DESCRIPTIVE_OPTIONS (TI W8) [77; 200; 1] = Err.
Proof.
  split; [vm_compute; reflexivity|]. split; [vm_compute; reflexivity|].
  split; [cbn; lia|]. split; [cbn; lia|]. split; [cbn; lia|]. vm_compute. repeat split.
Qed.

(** Missing above and false: 300 reads as 44 at [u8] instead of an error. *)
Theorem C21_desc_truncates_refuted :
  exists p t w t' w' z bs z', int_ty p t = Some (false, w) /\ int_ty p t' = Some (false, w') /\
    in_range false w z /\ ~ in_range false w' z /\
    descriptive_encode p DESCRIPTIVE_OPTIONS t (int_val false z) = Ok bs /\
    descriptive_decode p DESCRIPTIVE_OPTIONS t' bs = Ok (int_val false z', []).
Proof.
  exists ex_plat, (TU W32), 32, (TU W8), 8, 300%Z, [85; 172; 2], 44%Z.
  repeat (split; [first [reflexivity|cbn; lia]|]). vm_compute. reflexivity.
Qed.
Print Assumptions C21_desc_truncates_refuted.

(** A signed 200 reads as 72 at [u8], although it is in range. *)
Theorem C21_desc_signed_to_unsigned_refuted :
  exists p t w t' w' z bs z', int_ty p t = Some (true, w) /\ int_ty p t' = Some (false, w') /\
    in_range true w z /\ in_range false w' z /\
    descriptive_encode p DESCRIPTIVE_OPTIONS t (int_val true z) = Ok bs /\
    descriptive_decode p DESCRIPTIVE_OPTIONS t' bs = Ok (int_val false z', []) /\ z' <> z.
Proof.
  exists ex_plat, (TI W16), 16, (TU W8), 8, 200%Z, [80; 144; 3], 72%Z.
  do 5 (split; [first [reflexivity|cbn; lia]|]). split; [vm_compute; reflexivity|lia].
Qed.
Print Assumptions C21_desc_signed_to_unsigned_refuted.

(** * C40 *)

Theorem C40_desc_array_count :
  forall p o n t vs bs rest,
    wf p t -> packs_ok p o t -> has_type p (TVec t) (VList vs) = true ->
    descriptive_encode p o (TVec t) (VList vs) = Ok bs ->
    descriptive_decode p o (TArray n t) (bs ++ rest) =
      if lenN vs =? n then Ok (VList vs, rest) else Err.
Proof. exact (fun p o n t vs bs rest => g_array_count (descriptive p o) p o n t vs bs rest (desc_rt_laws p o)). Qed.
Print Assumptions C40_desc_array_count.

(** Whatever bytes follow the announced count. *)
Theorem C40_desc_array_wrong_count :
  forall p o n t m l body, m < 2 ^ usize_bits p -> dlen_enc p o DSequence m = Ok l -> m <> n ->
    forall v r, descriptive_decode p o (TArray n t) (l ++ body) <> Ok (v, r).
Proof. exact (fun p o n t m l body => g_array_wrong (descriptive p o) p o n t m l body (desc_rt_laws p o)). Qed.
Print Assumptions C40_desc_array_wrong_count.

Theorem C40_desc_tuple_short :
  forall p o ts m l body, m < 2 ^ usize_bits p -> dlen_enc p o DSequence m = Ok l -> m < lenN ts ->
    forall v r, descriptive_decode p o (TTup ts) (l ++ body) <> Ok (v, r).
Proof. exact (fun p o ts m l body => g_tuple_short (descriptive p o) p o ts m l body (desc_rt_laws p o)). Qed.
Print Assumptions C40_desc_tuple_short.

(** A longer tuple is not rejected. Of the additional elements only the first is skipped: the
    others are left in front of the next value. *)
Theorem C40_desc_tuple_long_refuted :
  exists p ts ts' v v' v3 bs b3, wf p (TTup ts) /\ wf p (TTup ts') /\ lenN ts < lenN ts' /\
    has_type p (TTup ts') v = true /\
    descriptive_encode p DESCRIPTIVE_OPTIONS (TTup ts') v = Ok bs /\
    descriptive_encode p DESCRIPTIVE_OPTIONS TStr v3 = Ok b3 /\ b3 <> [] /\
    descriptive_decode p DESCRIPTIVE_OPTIONS (TTup ts) bs = Ok (v', b3).
Proof.
  exists ex_plat, [TU W16], [TU W16; TBool; TStr], (VList [VN 600; VBool true; VBytes [65]]),
    (VList [VN 600]), (VBytes [65]).
  eexists. eexists. split; [cbn [wf allP map fold_right]; repeat split; reflexivity|].
  split; [cbn [wf allP map fold_right]; repeat split; reflexivity|].
  do 4 (split; [vm_compute; reflexivity|]). split; [discriminate|]. vm_compute. reflexivity.
Qed.
Print Assumptions C40_desc_tuple_long_refuted.

Example C40_desc_nonvacuous :
  descriptive_encode ex_plat DESCRIPTIVE_OPTIONS (TVec (TU W16)) (VList [VN 5; VN 600]) = Ok [98; 81; 5; 81; 216; 4] /\
  descriptive_decode ex_plat DESCRIPTIVE_OPTIONS (TArray 2 (TU W16)) [98; 81; 5; 81; 216; 4] = Ok (VList [VN 5; VN 600], []) /\
  descriptive_decode ex_plat DESCRIPTIVE_OPTIONS (TArray 1 (TU W16)) [98; 81; 5; 81; 216; 4] = Err /\
  descriptive_decode ex_plat DESCRIPTIVE_OPTIONS (TTup [TU W16; TU W16; TBool]) [98; 81; 5; 81; 216; 4] = Err.
Proof. vm_compute. repeat split. Qed.

(** * C41 *)

(** Whatever the bytes: an error, or a value of the type and a suffix of the input, or the
    overflow check of [skip]. *)
Theorem C41_desc_decode_typed :
  forall p o t bs, wf p t -> bytes_ok bs = true ->
    match descriptive_decode p o t bs with
    | Ok (v, rest) => has_type p t v = true /\ exists used, bs = used ++ rest
    | _ => True
    end.
Proof.
  intros p o t bs Hw Hb.
  pose proof (g_stab (descriptive p o) p o True t (desc_stab_laws p o) Hw (or_introl I) bs [] Hb) as H.
  unfold descriptive_decode. destruct (gdec _ p o t bs) as [[v r]| |]; auto. tauto.
Qed.
Print Assumptions C41_desc_decode_typed.

(** No panic for types whose decoding skips nothing. *)
Theorem C41_desc_no_panic_partial :
  forall p o t bs, wf p t -> noskip t = true -> bytes_ok bs = true ->
    descriptive_decode p o t bs <> Panic.
Proof.
  intros p o t bs Hw Hn Hb E.
  pose proof (g_stab (descriptive p o) p o False t (desc_stab_laws p o) Hw (or_intror Hn) bs [] Hb) as H.
  unfold descriptive_decode in E. rewrite E in H. tauto.
Qed.
Print Assumptions C41_desc_no_panic_partial.

(** Missing and false (in a build with overflow checks): nested sequences that announce
    [usize::MAX] elements overflow the counter of [skip]. *)
Theorem C41_desc_skip_overflow_refuted :
  exists p t bs, wf p t /\ bytes_ok bs = true /\ descriptive_decode p DESCRIPTIVE_OPTIONS t bs = Panic.
Proof.
  exists ex_plat, TUnit,
    [99; 127; 255; 255; 255; 255; 255; 255; 255; 255; 255; 1].
  split; [exact I|]. split; vm_compute; reflexivity.
Qed.
Print Assumptions C41_desc_skip_overflow_refuted.

Example C41_desc_nonvacuous :
  noskip (TMap TStr (TVec (TOpt (TI W64)))) = true /\
  descriptive_decode ex_plat DESCRIPTIVE_OPTIONS (TMap TStr (TVec (TOpt (TI W64))))
    [129; 193; 97; 97; 225; 88; 1; 7] = Ok (VMap [(VBytes [97], VList [VSome (VZ (-1))])], [7]) /\
  descriptive_decode ex_plat DESCRIPTIVE_OPTIONS (TMap TStr (TVec (TOpt (TI W64)))) [129; 193; 255; 97; 225; 88; 1] = Err.
Proof. vm_compute. repeat split. Qed.

(** * C42 *)

(** A truncated message is an error, whatever it may be at another length. *)
Theorem C42_desc_prefix_error_partial :
  forall p o t v bs pre ext,
    wf p t -> packs_ok p o t ->
    has_type p t v = true -> descriptive_encode p o t v = Ok bs -> bytes_ok bs = true ->
    bs = pre ++ ext -> ext <> [] ->
    descriptive_decode p o t pre = Err.
Proof.
  intros p o t v bs pre ext Hw Hpk Hv He Hb Hs Hx.
  apply (stab_prefix True (fun v => has_type p t v = true) _ bs v pre ext); auto.
  - exact (g_stab (descriptive p o) p o True t (desc_stab_laws p o) Hw (or_introl I)).
  - rewrite <- (app_nil_r bs). now apply C18_desc_roundtrip_partial.
Qed.
Print Assumptions C42_desc_prefix_error_partial.

(** Two messages that are followed by anything agree only if the values and what follows
    agree. *)
Theorem C42_desc_unambiguous :
  forall p o t v1 v2 b1 b2 r1 r2,
    wf p t -> packs_ok p o t -> has_type p t v1 = true -> has_type p t v2 = true ->
    descriptive_encode p o t v1 = Ok b1 -> descriptive_encode p o t v2 = Ok b2 ->
    b1 ++ r1 = b2 ++ r2 -> v1 = v2 /\ r1 = r2.
Proof.
  intros p o t v1 v2 b1 b2 r1 r2 Hw Hp H1 H2 E1 E2 E.
  pose proof (C18_desc_roundtrip_partial p o t v1 b1 r1 Hw Hp H1 E1) as D1.
  pose proof (C18_desc_roundtrip_partial p o t v2 b2 r2 Hw Hp H2 E2) as D2.
  rewrite E, D2 in D1. inversion D1. auto.
Qed.
Print Assumptions C42_desc_unambiguous.

Example C42_desc_nonvacuous :
  bytes_ok ex_desc_bytes = true /\
  descriptive_decode ex_plat DESCRIPTIVE_OPTIONS ex_ty (firstn 33 ex_desc_bytes) = Err /\
  descriptive_decode ex_plat DESCRIPTIVE_OPTIONS ex_ty (firstn 6 ex_desc_bytes) = Err.
Proof. vm_compute. repeat split. Qed.
