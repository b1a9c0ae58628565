(** Properties C59-C61: dynamic values in the formats, and decoding through a buffer.
    Specifications used: [has_type] and [wf] of [Types.v], [FmtSpec.v], [ValueSpec.v] and
    [AnySpec.v]. *)
From Verif Require Import Base Options Int Utf8 Types Storage StorageSpec Fmt FmtSpec Wire Desc Value ValueSpec Any AnySpec
  BaseFacts IntFacts StorageFacts FmtFacts FmtSafe DescFacts StabFacts ValueFacts AnyFacts PropsInt PropsStorage PropsValue.
Local Open Scope N_scope.

(** * C59 *)

(** What descriptive::encode writes decodes through a buffer as it does directly, using up
    exactly its bytes. Missing: packed structs when the options are not the default ones, see
    below. *)
Theorem C59_buffered_partial :
  forall p o t v bs rest, wf p t -> buf_ok p o t -> has_type p t v = true ->
    descriptive_encode p o t v = Ok bs ->
    desc_decode_buffered p o t (bs ++ rest) = Ok (v, rest).
Proof.
  intros p o t v bs rest Hw Hb Hv He.
  assert (Hbd : bufd p o BUFFER_OPTIONS t).
  { destruct Hb as [Hb|[Ho Hp]]; [now left|right]. split; [assumption|]. split; [assumption|]. subst. left. reflexivity. }
  destruct (as_value_all (descriptive p o) p o BUFFER_OPTIONS ltac:(reflexivity) ltac:(reflexivity) ltac:(reflexivity) t Hw v bs Hv He)
    as (x & Ex & HB & _).
  destruct (HB Hbd) as [Hx HR]. destruct (dany_rt p o x bs Hx Ex) as [_ Hd].
  unfold desc_decode_buffered, desc_decode_value. rewrite Hd by (rewrite app_length; lia). cbn [bind].
  rewrite (HR false false). reflexivity.
Qed.
Print Assumptions C59_buffered_partial.

(** Any input: a value of the type and a suffix of the input, or an error. *)
Theorem C59_safe :
  forall p o t bs, wf p t -> bytes_ok bs = true ->
    match desc_decode_buffered p o t bs with
    | Ok (v, r) => has_type p t v = true /\ exists used, bs = used ++ r
    | Err => True
    | Panic => False
    end.
Proof.
  intros p o t bs Hw Hok. unfold desc_decode_buffered.
  pose proof (dany_stab p o (length bs) bs [] Hok) as H. unfold desc_decode_value.
  destruct (dany (length bs) p o bs) as [[x r]| |]; cbn [bind]; try exact Logic.I; [|destruct H; contradiction].
  destruct H as (Hx & Hu & _). pose proof (vdec_safe p BUFFER_OPTIONS false t Hw false x Hx) as Hs.
  destruct (vdec p BUFFER_OPTIONS false false t x) as [v| |]; cbn [bind]; try exact Logic.I; [|contradiction].
  now split.
Qed.
Print Assumptions C59_safe.

Definition ex_desc_bytes : bytes :=
  match descriptive_encode ex_plat DESCRIPTIVE_OPTIONS ex_ty ex_val with Ok b => b | _ => [] end.

Example C59_nonvacuous :
  wf ex_plat ex_ty /\ unpacked ex_ty = true /\ has_type ex_plat ex_ty ex_val = true /\
  descriptive_encode ex_plat DESCRIPTIVE_OPTIONS ex_ty ex_val = Ok ex_desc_bytes /\ length ex_desc_bytes = 34%nat /\
  buf_ok ex_plat BUFFER_OPTIONS (TVec ex_v2) /\ unpacked (TVec ex_v2) = false /\
  bytes_ok (ex_desc_bytes ++ [1; 2]) = true /\
  desc_decode_buffered ex_plat DESCRIPTIVE_OPTIONS ex_ty (ex_desc_bytes ++ [1; 2]) = Ok (ex_val, [1; 2]).
Proof.
  split; [exact ex_wf|]. split; [reflexivity|]. split; [reflexivity|]. split; [vm_compute; reflexivity|].
  split; [vm_compute; reflexivity|]. split.
  - right. split; [reflexivity|]. split; [reflexivity|vm_compute; discriminate].
  - split; [reflexivity|]. split; vm_compute; reflexivity.
Qed.

(** The options of the buffer are constants, so a packed struct that was written with other options
    decodes directly but through a buffer it is another value. *)
Theorem C59_options_refuted :
  exists p o t v v' bs, wf p t /\ packs_ok p o t /\ has_type p t v = true /\
    descriptive_encode p o t v = Ok bs /\ descriptive_decode p o t bs = Ok (v, []) /\
    desc_decode_buffered p o t bs = Ok (v', []) /\ v' <> v.
Proof.
  exists ex_plat, (build ex_plat [CInteger IFixed]), (TPack false [(None, TU W16)]), (VList [VN 258]), (VList [VN 2]), [162; 2; 1].
  split; [cbn; repeat split; intros ft d [<-|[]]; discriminate|].
  split; [split; [reflexivity|vm_compute; discriminate]|].
  repeat split; try (vm_compute; reflexivity). discriminate.
Qed.
Print Assumptions C59_options_refuted.

(** * C60 *)

(** Any dynamic value is written in the descriptive format and read back with [usize] and [isize]
    as the integer types of the same width: as the same value if it has none of these. *)
Theorem C60_value_partial :
  forall p o x, value_ok p x -> lengths_fit p o ->
    exists bs, desc_encode_value p o x = Ok bs /\ bytes_ok bs = true /\
      forall rest, desc_decode_value p o (bs ++ rest) = Ok (norm p x, rest) /\
                   (sized x = true -> desc_decode_value p o (bs ++ rest) = Ok (x, rest)).
Proof.
  intros p o x Hx Hl. destruct (desc_value_total p o x Hl Hx) as [bs [E Ob]]. exists bs.
  split; [exact E|]. split; [exact Ob|]. intros rest.
  assert (Hd : desc_decode_value p o (bs ++ rest) = Ok (norm p x, rest)).
  { apply (dany_rt p o x bs Hx E). rewrite app_length. lia. }
  split; [exact Hd|]. intros Hs. now rewrite Hd, norm_sized.
Qed.
Print Assumptions C60_value_partial.

(** Any input reads as a proper value, from a prefix of it, or is an error. *)
Theorem C60_safe :
  forall p o bs, bytes_ok bs = true ->
    match desc_decode_value p o bs with
    | Ok (x, r) => value_ok p x /\ exists used, bs = used ++ r
    | Err => True
    | Panic => False
    end.
Proof.
  intros p o bs Hok. pose proof (dany_stab p o (length bs) bs [] Hok) as H. unfold desc_decode_value.
  destruct (dany (length bs) p o bs) as [[x r]| |]; try exact Logic.I; intuition.
Qed.
Print Assumptions C60_safe.

(** Bytes that follow do not change the value that is read, and a truncated value is an error. *)
Theorem C60_prefix :
  forall p o bs ext, bytes_ok bs = true -> bytes_ok ext = true ->
    (forall x r, desc_decode_value p o bs = Ok (x, r) -> desc_decode_value p o (bs ++ ext) = Ok (x, r ++ ext)) /\
    (forall x, desc_decode_value p o (bs ++ ext) = Ok (x, []) -> ext <> [] -> desc_decode_value p o bs = Err).
Proof.
  intros p o bs ext Hb He. split; [intros x r; now apply value_more|].
  intros x H Hne. destruct (desc_decode_value p o bs) as [[y r]| |] eqn:E; [|reflexivity|].
  - apply (value_more p o bs ext) in E; try assumption. rewrite H in E. inversion E.
    symmetry in H2. apply app_eq_nil in H2. intuition.
  - pose proof (C60_safe p o bs Hb) as Hs. now rewrite E in Hs.
Qed.
Print Assumptions C60_prefix.

Definition ex_sized : value :=
  USeq [UVariant (UStr [195; 169]) (UMap [(UNum (NI W128 (-5)), UOpt (Some (UNum (NF32 2143289344))))]); UUnit; UBytes [1; 2]].

Example C60_nonvacuous :
  value_ok ex_plat ex_value /\ sized ex_value = false /\ value_ok ex_plat ex_sized /\ sized ex_sized = true /\
  lengths_fit ex_plat DESCRIPTIVE_OPTIONS /\
  exists bs, desc_encode_value ex_plat DESCRIPTIVE_OPTIONS ex_sized = Ok bs /\ length bs = 19%nat /\
    desc_decode_value ex_plat DESCRIPTIVE_OPTIONS bs = Ok (ex_sized, []) /\
    desc_decode_value ex_plat DESCRIPTIVE_OPTIONS (firstn 18 bs) = Err.
Proof.
  split; [repeat first [reflexivity | constructor]|]. split; [reflexivity|].
  split; [repeat first [reflexivity | constructor]|]. split; [reflexivity|]. split; [left; reflexivity|].
  eexists. split; [vm_compute; reflexivity|]. repeat split; vm_compute; reflexivity.
Qed.

(** A [usize] comes back as a [u64], which is another [Value]. *)
Theorem C60_usize_refuted :
  exists p o x x' bs, value_ok p x /\ desc_encode_value p o x = Ok bs /\
    desc_decode_value p o bs = Ok (x', []) /\ x' <> x.
Proof.
  exists ex_plat, DESCRIPTIVE_OPTIONS, (UNum (NUsize 5)), (UNum (NU W64 5)). eexists.
  split; [constructor; reflexivity|]. split; [vm_compute; reflexivity|]. split; [vm_compute; reflexivity|]. discriminate.
Qed.
Print Assumptions C60_usize_refuted.

(** * C61 *)

(** A dynamic value is written as the value it was made from: the same bytes, in the wire and the
    descriptive format. Missing: types with empty elements in options or sequences ([keeps]), and
    packed structs when the options of the format are not the default ones. *)
Theorem C61_transparent_partial :
  forall p o t v x bs, wf p t -> keeps t = true -> (unpacked t = true \/ o = VALUE_OPTIONS) ->
    has_type p t v = true -> value_encode p t v = Ok x ->
    (wire_encode p o t v = Ok bs -> wire_encode_value p o x = Ok bs) /\
    (descriptive_encode p o t v = Ok bs -> desc_encode_value p o x = Ok bs).
Proof.
  intros p o t v x bs Hw Hk Hs Hv Hx.
  assert (Hsame : same o VALUE_OPTIONS t) by (destruct Hs; [now left|now right]).
  unfold value_encode in Hx. apply bind_ok in Hx. destruct Hx as [w [Ew Ex]]. injection Ex as Ex.
  split; intros He.
  - destruct (as_value_all (wire p o) p o VALUE_OPTIONS ltac:(reflexivity) ltac:(reflexivity) ltac:(reflexivity) t Hw v bs Hv He)
      as (y & Ey & _ & HK). destruct (HK Hk Hsame) as (w' & Ew' & _ & Hy).
    assert (w' = w) by congruence. subst. exact Ey.
  - destruct (as_value_all (descriptive p o) p o VALUE_OPTIONS ltac:(reflexivity) ltac:(reflexivity) ltac:(reflexivity) t Hw v bs Hv He)
      as (y & Ey & _ & HK). destruct (HK Hk Hsame) as (w' & Ew' & _ & Hy).
    assert (w' = w) by congruence. subst. exact Ey.
Qed.
Print Assumptions C61_transparent_partial.

Example C61_nonvacuous :
  wf ex_plat ex_ty /\ keeps ex_ty = true /\ unpacked ex_ty = true /\ has_type ex_plat ex_ty ex_val = true /\
  value_encode ex_plat ex_ty ex_val = Ok ex_value /\
  (exists bs, wire_encode ex_plat WIRE_OPTIONS ex_ty ex_val = Ok bs /\ length bs = 32%nat) /\
  descriptive_encode ex_plat DESCRIPTIVE_OPTIONS ex_ty ex_val = Ok ex_desc_bytes.
Proof.
  split; [exact ex_wf|]. repeat (split; [reflexivity|]).
  split; [|vm_compute; reflexivity]. eexists. split; vm_compute; reflexivity.
Qed.

(** Empty elements are lost on the way. *)
Theorem C61_empty_refuted :
  exists p o t v x bs bs', wf p t /\ has_type p t v = true /\ value_encode p t v = Ok x /\
    descriptive_encode p o t v = Ok bs /\ desc_encode_value p o x = Ok bs' /\ bs <> bs'.
Proof.
  exists ex_plat, DESCRIPTIVE_OPTIONS, (TVec TUnit), (VList [VUnit; VUnit]), (USeq []). eexists. eexists.
  repeat split; try (vm_compute; reflexivity). discriminate.
Qed.
Print Assumptions C61_empty_refuted.
