(** Property C49: what is accepted is what would be written. Specification used: [rigid] of
    [StorageSpec.v], [OptionsSpec]. *)
From Verif Require Import Base Options Int Utf8 Types Storage Fmt Wire Desc IntSpec StorageSpec BaseFacts IntFacts
  CanonFacts PropsInt PropsStorage.
Local Open Scope N_scope.

(** * C49 *)

(** With fixed-width integers and lengths, a message that the storage decoder accepts is the message that
    the encoder writes for the value, byte for byte. [is_native_fixed]: see C09; missing: the native
    fixed options. *)
Theorem C49_storage_canonical_partial :
  forall p o t bs v rest,
    integer_value o = IFixed -> length_value o <> WVariable -> is_native_fixed p o = false ->
    rigid false t = true -> bytes_ok bs = true ->
    storage_decode p o t bs = Ok (v, rest) ->
    exists pre, bs = pre ++ rest /\ storage_encode p o t v = Ok pre.
Proof. exact (fun p o t bs v rest Hi Hl Hn R Hb E => storage_canon p o Hi Hl Hn t false R bs v rest Hb E). Qed.
Print Assumptions C49_storage_canonical_partial.

(** The same for the packed encoding. *)
Theorem C49_packed_canonical_partial :
  forall p o t bs v rest,
    integer_value o = IFixed -> length_value o <> WVariable -> is_native_fixed p o = false ->
    rigid true t = true -> bytes_ok bs = true ->
    packed_decode p o t bs = Ok (v, rest) ->
    exists pre, bs = pre ++ rest /\ packed_encode p o t v = Ok pre.
Proof. exact (fun p o t bs v rest Hi Hl Hn R Hb E => storage_canon p o Hi Hl Hn t true R bs v rest Hb E). Qed.
Print Assumptions C49_packed_canonical_partial.

(** So no two messages decode to the same value. *)
Theorem C49_storage_one_message_partial :
  forall p o t m1 m2 v,
    integer_value o = IFixed -> length_value o <> WVariable -> is_native_fixed p o = false ->
    rigid false t = true -> bytes_ok m1 = true -> bytes_ok m2 = true ->
    storage_decode p o t m1 = Ok (v, []) -> storage_decode p o t m2 = Ok (v, []) ->
    m1 = m2.
Proof.
  intros p o t m1 m2 v Hi Hl Hn R B1 B2 E1 E2.
  destruct (storage_canon p o Hi Hl Hn t false R m1 v [] B1 E1) as (a & -> & Ea).
  destruct (storage_canon p o Hi Hl Hn t false R m2 v [] B2 E2) as (b & -> & Eb). congruence.
Qed.
Print Assumptions C49_storage_one_message_partial.

Definition ex_rigid : ty :=
  TTup [TBool; TVec (TI W16); TEnum false (TU W8) [(VN 0, TUnit); (VN 7, TStr)];
        TPack false [(None, TChar); (None, TOpt (TU W32))]].

Example C49_nonvacuous :
  let o := build ex_plat [CFixed; CByteOrder Big; CPointer WU32] in
  integer_value o = IFixed /\ length_value o = WU32 /\ is_native_fixed ex_plat o = false /\
  rigid false ex_rigid = true /\
  storage_decode ex_plat o ex_rigid
    [0;0;0;4; 1; 0;0;0;1; 255;254; 7; 0;0;0;1; 65; 0;0;0;66; 0;0;0;9]
  = Ok (VList [VBool true; VList [VZ (-2)]; VVar 1 (VBytes [65]); VList [VN 66; VSome (VN 9)]], []) /\
  (* a bool other than 0 and 1 *)
  storage_decode ex_plat o TBool [2] = Err.
Proof. vm_compute. repeat split. Qed.

(** A bool is the byte 0 or 1, whatever the options. *)
Theorem C49_storage_bool :
  forall p o bs v rest,
    storage_decode p o TBool bs = Ok (v, rest) <->
    (bs = 0 :: rest /\ v = VBool false) \/ (bs = 1 :: rest /\ v = VBool true).
Proof.
  intros p o bs v rest. unfold storage_decode. cbn [dec_]. split.
  - intros E. apply bind_ok in E. destruct E as ([x r] & E0 & E). destruct bs as [|b bs]; [discriminate|].
    injection E0 as -> ->. destruct x as [|[]]; try discriminate; injection E as <- <-; auto.
  - intros [[-> ->]|[-> ->]]; reflexivity.
Qed.
Print Assumptions C49_storage_bool.

(** The same for the other binary formats, each with its own two tags. *)
Theorem C49_wire_bool :
  forall p o bs v rest,
    wire_decode p o TBool bs = Ok (v, rest) <->
    (bs = 192 :: rest /\ v = VBool false) \/ (bs = 193 :: rest /\ v = VBool true).
Proof.
  intros p o bs v rest. unfold wire_decode. cbn [gdec wire f_leaf_dec wleaf_dec]. split.
  - intros E. apply bind_ok in E. destruct E as ([x r] & E0 & E). destruct bs as [|b bs]; [discriminate|].
    injection E0 as -> ->. change (wtag Continuation 0) with 192 in E. change (wtag Continuation 1) with 193 in E.
    destruct (N.eqb_spec x 192) as [->|]; [injection E as <- <-; auto|].
    destruct (N.eqb_spec x 193) as [->|]; [injection E as <- <-; auto|discriminate].
  - intros [[-> ->]|[-> ->]]; reflexivity.
Qed.
Print Assumptions C49_wire_bool.

Theorem C49_wire_option :
  forall p o t bs v rest,
    wire_decode p o (TOpt t) bs = Ok (v, rest) <->
    (bs = 128 :: rest /\ v = VNone) \/
    (exists bs' x, bs = 129 :: bs' /\ v = VSome x /\ wire_decode p o t bs' = Ok (x, rest)).
Proof.
  intros p o t bs v rest. unfold wire_decode. cbn [gdec wire f_opt_dec]. split.
  - intros E. apply bind_ok in E. destruct E as ([x r] & E0 & E).
    apply bind_ok in E0. destruct E0 as ([y r0] & E1 & E0).
    destruct bs as [|b bs]; [discriminate|]. injection E1 as -> ->.
    change (wtag Sequence 0) with 128 in E0. change (wtag Sequence 1) with 129 in E0.
    destruct (N.eqb_spec y 128) as [->|]; [injection E0 as <- <-; injection E as <- <-; auto|].
    destruct (N.eqb_spec y 129) as [->|]; [injection E0 as <- <-|discriminate].
    apply bind_ok in E. destruct E as ([z r1] & E2 & E). injection E as <- <-.
    right. exists r0, z. auto.
  - intros [[-> ->]|(bs' & x & -> & -> & E)]; [reflexivity|]. cbn [read_byte bind].
    change (129 =? wtag Sequence 0) with false. change (129 =? wtag Sequence 1) with true. cbn [bind].
    rewrite E. reflexivity.
Qed.
Print Assumptions C49_wire_option.

Theorem C49_desc_bool :
  forall p o bs v rest,
    descriptive_decode p o TBool bs = Ok (v, rest) <->
    (bs = 227 :: rest /\ v = VBool false) \/ (bs = 226 :: rest /\ v = VBool true).
Proof.
  intros p o bs v rest. unfold descriptive_decode. cbn [gdec descriptive f_leaf_dec dleaf_dec]. split.
  - intros E. apply bind_ok in E. destruct E as ([x r] & E0 & E). destruct bs as [|b bs]; [discriminate|].
    injection E0 as -> ->. change (dtag DMark M_FALSE) with 227 in E. change (dtag DMark M_TRUE) with 226 in E.
    destruct (N.eqb_spec x 227) as [->|]; [injection E as <- <-; auto|].
    destruct (N.eqb_spec x 226) as [->|]; [injection E as <- <-; auto|discriminate].
  - intros [[-> ->]|[-> ->]]; reflexivity.
Qed.
Print Assumptions C49_desc_bool.

Theorem C49_desc_option :
  forall p o t bs v rest,
    descriptive_decode p o (TOpt t) bs = Ok (v, rest) <->
    (bs = 224 :: rest /\ v = VNone) \/
    (exists bs' x, bs = 225 :: bs' /\ v = VSome x /\ descriptive_decode p o t bs' = Ok (x, rest)).
Proof.
  intros p o t bs v rest. unfold descriptive_decode. cbn [gdec descriptive f_opt_dec]. split.
  - intros E. apply bind_ok in E. destruct E as ([x r] & E0 & E).
    apply bind_ok in E0. destruct E0 as ([y r0] & E1 & E0).
    destruct bs as [|b bs]; [discriminate|]. injection E1 as -> ->.
    change (dtag DMark M_NONE) with 224 in E0. change (dtag DMark M_SOME) with 225 in E0.
    destruct (N.eqb_spec y 224) as [->|]; [injection E0 as <- <-; injection E as <- <-; auto|].
    destruct (N.eqb_spec y 225) as [->|]; [injection E0 as <- <-|discriminate].
    apply bind_ok in E. destruct E as ([z r1] & E2 & E). injection E as <- <-.
    right. exists r0, z. auto.
  - intros [[-> ->]|(bs' & x & -> & -> & E)]; [reflexivity|]. cbn [read_byte bind].
    change (225 =? dtag DMark M_NONE) with false. change (225 =? dtag DMark M_SOME) with true. cbn [bind].
    rewrite E. reflexivity.
Qed.
Print Assumptions C49_desc_option.

(** Exceptions. Variable-width integers have several encodings, and in the storage format every marker
    but 1 is an absent value. *)
Theorem C49_variable_refuted :
  exists p o m1 m2 v, m1 <> m2 /\
    storage_decode p o (TU W32) m1 = Ok (v, []) /\ storage_decode p o (TU W32) m2 = Ok (v, []).
Proof.
  exists ex_plat, STORAGE_OPTIONS, [5], [133; 0], (VN 5). split; [discriminate|]. vm_compute. auto.
Qed.
Print Assumptions C49_variable_refuted.

Theorem C49_option_refuted :
  exists m1 m2, m1 <> m2 /\ forall p o t,
    storage_decode p o (TOpt t) m1 = Ok (VNone, []) /\ storage_decode p o (TOpt t) m2 = Ok (VNone, []).
Proof. exists [0], [2]. split; [discriminate|]. intros p o t. split; reflexivity. Qed.
Print Assumptions C49_option_refuted.
