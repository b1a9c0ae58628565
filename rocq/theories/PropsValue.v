(** Properties C56-C58: dynamic values. Specifications used: [has_type] and [wf] of [Types.v],
    [FmtSpec.v] and [ValueSpec.v]. *)
From Verif Require Import Base Options Int Utf8 Types Storage StorageSpec Fmt FmtSpec Value ValueSpec
  BaseFacts IntFacts StorageFacts FmtFacts FmtSafe ValueFacts PropsInt PropsStorage.
Local Open Scope N_scope.

(** * C56 *)

(** Encoding into a value succeeds and decoding the value gives back what was encoded. Missing:
    types with empty elements in options or sequences ([keeps]), and packed structs that the
    storage format does not round-trip ([packs_ok]); see below. *)
Theorem C56_roundtrip_partial :
  forall p t v, wf p t -> keeps t = true -> packs_ok p VALUE_OPTIONS t -> has_type p t v = true ->
    exists x, value_encode p t v = Ok x /\ value_decode p t x = Ok v.
Proof.
  intros p t v Hw Hk Hp Hv.
  assert (Hl : lengths_fit p VALUE_OPTIONS) by (left; reflexivity).
  destruct (venc_ok p VALUE_OPTIONS t Hl Hw Hk Hp v Hv) as (w & E & _ & HR).
  exists (in_place w). unfold value_encode. rewrite E. split; [reflexivity|]. apply (HR false false).
Qed.
Print Assumptions C56_roundtrip_partial.

Definition ex_value : value :=
  UMap [(UStr [110], UStr [195; 169]);
        (UStr [109], UMap [(UChar 128512, UOpt (Some (UNum (NUsize 300)))); (UChar 97, UOpt None)]);
        (UStr [101], UVariant (UNum (NU W8 7))
           (USeq [UBool true; USeq [UNum (NU W16 1); UNum (NU W16 65535)]]))].

Example C56_nonvacuous :
  wf ex_plat ex_ty /\ keeps ex_ty = true /\ packs_ok ex_plat VALUE_OPTIONS ex_ty /\
  has_type ex_plat ex_ty ex_val = true /\ value_encode ex_plat ex_ty ex_val = Ok ex_value /\
  packs_ok ex_plat VALUE_OPTIONS ex_v2.
Proof.
  split; [exact ex_wf|]. split; [reflexivity|]. split; [now apply unpacked_ok|].
  split; [reflexivity|]. split; [vm_compute; reflexivity|].
  split; [reflexivity|vm_compute; discriminate].
Qed.

(** Empty elements of sequences disappear without an error, also those of tuples and optional
    values: what decodes is another value of the type, or nothing does. *)
Theorem C56_empty_refuted :
  (exists p t v v' x, wf p t /\ has_type p t v = true /\ value_encode p t v = Ok x /\
     value_decode p t x = Ok v' /\ v' <> v) /\
  (exists p t v v' x, wf p t /\ has_type p t v = true /\ loud t = true /\ t = TVec (TOpt TUnit) /\
     value_encode p t v = Ok x /\ value_decode p t x = Ok v' /\ v' <> v) /\
  (exists p t v x, wf p t /\ has_type p t v = true /\ value_encode p t v = Ok x /\
     t = TTup [TUnit; TBool] /\ value_decode p t x = Err).
Proof.
  split; [|split].
  - exists ex_plat, (TVec TUnit), (VList [VUnit; VUnit]), (VList []), (USeq []).
    repeat split; try reflexivity. discriminate.
  - exists ex_plat, (TVec (TOpt TUnit)), (VList [VSome VUnit; VNone]), (VList [VNone]), (USeq [UOpt None]).
    repeat split; try reflexivity. discriminate.
  - exists ex_plat, (TTup [TUnit; TBool]), (VList [VUnit; VBool true]), (USeq [UBool true]).
    repeat split; reflexivity.
Qed.
Print Assumptions C56_empty_refuted.

(** * C57 *)

(** Any value of the type [Value] decodes at any type to a value of that type or an error. *)
Theorem C57_safe :
  forall p t x, wf p t -> value_ok p x ->
    value_decode p t x <> Panic /\
    (forall v, value_decode p t x = Ok v -> has_type p t v = true).
Proof.
  intros p t x Hw Hx. pose proof (vdec_safe p VALUE_OPTIONS false t Hw false x Hx) as H.
  unfold value_decode. split.
  - intros E. rewrite E in H. exact H.
  - intros v E. rewrite E in H. exact H.
Qed.
Print Assumptions C57_safe.

Example C57_nonvacuous :
  wf ex_plat ex_ty /\ value_ok ex_plat ex_value /\ value_decode ex_plat ex_ty ex_value = Ok ex_val /\
  value_ok ex_plat (UMap [(UStr [110], UUnit)]) /\
  value_decode ex_plat ex_ty (UMap [(UStr [110], UUnit)]) = Err.
Proof.
  split; [exact ex_wf|]. split; [|split; [vm_compute; reflexivity|split; [|vm_compute; reflexivity]]].
  - repeat first [reflexivity | constructor].
  - repeat first [reflexivity | constructor].
Qed.

(** * C58 *)

(** An integer of one type decodes from a value at another integer type as the same integer, or is
    an error when that type does not have it. *)
Theorem C58_exact :
  forall p t s w t' s' w' z,
    int_ty p t = Some (s, w) -> int_ty p t' = Some (s', w') -> in_range s w z ->
    exists x, value_encode p t (int_val s z) = Ok x /\
      (in_range s' w' z -> value_decode p t' x = Ok (int_val s' z)) /\
      (~ in_range s' w' z -> value_decode p t' x = Err).
Proof.
  intros p t s w t' s' w' z Ht Ht' Hz.
  assert (HX : exists n, value_encode p t (int_val s z) = Ok (UNum n) /\
            from_number s' w' n = if int_fits s' w' z then Some z else None).
  { destruct t; cbn in Ht; try discriminate; inversion Ht; subst; cbn [int_val in_range] in *;
      (eexists; split; [reflexivity|]); cbn [from_number]; rewrite ?Z2N.id by apply Hz; reflexivity. }
  destruct HX as (n & E & En). exists (UNum n). split; [exact E|].
  assert (Hi : int_fits s' w' z = true <-> in_range s' w' z).
  { unfold int_fits, int_min, int_max, in_range. rewrite andb_true_iff, !Z.leb_le. destruct s'; lia. }
  assert (HD : value_decode p t' (UNum n) = if int_fits s' w' z then Ok (int_val s' z) else Err).
  { destruct t'; cbn in Ht'; try discriminate; inversion Ht'; subst;
      unfold value_decode; cbn [vdec vleaf_dec]; unfold as_int; rewrite En;
      destruct (int_fits _ _ _); reflexivity. }
  rewrite HD. split; intros H.
  - now rewrite (proj2 Hi H).
  - destruct (int_fits s' w' z); [|reflexivity]. exfalso. apply H. now apply Hi.
Qed.
Print Assumptions C58_exact.

Example C58_nonvacuous :
  int_ty ex_plat TIsize = Some (true, 64) /\ int_ty ex_plat (TU W8) = Some (false, 8) /\
  in_range true 64 200%Z /\ in_range false 8 200%Z /\ in_range true 64 (-1)%Z /\ ~ in_range false 8 (-1)%Z /\
  value_encode ex_plat TIsize (int_val true 200) = Ok (UNum (NIsize 200)) /\
  value_decode ex_plat (TU W8) (UNum (NIsize 200)) = Ok (VN 200) /\
  value_decode ex_plat (TU W8) (UNum (NIsize (-1))) = Err.
Proof. unfold in_range. repeat split; try reflexivity; cbn; lia. Qed.

(** A floating point number decodes at any integer type, whatever its value: 300.5 as a [u8] is 255
    and NaN is 0. *)
Theorem C58_float_refuted :
  exists p, value_encode p TF32 (VN 1133920256) = Ok (UNum (NF32 1133920256)) /\
    value_decode p (TU W8) (UNum (NF32 1133920256)) = Ok (VN 255) /\
    value_decode p (TI W32) (UNum (NF32 1133920256)) = Ok (VZ 300) /\
    value_encode p TF32 (VN 2143289344) = Ok (UNum (NF32 2143289344)) /\
    value_decode p (TU W8) (UNum (NF32 2143289344)) = Ok (VN 0).
Proof. exists ex_plat. repeat split; vm_compute; reflexivity. Qed.
Print Assumptions C58_float_refuted.
