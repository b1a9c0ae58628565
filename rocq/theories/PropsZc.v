(** Properties C30, C33 and C50: zero-copy byte swapping, validation and
    padding of values. *)
From Coq Require Import Lia.
From Verif Require Import Base BaseFacts Options Int IntFacts Utf8 Zc ZcSpec ZcFacts ZcValid ZcSwap.
Local Open Scope N_scope.

(** A [repr(C)] struct with padding, an array of non-zero integers, a nested
    packed struct and a byte-swappable enum:
    [#[repr(u16)] enum E { A(u8) = 1, B(u8) = 256 }] with [A] and [B] swapped. *)
Definition ex_enum : zty := ZEnum 2 2 None [(1, [ZInt 1 1]); (256, [ZInt 1 1])] (Some [1%nat; 0%nat]).
Definition ex_zty : zty :=
  ZStruct None None
    [ZInt 1 1; ZInt 4 4; ZBool; ZArray (ZNonZero 2 2) 2; ZStruct (Some 1) None [ZInt 1 1; ZInt 4 4]; ex_enum].
Definition ex_zval : zval :=
  VSt [VI 7; VI 0x01020304; VB true; VArr [VI 1; VI 0x0203]; VSt [VI 9; VI 0x0a0b0c0d]; VEn 0 [VI 5]].

Lemma p2_1 : pow2 1. Proof. now exists 0. Qed.
Lemma p2_2 : pow2 2. Proof. now exists 1. Qed.
Lemma p2_4 : pow2 4. Proof. now exists 2. Qed.
Lemma p2_8 : pow2 8. Proof. now exists 3. Qed.

Ltac zwf_tac :=
  repeat first
    [ match goal with |- pow2 1 => exact p2_1 | |- pow2 2 => exact p2_2 | |- pow2 4 => exact p2_4
      | |- pow2 8 => exact p2_8 end
    | match goal with |- N.divide _ _ => first [now exists 1|now exists 2|now exists 4|now exists 8] end
    | match goal with |- forall p, None = Some p -> _ => discriminate end
    | match goal with |- forall p, Some _ = Some p -> _ => let E := fresh in intros ? E; inversion E; subst end
    | match goal with |- NoDup _ => constructor; simpl end
    | match goal with |- ~ _ => intros ?; simpl in *; intuition discriminate end
    | constructor; cbn [fst snd] ].

Lemma ex_zwf : zwf ex_zty.
Proof. unfold ex_zty, ex_enum. zwf_tac. Qed.
Lemma ex_zok : zok ex_zty ex_zval.
Proof.
  unfold ex_zty, ex_enum, ex_zval.
  apply ok_struct. apply Forall2_cons; [apply ok_int; reflexivity|].
  apply Forall2_cons; [apply ok_int; reflexivity|]. apply Forall2_cons; [apply ok_bool|].
  apply Forall2_cons.
  { apply ok_array; [reflexivity|]. repeat constructor; discriminate. }
  apply Forall2_cons.
  { apply ok_struct. repeat constructor. }
  apply Forall2_cons; [|constructor].
  eapply ok_enum; [reflexivity|]. repeat constructor.
Qed.
Lemma ex_pk : pk_ok ex_zty.
Proof.
  unfold ex_zty, ex_enum. repeat first [discriminate | constructor; cbn [snd] | intros].
  match goal with H : Some _ = Some _ |- _ => inversion H; subst end.
  simpl in *. intuition subst; simpl; lia.
Qed.
Lemma ex_vpk : vpk_ok ex_zty.
Proof.
  unfold ex_zty, ex_enum. repeat first [discriminate | constructor; cbn [snd] | intros].
  match goal with H : Some _ = Some _ |- _ => inversion H; subst end.
  simpl in *. intuition subst; simpl; lia.
Qed.
Lemma ex_sw : sw_ok ex_zty.
Proof.
  unfold ex_zty, ex_enum. repeat first [constructor; cbn [snd]].
  intros tbl i j dv E T V. inversion E; subst.
  destruct i as [|[|i]]; cbn in *; [| |destruct i; discriminate];
    inversion T; inversion V; subst; eexists; reflexivity.
Qed.

(** ** C30: endianness conversion *)

(** [Endian<T, E>]: what is put in comes out, and what is stored is a [T]. *)
Theorem C30_endian_roundtrip nb e t v :
  zwf t -> sw_ok t -> can_swap t = true -> zok t v ->
  endian_to_ne nb e t (endian_new nb e t v) = v.
Proof. intros W S C O. now destruct (zswap_spec nb e t W S C v O) as (_ & E & _). Qed.

Theorem C30_endian_typed nb e t v :
  zwf t -> sw_ok t -> can_swap t = true -> zok t v -> zok t (endian_new nb e t v).
Proof. intros W S C O. now destruct (zswap_spec nb e t W S C v O) as (E & _ & _). Qed.

(** The memory of an [Endian<T, E>] is that of a [T] on a target whose byte
    order is [E], whatever the target is. *)
Theorem C30_endian_bytes nb e t v :
  zwf t -> sw_ok t -> can_swap t = true -> plain t = true -> zok t v ->
  mem_of nb t (endian_new nb e t v) = mem_of e t v.
Proof. intros W S C P O. destruct (zswap_spec nb e t W S C v O) as (_ & _ & E). now apply E. Qed.

(** Written on one target and read on another, for the same order. *)
Theorem C30_endian_cross_target nb1 nb2 e t v m raw :
  zwf t -> sw_ok t -> can_swap t = true -> plain t = true -> zok t v ->
  holds (mem_of nb1 t (endian_new nb1 e t v)) m ->
  zok t raw -> holds (mem_of nb2 t raw) m ->
  endian_to_ne nb2 e t raw = v.
Proof.
  intros W S C P O H R HR. rewrite C30_endian_bytes in H by auto.
  destruct (zswap_spec nb2 e t W S C v O) as (A & B & D). specialize (D P). rewrite <- D in H.
  rewrite (holds_inj nb2 t W raw (zswap nb2 e t v) m R A HR H). exact B.
Qed.

(** [from_endian]: applied twice it is the identity; for the native order it
    is the identity. *)
Theorem C30_from_endian_twice nb e t v :
  zwf t -> sw_ok t -> can_swap t = true -> zok t v ->
  from_endian nb e t (from_endian nb e t v) = v /\ from_endian nb nb t v = v.
Proof.
  intros W S C O. unfold from_endian. rewrite !zswap_native. split; auto.
  now destruct (zswap_spec nb e t W S C v O) as (_ & E & _).
Qed.

Example C30_nonvacuous :
  zwf ex_zty /\ sw_ok ex_zty /\ can_swap ex_zty = true /\ plain ex_zty = true /\ zok ex_zty ex_zval /\
  endian_new Little Big ex_zty ex_zval <> ex_zval /\
  mem_of Little ex_zty (endian_new Little Big ex_zty ex_zval) = mem_of Big ex_zty ex_zval.
Proof.
  split; [apply ex_zwf|]. split; [apply ex_sw|]. split; [reflexivity|]. split; [reflexivity|].
  split; [apply ex_zok|]. split; [vm_compute; discriminate|]. vm_compute. reflexivity.
Qed.

Print Assumptions C30_endian_roundtrip.
Print Assumptions C30_endian_typed.
Print Assumptions C30_endian_bytes.
Print Assumptions C30_endian_cross_target.
Print Assumptions C30_from_endian_twice.

(** ** C33: validation *)

(** At an aligned address, validation accepts a value's memory exactly when it
    is a valid bit pattern of the type, and never looks outside it. *)
Theorem C33_validate_exact_partial nb t addr m post :
  zwf t -> pk_ok t -> vpk_ok t -> (align_of t | addr) -> bytes_ok m = true -> lenN m = size_of t ->
  (zvalidate nb t addr (m ++ post) = ZOk tt /\ valid_pattern nb t m) \/
  (zvalidate nb t addr (m ++ post) = ZErr /\ ~ valid_pattern nb t m).
Proof.
  intros W P V D B L. apply zvalidate_spec; auto.
  eapply N.divide_trans; [|exact D]. now apply valign_divide.
Qed.

(** Accepted memory denotes exactly one value. *)
Theorem C33_validated_value_unique nb t addr m post :
  zwf t -> pk_ok t -> vpk_ok t -> (align_of t | addr) -> bytes_ok m = true -> lenN m = size_of t ->
  zvalidate nb t addr (m ++ post) = ZOk tt ->
  exists v, zok t v /\ holds (mem_of nb t v) m /\
    forall v', zok t v' -> holds (mem_of nb t v') m -> v' = v.
Proof.
  intros W P V D B L E.
  destruct (C33_validate_exact_partial nb t addr m post W P V D B L) as [[_ (v & O & H)]|[E' _]]; [|congruence].
  exists v. repeat split; auto. intros v' O' H'. eapply holds_inj; eauto.
Qed.

(** The types whose validation is skipped ([ANY_BITS]) have no invalid
    pattern. *)
Theorem C33_any_bits_sound nb t m :
  zwf t -> any_bits t = true -> bytes_ok m = true -> lenN m = size_of t -> valid_pattern nb t m.
Proof. intros. now apply any_bits_valid. Qed.

(** Every stored value validates. *)
Theorem C33_stored_validates nb t v addr post :
  zwf t -> pk_ok t -> vpk_ok t -> (align_of t | addr) -> zok t v ->
  zvalidate nb t addr (zeroed (mem_of nb t v) ++ post) = ZOk tt.
Proof.
  intros W P V D O.
  destruct (C33_validate_exact_partial nb t addr (zeroed (mem_of nb t v)) post W P V D (mem_ok nb t v)) as [[E _]|[_ E]]; auto.
  - now rewrite zeroed_len, mem_of_len.
  - destruct E. exists v. split; auto. apply holds_zeroed.
Qed.

(** Without [pk_ok]: [#[repr(C, packed(2))] struct { u8, bool, u16 }] accepts a
    byte which is not a [bool]. *)
Theorem C33_packed_refuted :
  exists t addr m post,
    zwf t /\ (align_of t | addr) /\ bytes_ok m = true /\ lenN m = size_of t /\
    zvalidate Little t addr (m ++ post) = ZOk tt /\ ~ valid_pattern Little t m.
Proof.
  exists (ZStruct (Some 2) None [ZInt 1 1; ZBool; ZInt 2 2]), 0, [0; 7; 1; 0], [0; 0].
  split; [zwf_tac|]. split; [apply N.divide_0_r|]. split; [reflexivity|]. split; [reflexivity|].
  split; [reflexivity|]. intros (v & O & H).
  inversion O as [| | | | | |? ? ? vs F2| |]; subst.
  inversion F2 as [|? v1 ? vs1 O1 F3]; subst. inversion F3 as [|? v2 ? vs2 O2 F4]; subst.
  inversion F4 as [|? v3 ? vs3 O3 F5]; subst. inversion F5; subst.
  inversion O1; inversion O2 as [| |b| | | | | |]; inversion O3; subst. clear - H.
  cbn in H. inversion H as [|? ? ? ? _ H']; subst. inversion H' as [|? ? ? ? E _]; subst.
  destruct b; discriminate.
Qed.

(** Without the alignment ([load_at_unaligned]): [#[repr(C)] struct { u16, bool }]
    at an odd address accepts a byte which is not a [bool]. *)
Theorem C33_unaligned_refuted :
  exists t addr m post,
    zwf t /\ pk_ok t /\ vpk_ok t /\ bytes_ok m = true /\ lenN m = size_of t /\
    zvalidate Little t addr (m ++ post) = ZOk tt /\ ~ valid_pattern Little t m.
Proof.
  exists (ZStruct None None [ZInt 2 2; ZBool]), 1, [0; 0; 7; 1], [].
  split; [zwf_tac|]. split; [repeat constructor; discriminate|]. split; [repeat constructor; discriminate|].
  split; [reflexivity|]. split; [reflexivity|].
  split; [reflexivity|]. intros (v & O & H).
  inversion O as [| | | | | |? ? ? vs F2| |]; subst.
  inversion F2 as [|? v1 ? vs1 O1 F3]; subst. inversion F3 as [|? v2 ? vs2 O2 F4]; subst. inversion F4; subst.
  inversion O1; inversion O2 as [| |b| | | | | |]; subst. clear - H.
  cbn in H. inversion H as [|? ? ? ? _ H']; subst. inversion H' as [|? ? ? ? _ H2]; subst.
  inversion H2 as [|? ? ? ? E _]; subst. destruct b; discriminate.
Qed.

Example C33_nonvacuous :
  zwf ex_zty /\ pk_ok ex_zty /\ vpk_ok ex_zty /\ any_bits ex_zty = false /\ (align_of ex_zty | 16) /\
  let m := zeroed (mem_of Little ex_zty ex_zval) in
  bytes_ok m = true /\ lenN m = size_of ex_zty /\ zvalidate Little ex_zty 16 m = ZOk tt /\
  (* a bad bool, a zero non-zero integer, an unknown discriminant *)
  zvalidate Little ex_zty 16 (firstn 8 m ++ [2] ++ skipn 9 m) = ZErr /\
  zvalidate Little ex_zty 16 (firstn 10 m ++ [0; 0] ++ skipn 12 m) = ZErr /\
  zvalidate Little ex_zty 16 (firstn 20 m ++ [2; 0] ++ skipn 22 m) = ZErr.
Proof.
  split; [apply ex_zwf|]. split; [apply ex_pk|]. split; [apply ex_vpk|]. split; [reflexivity|].
  split; [now exists 4|]. vm_compute. repeat split; reflexivity.
Qed.

Print Assumptions C33_validate_exact_partial.
Print Assumptions C33_validated_value_unique.
Print Assumptions C33_any_bits_sound.
Print Assumptions C33_stored_validates.
Print Assumptions C33_packed_refuted.
Print Assumptions C33_unaligned_refuted.

(** ** C50: padding *)

(** Storing a value writes its fields where the layout puts them and zero in
    every padding byte, whatever the padding bytes held; so the bytes are a
    function of the value. *)
Theorem C50_store_clears_padding_partial nb t v m :
  zwf t -> pk_ok t -> zok t v -> holds (mem_of nb t v) m ->
  store_mem nb t m = ZOk (zeroed (mem_of nb t v)).
Proof. apply store_mem_spec. Qed.

(** A type which is not marked as padded has no padding byte. *)
Theorem C50_unpadded_sound nb t v :
  zwf t -> padded t = false -> zok t v -> ~ In None (mem_of nb t v).
Proof.
  intros W P O I. pose proof (not_padded_full nb t W P v O) as F. unfold full in F.
  rewrite <- F in I. apply in_map_iff in I as (x & E & _). discriminate.
Qed.

(** [to_bytes] after [initialize_padding]: equal values have equal bytes, and
    equal bytes mean equal values. *)
Theorem C50_bytes_determine_value nb t v1 v2 m1 m2 :
  zwf t -> pk_ok t -> zok t v1 -> zok t v2 ->
  holds (mem_of nb t v1) m1 -> holds (mem_of nb t v2) m2 ->
  (store_mem nb t m1 = store_mem nb t m2 <-> v1 = v2).
Proof.
  intros W P O1 O2 H1 H2. rewrite (store_mem_spec nb t v1 m1), (store_mem_spec nb t v2 m2) by auto.
  split.
  - intros E. inversion E as [Z]. apply (holds_inj nb t W v1 v2 (zeroed (mem_of nb t v1))); auto using holds_zeroed.
    rewrite Z. apply holds_zeroed.
  - now intros ->.
Qed.

(** Without [pk_ok]: in [#[repr(C, packed(2))] struct { u16, u8, [u8; 2] }] the
    padding overwrites a field. *)
Theorem C50_packed_refuted :
  exists t v m m', zwf t /\ zok t v /\ holds (mem_of Little t v) m /\
    store_mem Little t m = ZOk m' /\ ~ holds (mem_of Little t v) m'.
Proof.
  exists (ZStruct (Some 2) None [ZInt 2 2; ZInt 1 1; ZArray (ZInt 1 1) 2]),
    (VSt [VI 1; VI 2; VArr [VI 3; VI 4]]), [1; 0; 2; 3; 4; 99], [1; 0; 2; 0; 4; 99].
  split; [zwf_tac|]. split.
  { constructor. repeat constructor. }
  split; [repeat constructor|]. split; [reflexivity|].
  intros H. cbn in H.
  do 3 (inversion H as [|? ? ? ? _ H']; subst; clear H; rename H' into H).
  inversion H as [|? ? ? ? E _]; subst. discriminate.
Qed.

(** ... and in [#[repr(C, packed(2))] struct { u8, u8, u8, u16 }] it runs past
    the end of the value. *)
Theorem C50_packed_overrun_refuted :
  exists t v m, zwf t /\ zok t v /\ holds (mem_of Little t v) m /\
    forall post, zpad Little t (m ++ post) = ZUb.
Proof.
  exists (ZStruct (Some 2) None [ZInt 1 1; ZInt 1 1; ZInt 1 1; ZInt 2 2]),
    (VSt [VI 1; VI 2; VI 3; VI 4]), [1; 2; 3; 0; 4; 0].
  split; [zwf_tac|]. split.
  { constructor. repeat constructor. }
  split; [repeat constructor|].
  intros [|a [|b [|c post]]]; reflexivity.
Qed.

Example C50_nonvacuous :
  zwf ex_zty /\ pk_ok ex_zty /\ zok ex_zty ex_zval /\ padded ex_zty = true /\
  existsb (fun o => match o with None => true | _ => false end) (mem_of Little ex_zty ex_zval) = true /\
  store_mem Little ex_zty (map (fun o => match o with Some x => x | None => 0xaa end) (mem_of Little ex_zty ex_zval))
    = ZOk (zeroed (mem_of Little ex_zty ex_zval)).
Proof.
  split; [apply ex_zwf|]. split; [apply ex_pk|]. split; [apply ex_zok|]. vm_compute. auto.
Qed.

Print Assumptions C50_store_clears_padding_partial.
Print Assumptions C50_unpadded_sound.
Print Assumptions C50_bytes_determine_value.
Print Assumptions C50_packed_refuted.
Print Assumptions C50_packed_overrun_refuted.
