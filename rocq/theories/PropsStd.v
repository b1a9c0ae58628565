(** Property C77: types of the standard library (addresses, ranges, results, C strings, strings of the operating
    system) round trip where they do. Specification used: [StdSpec.v]. *)
From Verif Require Import Base Options Int Utf8 Types Storage StorageSpec Fmt FmtSpec Wire Desc Std StdSpec BaseFacts TypesFacts
  FmtFacts WireFacts DescFacts StdFacts PropsInt PropsStorage PropsWire PropsDesc.
From Coq Require Import Lia.
Local Open Scope N_scope.

(** Every type, but the strings of Unix systems, in the wire format. The condition on the byte order is that of
    socket addresses, which are packed. *)
Theorem C77_wire_roundtrip :
  forall p o s v bs rest,
    s <> SOsUnix -> parts s (wf p) -> parts s (packs_ok p o) ->
    (is_native_fixed p o = true -> native_order p o = true) ->
    std_value p s v ->
    std_encode (wire_encode p o) s v = Ok bs ->
    std_decode (wire_decode p o) s (bs ++ rest) = Ok (v, rest).
Proof.
  intros p o s v bs rest Hu Hw Hp Hn Hv He. unfold std_encode in He. unfold std_decode.
  pose proof (C14_wire_roundtrip_partial p o (std_written s) (std_put s v) bs rest (std_written_wf p s Hw)
    (std_written_packs p o s Hn Hp) (put_type p s v Hv) He) as R.
  destruct s; try (cbn [std_reads]; rewrite R; cbn [bind]; rewrite (get_put p _ v Hv) by discriminate; reflexivity); try congruence.
  - cbn [std_value] in Hv. subst v. clear - He. cbn [std_written std_put std_reads] in *.
    pose proof (unit_as_tuple_wire p o bs rest He) as E.
    change (wire_decode p o TUnit (bs ++ rest)) with (let* (_, r) := wire_skip p o (bs ++ rest) in Ok (VUnit, r)). rewrite E. reflexivity.
  - destruct Hv as (ws & -> & Hws & Hl). cbn [std_written std_put std_reads] in *. destruct (pick _ p o _ _ _ R) as [E _].
    unfold wire_decode. rewrite E. cbn [bind std_get]. destruct (wide_out_ok ws Hws) as (_ & _ & ->). reflexivity.
Qed.
Print Assumptions C77_wire_roundtrip.

(** The same in the descriptive format. *)
Theorem C77_desc_roundtrip :
  forall p o s v bs rest,
    s <> SOsUnix -> parts s (wf p) -> parts s (packs_ok p o) ->
    (is_native_fixed p o = true -> native_order p o = true) ->
    std_value p s v ->
    std_encode (descriptive_encode p o) s v = Ok bs ->
    std_decode (descriptive_decode p o) s (bs ++ rest) = Ok (v, rest).
Proof.
  intros p o s v bs rest Hu Hw Hp Hn Hv He. unfold std_encode in He. unfold std_decode.
  pose proof (C18_desc_roundtrip_partial p o (std_written s) (std_put s v) bs rest (std_written_wf p s Hw)
    (std_written_packs p o s Hn Hp) (put_type p s v Hv) He) as R.
  destruct s; try (cbn [std_reads]; rewrite R; cbn [bind]; rewrite (get_put p _ v Hv) by discriminate; reflexivity); try congruence.
  - cbn [std_value] in Hv. subst v. clear - He. cbn [std_written std_put std_reads] in *.
    pose proof (unit_as_tuple_desc p o bs rest He) as E.
    change (descriptive_decode p o TUnit (bs ++ rest)) with (let* (_, r) := descriptive_skip p o (bs ++ rest) in Ok (VUnit, r)). rewrite E. reflexivity.
  - destruct Hv as (ws & -> & Hws & Hl). cbn [std_written std_put std_reads] in *. destruct (pick _ p o _ _ _ R) as [E _].
    unfold descriptive_decode. rewrite E. cbn [bind std_get]. destruct (wide_out_ok ws Hws) as (_ & _ & ->). reflexivity.
Qed.
Print Assumptions C77_desc_roundtrip.

(** In the storage format strings of Unix systems round trip too. *)
Theorem C77_storage_roundtrip :
  forall p o s v bs rest,
    is_native_fixed p o = false ->
    parts s (wf p) -> parts s (fun t => posok false false false t = true) ->
    std_value p s v ->
    std_encode (storage_encode p o) s v = Ok bs ->
    std_decode (storage_decode p o) s (bs ++ rest) = Ok (v, rest).
Proof.
  intros p o s v bs rest Hn Hw Hp Hv He. unfold std_encode in He. unfold std_decode.
  pose proof (C09_storage_roundtrip p o (std_written s) (std_put s v) bs rest Hn (std_written_wf p s Hw)
    (written_pos s Hp) (put_type p s v Hv) He) as R.
  destruct s; try (cbn [std_reads]; rewrite R; cbn [bind]; rewrite (get_put p _ v Hv) by discriminate; reflexivity).
  - cbn [std_value] in Hv. subst v. cbn [std_written std_put std_reads] in *. rewrite std_storage_tup in He.
    rewrite (C09_storage_roundtrip p o TUnit VUnit bs rest Hn I eq_refl eq_refl He). reflexivity.
  - destruct Hv as (b & -> & Hb & Hl). cbn [std_written std_put std_reads] in *. rewrite (unix_storage p o b Hn) in He.
    change (TEnum true TUsize [(VN 0, TVec (TU W8))]) with unix_read.
    rewrite (C09_storage_roundtrip p o _ _ bs rest Hn (unix_wf p) eq_refl (unix_type p b Hb Hl) He).
    cbn [bind std_get]. now rewrite octets_map.
  - destruct Hv as (ws & -> & Hws & Hl). cbn [std_written std_put std_reads] in *.
    rewrite (pick_storage p o _ _ _ R). cbn [bind std_get]. destruct (wide_out_ok ws Hws) as (_ & _ & ->). reflexivity.
Qed.
Print Assumptions C77_storage_roundtrip.

(** No string of a Unix system written in the wire or descriptive format can be read back: it is written as bytes
    and read as a sequence. *)
Theorem C77_os_refuted :
  (forall p o v bs rest, std_value p SOsUnix v -> std_encode (wire_encode p o) SOsUnix v = Ok bs ->
    std_decode (wire_decode p o) SOsUnix (bs ++ rest) = Err) /\
  (forall p o v bs rest, std_value p SOsUnix v -> std_encode (descriptive_encode p o) SOsUnix v = Ok bs ->
    std_decode (descriptive_decode p o) SOsUnix (bs ++ rest) = Err).
Proof.
  split; intros p o; apply unix_never.
  - apply wire_rt_laws.
  - apply bytes_not_seq_wire.
  - apply desc_rt_laws.
  - apply bytes_not_seq_desc.
Qed.
Print Assumptions C77_os_refuted.

(** Nor can a string of one system be read on the other. *)
Theorem C77_foreign :
  forall p o F v bs rest, F = wire p o \/ F = descriptive p o ->
    (std_value p SOsWindows v -> std_encode (genc F p o) SOsWindows v = Ok bs ->
     std_decode (gdec F p o) SOsUnix (bs ++ rest) = Err) /\
    (std_value p SOsUnix v -> std_encode (genc F p o) SOsUnix v = Ok bs ->
     std_decode (gdec F p o) SOsWindows (bs ++ rest) = Err).
Proof.
  intros p o F v bs rest HF.
  assert (L : rt_laws F p) by (destruct HF as [-> | ->]; [apply wire_rt_laws|apply desc_rt_laws]).
  assert (R : forall s, s = SOsWindows \/ s = SOsUnix -> std_value p s v -> genc F p o (either TBytes TBytes) (std_put s v) = Ok bs ->
    gdec F p o (either TBytes TBytes) (bs ++ rest) = Ok (std_put s v, rest)).
  { intros s Hs Hv He. apply (g_roundtrip F p o _ L); auto using either_wf.
    - now apply either_wf.
    - split; [reflexivity|]. intros _. reflexivity.
    - destruct Hs as [-> | ->]; [exact (put_type p SOsWindows v Hv)|exact (put_type p SOsUnix v Hv)].
    - discriminate. }
  split; intros Hv He; unfold std_encode in He; unfold std_decode.
  - pose proof (R SOsWindows (or_introl eq_refl) Hv He) as E. destruct Hv as (ws & -> & _).
    cbn [std_put std_reads] in *. destruct (pick _ p o _ _ _ E) as [_ ->]. reflexivity.
  - pose proof (R SOsUnix (or_intror eq_refl) Hv He) as E. destruct Hv as (b & -> & _).
    cbn [std_put std_reads] in *. rewrite (pick_unix _ p o _ _ _ E). reflexivity.
Qed.
Print Assumptions C77_foreign.

(** Bytes are accepted as a C string exactly if their last byte, and no other one, is nul. *)
Theorem C77_cstr_valid :
  forall (decode : ty -> dec val) bs b r, decode TBytes bs = Ok (VBytes b, r) ->
    ((exists b', b = b' ++ [0] /\ ~ In 0 b') -> std_decode decode SCStr bs = Ok (VBytes b, r)) /\
    (~ (exists b', b = b' ++ [0] /\ ~ In 0 b') -> std_decode decode SCStr bs = Err).
Proof.
  intros decode bs b r E. unfold std_decode. cbn [std_reads std_written]. rewrite E. cbn [bind std_get].
  pose proof (cstr_ok_iff b) as H. split; intros Hb.
  - rewrite (proj2 H Hb). reflexivity.
  - destruct (cstr_ok b); [|reflexivity]. destruct (Hb (proj1 H eq_refl)).
Qed.
Print Assumptions C77_cstr_valid.

(** An address, a string of each system and what is written. *)
Definition ex_socket : val := VVar 0 (VList [VBytes [127; 0; 0; 1]; VN 8080]).
Example C77_nonvacuous :
  std_value ex_plat SSocket ex_socket /\ std_value ex_plat SCStr (VBytes [104; 105; 0]) /\
  std_value ex_plat SOsUnix (VBytes [104; 105]) /\ std_value ex_plat SOsWindows (VList [VN 104; VN 0x20AC]) /\
  std_value ex_plat (SResult TUnit (TVec (TU W8))) (VVar 1 (VList [VN 1])) /\
  is_native_fixed ex_plat WIRE_OPTIONS = false /\
  (exists bs, std_encode (wire_encode ex_plat WIRE_OPTIONS) SSocket ex_socket = Ok bs /\
     std_decode (wire_decode ex_plat WIRE_OPTIONS) SSocket bs = Ok (ex_socket, [])) /\
  std_encode (wire_encode ex_plat WIRE_OPTIONS) SOsUnix (VBytes [104; 105]) = Ok [130; 192; 66; 104; 105] /\
  std_encode (wire_encode ex_plat WIRE_OPTIONS) SOsWindows (VList [VN 104; VN 0x20AC]) = Ok [130; 193; 68; 104; 0; 0xAC; 0x20] /\
  std_decode (wire_decode ex_plat WIRE_OPTIONS) SOsWindows [130; 193; 68; 104; 0; 0xAC; 0x20] = Ok (VList [VN 104; VN 0x20AC], []) /\
  std_decode (storage_decode ex_plat STORAGE_OPTIONS) SOsUnix [0; 2; 104; 105] = Ok (VBytes [104; 105], []).
Proof.
  split. { exists (VList [VBytes [127; 0; 0; 1]; VN 8080]). left. split; [reflexivity|]. exists (VBytes [127; 0; 0; 1]), (VN 8080).
    split; [reflexivity|]. split; [exists [127; 0; 0; 1]; repeat split|exists 8080; split; reflexivity]. }
  split. { exists [104; 105]. repeat split. cbn. intros [?|[?|[]]]; discriminate. }
  split. { exists [104; 105]. repeat split. }
  split. { exists [VN 104; VN 0x20AC]. repeat split. repeat constructor; eexists; split; reflexivity. }
  split. { exists (VList [VN 1]). right. split; reflexivity. }
  split; [reflexivity|]. split; [eexists; split; vm_compute; reflexivity|].
  repeat split; vm_compute; reflexivity.
Qed.
