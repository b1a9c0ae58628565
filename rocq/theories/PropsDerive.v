(** C29: announced lengths of derived encodings. *)
From Coq Require Import List NArith ZArith Bool Lia.
From Verif Require Import Base BaseFacts Options Int Types Storage Derive DeriveSpec DeriveFacts.
Import ListNotations.
Open Scope N_scope.

(** Exactly when every length announced while encoding a value is the number of
    entries written: always, but for variants of default-tagged and adjacently
    tagged enums that have a [skip_encoding_if] field themselves. *)
Theorem C29_lengths_partial : forall x c,
  fst (encode x) = Ok c -> (honest c <-> sound x).
Proof. intros x c H. apply (proj1 (all_right x) c H). Qed.
Print Assumptions C29_lengths_partial.

(** So it holds for every value of a type in which no such variant uses
    [skip_encoding_if], at any depth. *)
Theorem C29_plain_partial : forall x c,
  plain x -> fst (encode x) = Ok c -> honest c.
Proof. intros x c P H. apply (all_right x); [exact H|]. apply plain_sound. exact P. Qed.
Print Assumptions C29_plain_partial.

(** The size hint of a value is the number of entries it adds to an enclosing
    map ([MapEncoder::as_encoder], used by internally tagged enums). *)
Theorem C29_size_hint : forall x es n,
  snd (encode x) = Ok es -> size_hint x = Some n -> lenN es = n.
Proof. intros x es n H. apply (all_right x). exact H. Qed.
Print Assumptions C29_size_hint.

(** A struct nested in an internally tagged enum nested in a map, with
    [skip_encoding_if] everywhere: one field left out of each. *)
Definition nested : src :=
  SMap [(SAtom, SEnum TagInternal (BTransparent false (SStruct (BTagged [(None, SAtom); (Some false, SAtom); (Some true, SSeq [SAtom])]))));
        (SAtom, SEnum TagInternal (BTagged [(Some false, SAtom); (None, SOpt (Some (SEnum TagDefault (BTransparent false (SStruct (BTagged [(Some false, SAtom)]))))))]))].

Example C29_nonvacuous : plain nested /\
  fst (encode nested) =
    Ok (CMap (Some 2)
          [(CAtom, CMap (Some 3) [(CAtom, CAtom); (CAtom, CAtom); (CAtom, CSeq [CAtom])]);
           (CAtom, CMap (Some 2) [(CAtom, CAtom); (CAtom, COpt (Some (CVariant (CMap (Some 0) []))))])]).
Proof. split; [|vm_compute; reflexivity]. cbn. repeat split; auto; discriminate. Qed.

Example C29_size_hint_nonvacuous :
  let x := SStruct (BTagged [(None, SAtom); (Some false, SAtom); (Some true, SAtom)]) in
  snd (encode x) = Ok [(CAtom, CAtom); (CAtom, CAtom)] /\ size_hint x = Some 2.
Proof. split; reflexivity. Qed.

(** The property fails: [enum E { V { a, #[musli(skip_encoding_if = ..)] b } }]
    announces one field and writes two; adjacently tagged, with only [a]
    written, it announces two and writes one. *)
Theorem C29_variant_refuted : exists x y c d,
  x = SEnum TagDefault (BTagged [(None, SAtom); (Some true, SAtom)]) /\
  fst (encode x) = Ok (CVariant (CMap (Some 1) c)) /\ lenN c = 2 /\
  y = SEnum TagAdjacent (BTagged [(None, SAtom); (Some false, SAtom)]) /\
  fst (encode y) = Ok (CMap (Some 2) [(CAtom, CAtom); (CAtom, CMap (Some 2) d)]) /\ lenN d = 1.
Proof. do 4 eexists. repeat split; vm_compute; reflexivity. Qed.
Print Assumptions C29_variant_refuted.

(** What that does to a message in the storage format, which writes the announced
    length: [good] is what [V { a: 5, b: 7 }] should look like, with the length 2
    after the tag, and [bad] what the derived encoder writes, with the length 1.  It
    decodes to [V { a: 5, b: 0 }] when [b] has a default, and the rest of the
    message is taken for whatever follows. *)
Definition opt_field (n : N) (d : val) : finfo :=
  {| fname := VN n; fdefault := Some d; fskip := fun v => val_eqb v d |}.
Definition req_field (n : N) : finfo :=
  {| fname := VN n; fdefault := None; fskip := fun _ => false |}.
Definition variant_ty : ty :=
  TEnum false (TU W8) [(VN 9, TStruct (TU W8) [(req_field 0, TU W8); (opt_field 1 (VN 0), TU W8)])].

Theorem C29_lost_refuted : exists good bad v v' rest,
  v = VVar 0 (VList [VN 5; VN 7]) /\
  storage_encode {| native_bo := Little; ptr := P64 |} STORAGE_OPTIONS variant_ty v = Ok good /\
  good = [9; 2; 0; 5; 1; 7] /\ bad = [9; 1; 0; 5; 1; 7] /\
  storage_decode {| native_bo := Little; ptr := P64 |} STORAGE_OPTIONS variant_ty bad = Ok (v', rest) /\
  v' <> v /\ rest <> [].
Proof. do 5 eexists. repeat split; try (vm_compute; reflexivity); vm_compute; discriminate. Qed.
Print Assumptions C29_lost_refuted.
