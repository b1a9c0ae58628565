From Verif Require Import Base Options OptionsSpec.
From Coq Require Import ZifyBool ZifyNat ZifyN.
Local Open Scope N_scope.

Definition field (o mask bit : N) : N := N.land (N.shiftr o bit) mask.

Lemma field_set_same o k bit v :
  v < 2 ^ k -> bit + k <= 32 -> field (set_field o (N.ones k) bit v) (N.ones k) bit = v.
Proof.
  intros Hv Hb. unfold field, set_field. apply N.bits_inj; intros n.
  rewrite N.land_spec, N.shiftr_spec', N.lor_spec, N.land_spec, N.lxor_spec.
  destruct (N.ltb_spec n k).
  - rewrite (N.ones_spec_low k n) by assumption.
    rewrite (N.shiftl_spec_high' (N.ones k)) by lia.
    rewrite (N.shiftl_spec_high' v) by lia.
    replace (n + bit - bit) with n by lia.
    rewrite (N.ones_spec_low k n) by assumption.
    rewrite (N.ones_spec_low 32) by lia.
    cbn. now rewrite andb_false_r, andb_true_r.
  - rewrite (N.ones_spec_high k n) by assumption. rewrite andb_false_r.
    symmetry. destruct (N.eq_dec v 0) as [->|Hz]; [apply N.bits_0|].
    apply N.bits_above_log2. apply N.log2_lt_pow2; [lia|].
    eapply N.lt_le_trans; [eassumption|]. apply N.pow_le_mono_r; lia.
Qed.

Lemma field_set_other o k bit v k' bit' :
  v < 2 ^ k -> bit' + k' <= 32 -> (bit + k <= bit' \/ bit' + k' <= bit) ->
  field (set_field o (N.ones k) bit v) (N.ones k') bit' = field o (N.ones k') bit'.
Proof.
  intros Hv Hb Hd. unfold field, set_field. apply N.bits_inj; intros n.
  rewrite !N.land_spec, !N.shiftr_spec', N.lor_spec, N.land_spec, N.lxor_spec.
  destruct (N.ltb_spec n k').
  - rewrite (N.ones_spec_low k' n) by assumption.
    rewrite (N.ones_spec_low 32) by lia.
    assert (Hs : forall x, x < 2 ^ k -> N.testbit (N.shiftl x bit) (n + bit') = false).
    { intros x Hx. destruct Hd.
      - rewrite N.shiftl_spec_high' by lia.
        destruct (N.eq_dec x 0) as [->|Hz]; [apply N.bits_0|].
        apply N.bits_above_log2. apply N.log2_lt_pow2; [lia|].
        eapply N.lt_le_trans; [eassumption|]. apply N.pow_le_mono_r; lia.
      - apply N.shiftl_spec_low. lia. }
    rewrite (Hs v Hv).
    rewrite (Hs (N.ones k)).
    + cbn. now rewrite andb_true_r, orb_false_r.
    + rewrite N.ones_equiv. pose proof (N.pow_nonzero 2 k). lia.
  - rewrite (N.ones_spec_high k' n) by assumption. now rewrite !andb_false_r.
Qed.

Lemma integer_bits_lt i : integer_bits i < 2 ^ 1. Proof. destruct i; reflexivity. Qed.
Lemma float_bits_lt i : float_bits i < 2 ^ 2. Proof. destruct i; reflexivity. Qed.
Lemma byteorder_bits_lt i : byteorder_bits i < 2 ^ 1. Proof. destruct i; reflexivity. Qed.
Lemma width_bits_lt i : width_bits i < 2 ^ 3. Proof. destruct i; reflexivity. Qed.

Definition m1 : 1 = N.ones 1 := eq_refl.
Definition m2 : 3 = N.ones 2 := eq_refl.
Definition m3 : 7 = N.ones 3 := eq_refl.

(** The getters as functions of the five fields. *)
Definition obs_of (i f b w m : N) : settings :=
  {| s_integer := match i with 0 => IVariable | _ => IFixed end;
     s_float := match f with 0 => FInteger | 1 => FVariable | 2 => FFixed | _ => FPad0 end;
     s_byteorder := match b with 0 => Little | _ => Big end;
     s_length := match w with 0 => WVariable | 1 => WU8 | 2 => WU16 | 3 => WU32
                 | 4 => WU64 | 5 => WPad0 | 6 => WPad1 | _ => WPad2 end;
     s_map_keys := m =? 1 |}.

Lemma observe_fields o :
  observe o = obs_of (field o (N.ones 1) 4) (field o (N.ones 2) 8) (field o (N.ones 1) 0)
                     (field o (N.ones 3) 12) (field o (N.ones 1) 16).
Proof. reflexivity. Qed.

Ltac fields :=
  repeat first
    [ rewrite field_set_same by (first [apply integer_bits_lt | apply float_bits_lt
        | apply byteorder_bits_lt | apply width_bits_lt | reflexivity | lia])
    | rewrite field_set_other by (first [apply integer_bits_lt | apply float_bits_lt
        | apply byteorder_bits_lt | apply width_bits_lt | reflexivity | lia]) ].

Lemma observe_set_integer o i :
  observe (set_integer o i) = spec_call {| native_bo := Little; ptr := P64 |} (observe o) (CInteger i).
Proof.
  rewrite !observe_fields. unfold set_integer.
  change INTEGER_MASK with (N.ones 1). change INTEGER_BIT with 4.
  fields. destruct i; reflexivity.
Qed.

Lemma observe_set_float o f :
  observe (set_float o f) = spec_call {| native_bo := Little; ptr := P64 |} (observe o) (CFloat f).
Proof.
  rewrite !observe_fields. unfold set_float.
  change FLOAT_MASK with (N.ones 2). change FLOAT_BIT with 8.
  fields. destruct f; reflexivity.
Qed.

Lemma observe_set_byte_order o b :
  observe (set_byte_order o b) =
  spec_call {| native_bo := Little; ptr := P64 |} (observe o) (CByteOrder b).
Proof.
  rewrite !observe_fields. unfold set_byte_order.
  change BYTEORDER_MASK with (N.ones 1). change BYTEORDER_BIT with 0.
  fields. destruct b; reflexivity.
Qed.

Lemma observe_set_pointer o w :
  observe (set_pointer o w) =
  spec_call {| native_bo := Little; ptr := P64 |} (observe o) (CPointer w).
Proof.
  rewrite !observe_fields. unfold set_pointer.
  change WIDTH_MASK with (N.ones 3). change LENGTH_BIT with 12.
  fields. destruct w; reflexivity.
Qed.

Lemma observe_set_map_keys o :
  observe (set_map_keys_as_numbers o) =
  spec_call {| native_bo := Little; ptr := P64 |} (observe o) CMapKeys.
Proof.
  rewrite !observe_fields. unfold set_map_keys_as_numbers.
  change MAP_KEYS_AS_NUMBERS_BIT with 16.
  change (set_field o 1 16 1) with (set_field o (N.ones 1) 16 1).
  fields. reflexivity.
Qed.

Lemma observe_apply p o c : observe (apply_call p o c) = spec_call p (observe o) c.
Proof.
  destruct c; cbn [apply_call];
    unfold set_native_byte_order, set_fixed, set_variable;
    rewrite ?observe_set_pointer, ?observe_set_float, ?observe_set_integer,
      ?observe_set_byte_order, ?observe_set_map_keys; reflexivity.
Qed.

Lemma observe_build p calls :
  observe (build p calls) = fold_left (spec_call p) calls default_settings.
Proof.
  unfold build. change default_settings with (observe opt_new).
  generalize opt_new. induction calls as [|c cs IH]; intros o; cbn; [reflexivity|].
  rewrite IH, observe_apply. reflexivity.
Qed.

Lemma width_eqb_eq a b : width_eqb a b = true <-> a = b.
Proof. destruct a, b; cbn; split; intros; try reflexivity; discriminate. Qed.

Lemma byteorder_eqb_eq a b : byteorder_eqb a b = true <-> a = b.
Proof. destruct a, b; cbn; split; intros; try reflexivity; discriminate. Qed.

Lemma native_fixed_iff p calls :
  is_native_fixed p (build p calls) = true <->
  (let s := fold_left (spec_call p) calls default_settings in
   s_integer s = IFixed /\ s_float s = FFixed /\ s_length s = native_width p).
Proof.
  rewrite <- observe_build. cbn. unfold is_native_fixed.
  destruct (integer_value _); [split; [discriminate|intuition discriminate]|].
  destruct (float_value _); try (split; [discriminate|intuition discriminate]).
  rewrite width_eqb_eq. intuition.
Qed.
