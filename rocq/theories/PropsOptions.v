(** Property C05: format options. Specification: [OptionsSpec.v]. *)
From Verif Require Import Base Options OptionsSpec OptionsFacts.

(** After any sequence of builder calls, what the getters report is what the calls set, each
    call changing only the settings it names. *)
Theorem C05_options_independent :
  forall p calls,
    observe (build p calls) = fold_left (spec_call p) calls default_settings.
Proof. exact observe_build. Qed.
Print Assumptions C05_options_independent.

(** The raw-memory fast path is reported exactly when integers and floats are fixed and
    lengths have the native width. *)
Theorem C05_native_fixed_partial :
  forall p calls,
    is_native_fixed p (build p calls) = true <->
    (let s := fold_left (spec_call p) calls default_settings in
     s_integer s = IFixed /\ s_float s = FFixed /\ s_length s = native_width p).
Proof. exact native_fixed_iff. Qed.
Print Assumptions C05_native_fixed_partial.

(** Missing from the previous theorem and false of the code: that the byte order is the
    native one (options.rs:329-334 does not look at it). *)
Theorem C05_native_fixed_byte_order_refuted :
  exists p calls, is_native_fixed p (build p calls) = true /\
    byteorder_value (build p calls) <> native_bo p.
Proof.
  exists {| native_bo := Little; ptr := P64 |}, [CByteOrder Big; CFixed].
  vm_compute. split; [reflexivity|discriminate].
Qed.
Print Assumptions C05_native_fixed_byte_order_refuted.

Example C05_nonvacuous :
  let p := {| native_bo := Big; ptr := P32 |} in
  observe (build p [CFixed; CMapKeys; CInteger IVariable; CNativeByteOrder; CPointer WU8]) =
    {| s_integer := IVariable; s_float := FFixed; s_byteorder := Big;
       s_length := WU8; s_map_keys := true |} /\
  is_native_fixed p (build p [CVariable; CFixed]) = true.
Proof. vm_compute. split; reflexivity. Qed.
