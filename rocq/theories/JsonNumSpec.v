(** What a number is in JSON, independently of the parser: RFC 8259, section 6. For numbers with a fraction and an
    exponent, also the same except that the digits after the point and of the exponent may be missing ([lenient]), which the
    parser allows. *)
From Verif Require Import Base.
Local Open Scope N_scope.

Definition digit (b : N) : Prop := 48 <= b <= 57.
Definition value (ds : bytes) : N := fold_left (fun a d => 10 * a + (d - 48)) ds 0.
Definition int_text (n : N) (s : bytes) : Prop :=
  s <> [] /\ Forall digit s /\ (hd 0 s = 48 -> s = [48]) /\ value s = n.
Definition sign (neg : bool) : bytes := if neg then [45] else [].
Definition z_of (neg : bool) (n : N) : Z := (if neg then - Z.of_N n else Z.of_N n)%Z.

(** The digits [ds] before the point. *)
Definition whole (ds : bytes) : Prop := int_text (value ds) ds.

(** The digits [fs] after the point, if there is one. *)
Definition frac (lenient : bool) (fs s : bytes) : Prop :=
  (fs = [] /\ s = []) \/ (Forall digit fs /\ (fs = [] -> lenient = true) /\ s = 46 :: fs).

(** The exponent [e], if there is one. *)
Definition expo (lenient : bool) (e : Z) (s : bytes) : Prop :=
  (e = 0%Z /\ s = []) \/
  exists c sg es, (c = 101 \/ c = 69) /\ (sg = [] \/ sg = [43] \/ sg = [45]) /\ Forall digit es /\
    (es = [] -> lenient = true) /\ s = c :: sg ++ es /\ e = z_of (if list_eq_dec N.eq_dec sg [45] then true else false) (value es).

(** The text of the number [ds.fs * 10 ^ e] *)
Definition decimal (lenient : bool) (ds fs : bytes) (e : Z) (s : bytes) : Prop :=
  exists sf se, whole ds /\ frac lenient fs sf /\ expo lenient e se /\ s = ds ++ sf ++ se.

(** [ds.fs * 10 ^ e = n], multiplied by powers of ten to have integers on both sides. *)
Definition equals (ds fs : bytes) (e : Z) (n : N) : Prop :=
  let k := Z.of_nat (length fs) in
  (Z.of_N (value (ds ++ fs)) * 10 ^ Z.max 0 (e - k) = Z.of_N n * 10 ^ Z.max 0 (k - e))%Z.
