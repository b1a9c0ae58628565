(** * Properties of floating point numbers in JSON: C72, C73.
    Specification: FloatSpec.v (the formats and rounding), JsonNumSpec.v and FloatTextSpec.v (the texts).
    [F32] and [F64] are what the code says about [f32] and [f64], [r_bin] is their IEEE 754 format. *)
From Coq Require Import QArith Qabs.
From Coq Require Import Lia.
From Verif Require Import Base Json JsonSpec JsonNumSpec FloatSpec FloatTextSpec Dec2flt.
From Verif Require FloatFacts FloatFast FloatTop FloatNear FloatWords FloatSat FloatLemire2.
Local Open Scope N_scope.

Definition either (F : raw_float) : Prop := F = F32 \/ F = F64.

(** ** C72 Decoding a JSON number as a float gives the nearest float, ties to even *)

(** [F32] and [F64] have the formats of IEEE 754. *)
Theorem C72_formats : r_bin F32 = binary32 /\ r_bin F64 = binary64.
Proof. split; reflexivity. Qed.

Theorem C72_json_float_partial : forall F neg ds fs e s rest,
  either F -> decimal false ds fs e s -> moderate ds fs e -> ends rest = true ->
  exists b, json_decode_float F (sign neg ++ s ++ rest) = Ok (signed (r_bin F) neg b, rest) /\
    rounds_to (r_bin F) (decimal_value ds fs e) b.
Proof.
  intros F neg ds fs e s rest HF Hd Hm Hr. apply FloatTop.decimal_loose in Hd.
  destruct (FloatTop.float_loose F (sign neg) ds fs e s rest HF Hd Hr) as (b & e' & H1 & _ & _ & H2); [destruct neg; auto|].
  exists b. split; [|auto]. rewrite H1. destruct neg; reflexivity.
Qed.
Print Assumptions C72_json_float_partial.

(** The restriction to [moderate] numbers is needed: zero point a million zeros one, times ten to the 1000001, is 1 and is decoded as 0. *)
Theorem C72_json_float_refuted : exists ds fs e s, decimal false ds fs e s /\ Qeq (decimal_value ds fs e) 1 /\
  json_decode_float F64 s = Ok (0, []) /\ json_decode_float F32 s = Ok (0, []) /\ ~ rounds_to binary64 1 0 /\ ~ rounds_to binary32 1 0.
Proof.
  exists [48], (FloatSat.sat_zeros ++ [49]), 1000001%Z, FloatSat.sat_text.
  split; [apply FloatSat.sat_grammar|]. split; [apply FloatSat.sat_value|].
  split; [apply FloatSat.sat_decode; right; reflexivity|]. split; [apply FloatSat.sat_decode; left; reflexivity|].
  split; intros (_ & _ & H); destruct (H ltac:(vm_compute; reflexivity)) as [C|[C _]]; vm_compute in C; discriminate.
Qed.
Print Assumptions C72_json_float_refuted.

(** The same for texts with leading zeros, a sign +, and without digits before or after the point, which JSON does not allow *)
Theorem C72_loose_partial : forall F sg ds fs e s rest,
  either F -> (sg = [] \/ sg = [43] \/ sg = [45]) -> loose ds fs e s -> moderate ds fs e -> ends rest = true ->
  exists b, json_decode_float F (sg ++ s ++ rest) = Ok (signed (r_bin F) (if list_eq_dec N.eq_dec sg [45] then true else false) b, rest) /\
    rounds_to (r_bin F) (decimal_value ds fs e) b.
Proof.
  intros F sg ds fs e s rest HF Hs Hd Hm Hr.
  destruct (FloatTop.float_loose F sg ds fs e s rest HF Hd Hr Hs) as (b & e' & H1 & _ & _ & H2). eauto.
Qed.
Print Assumptions C72_loose_partial.

(** Nothing else is accepted, except the words for infinity and NaN if they are the rest of the input. *)
Theorem C72_only : forall F bs x rest, either F -> json_decode_float F bs = Ok (x, rest) ->
  exists sg s b, bs = sg ++ s ++ rest /\ (sg = [] \/ sg = [43] \/ sg = [45]) /\
    x = signed (r_bin F) (if list_eq_dec N.eq_dec sg [45] then true else false) b /\
    ((rest = [] /\ special (r_bin F) s b) \/
     exists ds fs e, loose ds fs e s /\ (moderate ds fs e -> rounds_to (r_bin F) (decimal_value ds fs e) b)).
Proof. exact FloatWords.float_only. Qed.
Print Assumptions C72_only.

Theorem C72_special : forall F sg s b, either F -> (sg = [] \/ sg = [43] \/ sg = [45]) -> special (r_bin F) s b ->
  json_decode_float F (sg ++ s) = Ok (signed (r_bin F) (if list_eq_dec N.eq_dec sg [45] then true else false) b, []).
Proof. exact FloatWords.float_special. Qed.
Print Assumptions C72_special.

(** Any bytes are decoded or refused; no arithmetic overflows and no index is out of bounds, and all loops end. *)
Theorem C72_safe : forall F bs, either F -> json_decode_float F bs <> Panic.
Proof. exact FloatTop.float_safe. Qed.
Print Assumptions C72_safe.

(** [rounds_to] gives every number that is not negative exactly one float, and there is none that is closer. *)
Theorem C72_rounds_total : forall B x, B = binary32 \/ B = binary64 -> (0 <= x)%Q -> exists b, rounds_to B x b.
Proof. intros B x [->| ->]; apply FloatNear.rounds_total; [apply FloatFacts.fmt32|apply FloatFacts.fmt64]. Qed.
Theorem C72_rounds_unique : forall B x b1 b2, B = binary32 \/ B = binary64 -> rounds_to B x b1 -> rounds_to B x b2 -> b1 = b2.
Proof. intros B x b1 b2 [->| ->]; apply FloatFacts.rounds_to_unique; [apply FloatFacts.fmt32|apply FloatFacts.fmt64]. Qed.
Theorem C72_nearest : forall B x b c, B = binary32 \/ B = binary64 -> rounds_to B x b -> c <= infinity B ->
  (Qabs (x - float_value B b) <= Qabs (x - float_value B c))%Q /\
  (c <> b -> (Qabs (x - float_value B b) == Qabs (x - float_value B c))%Q -> N.even b = true).
Proof.
  intros B x b c HB Hb Hc. assert (FO : FloatFacts.fmt_ok B) by (destruct HB as [->| ->]; [apply FloatFacts.fmt32|apply FloatFacts.fmt64]).
  split; [apply FloatNear.nearest; assumption|]. intros Hn E. eapply FloatNear.nearest_tie; eassumption.
Qed.
Print Assumptions C72_rounds_total.
Print Assumptions C72_rounds_unique.
Print Assumptions C72_nearest.

(** The model of the multiplication and division of the hardware is correct rounding. *)
Theorem C72_rnd : forall B num den, B = binary32 \/ B = binary64 -> 0 < den ->
  rounds_to B (inject_Z (Z.of_N num) / inject_Z (Z.of_N den)) (rnd B num den).
Proof. intros B num den [->| ->]; apply FloatFast.rnd_ok; [apply FloatFacts.fmt32|apply FloatFacts.fmt64]. Qed.
Print Assumptions C72_rnd.

(** Decoding is monotone: a text that denotes a larger number is not decoded as a smaller float. *)
Theorem C72_monotone : forall B x y b c, B = binary32 \/ B = binary64 -> (x <= y)%Q -> rounds_to B x b -> rounds_to B y c -> b <= c.
Proof.
  intros B x y b c HB L Hb Hc. assert (FO : FloatFacts.fmt_ok B) by (destruct HB as [->| ->]; [apply FloatFacts.fmt32|apply FloatFacts.fmt64]).
  exact (FloatNear.rounds_mono B x y b c FO L Hb Hc).
Qed.
Print Assumptions C72_monotone.

(** "-12.5e-1," *)
Example C72_nonvacuous : exists ds fs e s rest, decimal false ds fs e s /\ moderate ds fs e /\ ends rest = true /\
  sign true ++ s ++ rest = [45; 49; 50; 46; 53; 101; 45; 49; 44] /\
  json_decode_float F64 (sign true ++ s ++ rest) = Ok (signed binary64 true (1023 * 2 ^ 52 + 2 ^ 50), [44]) /\
  json_decode_float F32 (sign true ++ s ++ rest) = Ok (signed binary32 true (127 * 2 ^ 23 + 2 ^ 21), [44]).
Proof.
  exists [49; 50], [53], (-1)%Z, [49; 50; 46; 53; 101; 45; 49], [44].
  split; [|split; [left; reflexivity|repeat split; vm_compute; reflexivity]].
  exists [46; 53], [101; 45; 49]. repeat split; try discriminate; try (apply FloatTop.digit_digs; reflexivity).
  - right. repeat split; try discriminate; apply FloatTop.digit_digs; reflexivity.
  - right. exists 101, [45], [49]. repeat split; auto; try discriminate; apply FloatTop.digit_digs; reflexivity.
Qed.
(** "-inf" is accepted, "-inf]" is not, and neither is " 1". *)
Example C72_special_nonvacuous : special binary64 [105; 110; 102] (infinity binary64) /\
  json_decode_float F64 [45; 105; 110; 102] = Ok (signed binary64 true (infinity binary64), []) /\
  json_decode_float F64 [45; 105; 110; 102; 93] = Err /\ json_decode_float F64 [32; 49] = Err.
Proof. repeat split; try (vm_compute; reflexivity). left. split; [left; reflexivity|reflexivity]. Qed.
(** One tenth, and a number in the middle between two floats: 2^53 + 1 *)
Example C72_rounds_nonvacuous : rounds_to binary64 (1 # 10) 0x3FB999999999999A /\ rounds_to binary64 9007199254740993 0x4340000000000000.
Proof. split; (split; [vm_compute; discriminate|split; intros _; vm_compute; auto]). Qed.

(** ** C73 Texts of enough digits give back the float *)

(** A text which denotes a number that rounds to a float is decoded as it: what the encoder needs of the text that it writes. *)
Theorem C73_roundtrip : forall F neg ds fs e s rest b,
  either F -> decimal false ds fs e s -> moderate ds fs e -> ends rest = true ->
  rounds_to (r_bin F) (decimal_value ds fs e) b ->
  json_decode_float F (sign neg ++ s ++ rest) = Ok (signed (r_bin F) neg b, rest).
Proof.
  intros F neg ds fs e s rest b HF Hd Hm Hr HB.
  destruct (C72_json_float_partial F neg ds fs e s rest HF Hd Hm Hr) as (b' & E & R). rewrite E. do 4 f_equal.
  apply (C72_rounds_unique (r_bin F) (decimal_value ds fs e)); [destruct HF as [->| ->]; auto|assumption|assumption].
Qed.
Print Assumptions C73_roundtrip.

(** The digits that are enough: 9 for [f32], 17 for [f64] *)
Definition enough (F : raw_float) (n : N) : Prop := F = F32 /\ n = 9 \/ F = F64 /\ n = 17.

(** A positive finite float written with [n] significant digits, rounded at the last one, which has the weight [10 ^ k], in
    either direction, is decoded as this float. *)
Theorem C73_enough_digits : forall F n neg ds fs e s rest b k,
  enough F n -> decimal false ds fs e s -> moderate ds fs e -> ends rest = true -> 0 < b -> b < infinity (r_bin F) ->
  (10 ^ (k + Z.of_N n - 1) <= float_value (r_bin F) b)%Q ->
  (Qabs (decimal_value ds fs e - float_value (r_bin F) b) <= 10 ^ k / 2)%Q ->
  json_decode_float F (sign neg ++ s ++ rest) = Ok (signed (r_bin F) neg b, rest).
Proof.
  intros F n neg ds fs e s rest b k Hn Hd Hm Hr B0 B1 Hk Hq.
  apply C73_roundtrip with (ds := ds) (fs := fs) (e := e); try assumption.
  { destruct Hn as [[-> _]|[-> _]]; [left|right]; reflexivity. }
  destruct Hn as [[-> ->]|[-> ->]].
  - apply (FloatNear.digits_round binary32 b _ 9 k); try assumption; [apply FloatFacts.fmt32|reflexivity].
  - apply (FloatNear.digits_round binary64 b _ 17 k); try assumption; [apply FloatFacts.fmt64|reflexivity].
Qed.
Print Assumptions C73_enough_digits.

(** Floats with distinct bits are distinct numbers, so that one text cannot stand for both. *)
Theorem C73_distinct : forall B a b, B = binary32 \/ B = binary64 -> a < b -> (float_value B a < float_value B b)%Q.
Proof. intros B a b [->| ->]; apply FloatNear.fv_lt; [apply FloatFacts.fmt32|apply FloatFacts.fmt64]. Qed.
Print Assumptions C73_distinct.

(** One tenth as an [f64], in 17 digits: 0.10000000000000001 *)
Example C73_nonvacuous : let b := 0x3FB999999999999A in let fs := [49; 48; 48; 48; 48; 48; 48; 48; 48; 48; 48; 48; 48; 48; 48; 48; 49] in
  enough F64 17 /\ decimal false [48] fs 0 (48 :: 46 :: fs) /\ moderate [48] fs 0 /\ 0 < b /\ b < infinity binary64 /\
  (10 ^ (-17 + 17 - 1) <= float_value binary64 b)%Q /\ Qle (Qabs (decimal_value [48] fs 0 - float_value binary64 b)) (10 ^ (-17) / 2) /\
  json_decode_float F64 (sign false ++ (48 :: 46 :: fs) ++ []) = Ok (b, []).
Proof.
  cbv zeta. split; [right; auto|]. split.
  - exists [46; 49; 48; 48; 48; 48; 48; 48; 48; 48; 48; 48; 48; 48; 48; 48; 48; 49], []. repeat split; try discriminate; try (apply FloatTop.digit_digs; reflexivity).
    + right. repeat split; try discriminate; apply FloatTop.digit_digs; reflexivity.
    + left. auto.
  - repeat split; try (vm_compute; (reflexivity || discriminate)). left. reflexivity.
Qed.
