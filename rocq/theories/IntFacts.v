From Verif Require Import Base Options Int BaseFacts OptionsFacts.
From Coq Require Import ZifyBool ZifyNat ZifyN.
Local Open Scope N_scope.
Ltac Zify.zify_post_hook ::= Z.div_mod_to_equations.

(** ** Bytes *)

Lemma byte_sweep (P : N -> bool) :
  forallb P (map N.of_nat (seq 0 256)) = true -> forall b, b < 256 -> P b = true.
Proof.
  intros H b Hb. rewrite forallb_forall in H. apply H.
  apply in_map_iff. exists (N.to_nat b). split; [lia|]. apply in_seq. lia.
Qed.

Lemma land_mask b : N.land b MASK_BYTE = b mod 128.
Proof. change MASK_BYTE with (N.ones 7). rewrite N.land_ones. reflexivity. Qed.

Lemma cont_bit_set b : b < 256 -> (N.land b CONT_BYTE =? CONT_BYTE) = (128 <=? b).
Proof.
  intros Hb. apply eqb_true_iff. revert b Hb. apply byte_sweep. vm_compute. reflexivity.
Qed.

Lemma cont_bit_clear b : b < 256 -> (N.land b CONT_BYTE =? 0) = (b <? 128).
Proof.
  intros Hb. apply eqb_true_iff. revert b Hb. apply byte_sweep. vm_compute. reflexivity.
Qed.

Lemma lor_cont b : b < 256 -> N.lor b CONT_BYTE = b mod 128 + 128.
Proof.
  intros Hb. apply N.eqb_eq. revert b Hb. apply byte_sweep. vm_compute. reflexivity.
Qed.

(** ** Continuation encoding *)

Lemma shiftr7 v : N.shiftr v 7 = v / 128.
Proof. rewrite N.shiftr_div_pow2. reflexivity. Qed.

Lemma enc_loop_fuel f1 f2 v :
  v < 2 ^ N.of_nat f1 -> v < 2 ^ N.of_nat f2 ->
  cont_enc_loop (S f1) (v mod 256) v = cont_enc_loop (S f2) (v mod 256) v.
Proof.
  revert f2 v; induction f1 as [|f1 IH]; intros f2 v H1 H2.
  - cbn in H1. assert (v = 0) by lia. subst. reflexivity.
  - destruct f2 as [|f2]; [cbn in H2; assert (v = 0) by lia; subst; reflexivity|].
    assert (E : forall f, cont_enc_loop (S (S f)) (v mod 256) v =
      if N.shiftr v 7 =? 0 then [N.land (v mod 256) MASK_BYTE]
      else N.lor (v mod 256) CONT_BYTE ::
           cont_enc_loop (S f) (N.shiftr v 7 mod 256) (N.shiftr v 7)) by reflexivity.
    rewrite !E. destruct (N.shiftr v 7 =? 0); [reflexivity|].
    f_equal. apply IH; rewrite shiftr7.
    + rewrite Nat2N.inj_succ, N.pow_succ_r' in H1. lia.
    + rewrite Nat2N.inj_succ, N.pow_succ_r' in H2. lia.
Qed.

(** The fuel of [cont_encode] is always enough: it satisfies its recursion
    equation. *)
Lemma cont_encode_eq v :
  cont_encode v = if v <? 128 then [v] else (v mod 128 + 128) :: cont_encode (v / 128).
Proof.
  unfold cont_encode. change CONT_BYTE with 128.
  destruct (N.ltb_spec v 128); [f_equal; lia|].
  cbn [cont_enc_loop]. rewrite shiftr7.
  destruct (N.eqb_spec (v / 128) 0); [lia|].
  rewrite lor_cont by lia.
  replace (v mod 256 mod 128) with (v mod 128).
  2:{ change 256 with (128 * 2). rewrite N.mod_mul_r by lia. lia. }
  f_equal.
  assert (Hs : v < 2 ^ N.of_nat (N.to_nat (N.size v))).
  { rewrite N2Nat.id. apply N.size_gt. }
  destruct (N.to_nat (N.size v)) as [|f] eqn:Ef; [cbn in Hs; lia|].
  rewrite Nat2N.inj_succ, N.pow_succ_r' in Hs.
  destruct (N.ltb_spec (v / 128) 128) as [Hlt|Hge].
  - cbn [cont_enc_loop]. rewrite shiftr7.
    destruct (N.eqb_spec (v / 128 / 128) 0); [|lia].
    rewrite land_mask. f_equal. lia.
  - apply enc_loop_fuel; [lia|]. rewrite N2Nat.id. apply N.size_gt.
Qed.

Lemma cont_encode_bytes_ok v : bytes_ok (cont_encode v) = true.
Proof.
  induction v as [v IH] using (well_founded_induction N.lt_wf_0).
  rewrite cont_encode_eq. destruct (N.ltb_spec v 128).
  - cbn. unfold byte_ok. lia.
  - rewrite bytes_ok_cons, IH by lia. unfold byte_ok. lia.
Qed.

Lemma add_low_lt acc v s t :
  s <= t -> acc < 2 ^ s -> v * 2 ^ s < 2 ^ t -> acc + v * 2 ^ s < 2 ^ t.
Proof.
  intros Hs Ha Hb. replace t with (s + (t - s)) in * by lia.
  rewrite N.pow_add_r in *. set (P := 2 ^ s) in *. set (Q := 2 ^ (t - s)) in *.
  assert (Hv : v < Q).
  { apply (N.mul_lt_mono_pos_l P); [lia|]. lia. }
  assert (P * (v + 1) <= P * Q) by (apply N.mul_le_mono_l; lia). lia.
Qed.

(** Loop invariant: with the low [shift + 7] bits collected in [acc], reading the
    encoding of the remaining high part [v] completes the number. *)
Lemma cont_loop_encode tb v : forall shift acc rest,
  0 < v -> v * 2 ^ (shift + 7) < 2 ^ tb -> acc < 2 ^ (shift + 7) ->
  cont_loop tb shift acc (cont_encode v ++ rest) = Ok (acc + v * 2 ^ (shift + 7), rest).
Proof.
  induction v as [v IH] using (well_founded_induction N.lt_wf_0).
  intros shift acc rest Hv Hb Ha.
  set (sh := shift + 7) in *.
  assert (Hsh : sh < tb).
  { apply (N.pow_lt_mono_r_iff 2); [lia|]. nia. }
  assert (Hp : 0 < 2 ^ sh) by (apply N.neq_0_lt_0, N.pow_nonzero; lia).
  rewrite cont_encode_eq. destruct (N.ltb_spec v 128) as [Hlt|Hge].
  - cbn [app cont_loop]. fold sh.
    destruct (N.leb_spec tb sh); [lia|].
    rewrite cont_bit_set by lia. destruct (N.leb_spec 128 v); [lia|].
    rewrite land_mask, N.shiftl_mul_pow2, (N.mod_small v 128) by lia.
    rewrite (N.mod_small (v * _)) by lia.
    rewrite N.mod_small; [reflexivity|]. apply add_low_lt; lia.
  - cbn [app cont_loop]. fold sh.
    destruct (N.leb_spec tb sh); [lia|].
    rewrite cont_bit_set by lia. destruct (N.leb_spec 128 (v mod 128 + 128)); [|lia].
    rewrite land_mask, N.shiftl_mul_pow2.
    replace ((v mod 128 + 128) mod 128) with (v mod 128) by lia.
    assert (Hlow : v mod 128 * 2 ^ sh < 2 ^ tb).
    { eapply N.le_lt_trans; [|exact Hb]. apply N.mul_le_mono_r. lia. }
    rewrite (N.mod_small (v mod 128 * _)) by assumption.
    assert (Hsum : acc + v mod 128 * 2 ^ sh < 2 ^ tb).
    { apply add_low_lt; lia. }
    rewrite (N.mod_small (acc + _)) by assumption.
    rewrite IH; try lia.
    + f_equal. f_equal. rewrite N.pow_add_r. change (2 ^ 7) with 128.
      pose proof (N.div_mod v 128 ltac:(lia)) as Ed.
      remember (v / 128) as q. remember (v mod 128) as r. rewrite Ed. ring.
    + rewrite N.pow_add_r. change (2 ^ 7) with 128.
      eapply N.le_lt_trans; [|exact Hb].
      pose proof (N.div_mod v 128 ltac:(lia)) as Ed.
      remember (v / 128) as q. remember (v mod 128) as r. rewrite Ed. nia.
    + rewrite N.pow_add_r. change (2 ^ 7) with 128. nia.
Qed.

Lemma cont_roundtrip tb v rest :
  v < 2 ^ tb -> cont_decode tb (cont_encode v ++ rest) = Ok (v, rest).
Proof.
  intros Hv. rewrite cont_encode_eq. unfold cont_decode.
  destruct (N.ltb_spec v 128) as [Hlt|Hge].
  - cbn [app read_byte bind]. rewrite cont_bit_clear by lia.
    destruct (N.ltb_spec v 128); [reflexivity|lia].
  - cbn [app read_byte bind]. rewrite cont_bit_clear by lia.
    destruct (N.ltb_spec (v mod 128 + 128) 128); [lia|].
    rewrite land_mask.
    replace ((v mod 128 + 128) mod 128) with (v mod 128) by lia.
    rewrite cont_loop_encode.
    + f_equal. f_equal. change (2 ^ (0 + 7)) with 128. lia.
    + lia.
    + change (2 ^ (0 + 7)) with 128. lia.
    + change (2 ^ (0 + 7)) with 128. lia.
Qed.

(** ** Decoding arbitrary input *)

Lemma cont_loop_sound tb bs : forall shift acc v rest,
  cont_loop tb shift acc bs = Ok (v, rest) ->
  v < 2 ^ tb /\ exists pre, bs = pre ++ rest /\ pre <> [] /\
    shift + 7 * lenN pre < tb.
Proof.
  induction bs as [|b r IH]; intros shift acc v rest; cbn [cont_loop].
  - destruct (tb <=? shift + 7); discriminate.
  - destruct (N.leb_spec tb (shift + 7)) as [|Hlt]; [discriminate|].
    destruct (N.land b CONT_BYTE =? CONT_BYTE).
    + intros H. apply IH in H. destruct H as [Hv [pre [-> [Hn Hl]]]].
      split; [assumption|]. exists (b :: pre). split; [reflexivity|].
      split; [discriminate|]. rewrite lenN_cons. lia.
    + intros H; inversion H; subst. split.
      * apply N.mod_lt. apply N.pow_nonzero. lia.
      * exists [b]. split; [reflexivity|]. split; [discriminate|].
        change (lenN [b]) with 1. lia.
Qed.

(** Everything [cont_decode] accepts: at least one and at most [ceil(BITS/7)]
    bytes of the input are consumed and the value is in range. *)
Lemma cont_decode_sound tb bs v rest :
  8 <= tb -> bytes_ok bs = true ->
  cont_decode tb bs = Ok (v, rest) ->
  v < 2 ^ tb /\ exists pre, bs = pre ++ rest /\ pre <> [] /\ 7 * lenN pre < tb + 7.
Proof.
  intros Ht Hok. unfold cont_decode. destruct bs as [|b r]; [discriminate|].
  cbn [read_byte bind]. rewrite bytes_ok_cons in Hok. unfold byte_ok in Hok.
  rewrite cont_bit_clear by lia.
  destruct (N.ltb_spec b 128) as [Hb|Hb].
  - intros H; inversion H; subst. split.
    + eapply N.lt_le_trans; [exact Hb|]. change 128 with (2 ^ 7).
      apply N.pow_le_mono_r; lia.
    + exists [v]. split; [reflexivity|]. split; [discriminate|].
      change (lenN [v]) with 1. lia.
  - intros H. apply cont_loop_sound in H. destruct H as [Hv [pre [-> [Hn Hl]]]].
    split; [assumption|]. exists (b :: pre). split; [reflexivity|].
    split; [discriminate|]. rewrite lenN_cons. lia.
Qed.

Lemma cont_loop_no_panic tb bs : forall shift acc, cont_loop tb shift acc bs <> Panic.
Proof.
  induction bs as [|b r IH]; intros shift acc; cbn [cont_loop];
    destruct (tb <=? shift + 7); try discriminate.
  destruct (N.land b CONT_BYTE =? CONT_BYTE); [apply IH|discriminate].
Qed.

Lemma cont_decode_no_panic tb bs : cont_decode tb bs <> Panic.
Proof.
  unfold cont_decode. destruct bs as [|b r]; cbn; [discriminate|].
  destruct (_ =? 0); [discriminate|apply cont_loop_no_panic].
Qed.

(** A decoder whose answer does not depend on what follows the bytes it used. *)
Definition extends {A} (d : dec A) : Prop :=
  forall bs v rest ext, d bs = Ok (v, rest) -> d (bs ++ ext) = Ok (v, rest ++ ext).

Lemma cont_loop_ext tb bs : forall shift acc v rest ext,
  cont_loop tb shift acc bs = Ok (v, rest) ->
  cont_loop tb shift acc (bs ++ ext) = Ok (v, rest ++ ext).
Proof.
  induction bs as [|b r IH]; intros shift acc v rest ext; cbn [cont_loop app].
  - destruct (tb <=? shift + 7); discriminate.
  - destruct (tb <=? shift + 7); [discriminate|].
    destruct (N.land b CONT_BYTE =? CONT_BYTE).
    + apply IH.
    + intros H; inversion H; reflexivity.
Qed.

Lemma read_byte_ext : extends read_byte.
Proof. intros [|b r] v rest ext H; inversion H; subst; reflexivity. Qed.

Lemma read_bytes_ext n : extends (read_bytes n).
Proof.
  intros bs v rest ext. unfold read_bytes.
  destruct (take_opt n bs) as [[h t]|] eqn:E; [|discriminate].
  intros H; inversion H; subst. apply take_opt_some in E. destruct E as [-> <-].
  rewrite <- app_assoc, take_opt_app. reflexivity.
Qed.

Lemma extends_bind {A B} (d : dec A) (f : A -> dec B) :
  extends d -> (forall a, extends (f a)) ->
  extends (fun bs => let* (a, r) := d bs in f a r).
Proof.
  intros Hd Hf bs v rest ext H. inv_bind H. destruct a as [a r].
  rewrite (Hd _ _ _ ext H0). cbn. apply Hf. exact H.
Qed.

Lemma extends_ret {A} (a : A) : extends (fun bs => Ok (a, bs)).
Proof. intros bs v rest ext H; inversion H; subst; reflexivity. Qed.

Lemma extends_err {A} : extends (fun _ => @Err (A * bytes)).
Proof. intros bs v rest ext H; discriminate. Qed.

Lemma extends_if {A} (b : bool) (d1 d2 : dec A) :
  extends d1 -> extends d2 -> extends (if b then d1 else d2).
Proof. destruct b; auto. Qed.

Lemma cont_decode_ext tb : extends (cont_decode tb).
Proof.
  apply (extends_bind read_byte
    (fun b r => if N.land b CONT_BYTE =? 0 then Ok (b, r)
                else cont_loop tb 0 (N.land b MASK_BYTE) r)).
  - apply read_byte_ext.
  - intros b. destruct (_ =? 0); [apply extends_ret|].
    intros bs v rest ext. apply cont_loop_ext.
Qed.

(** ** Two's complement and zigzag *)

Definition in_s (tb : N) (z : Z) : Prop :=
  (- 2 ^ (Z.of_N tb - 1) <= z < 2 ^ (Z.of_N tb - 1))%Z.

Lemma pow_half tb : 0 < tb -> (2 ^ Z.of_N tb = 2 * 2 ^ (Z.of_N tb - 1))%Z.
Proof.
  intros H. rewrite <- Z.pow_succ_r by lia. f_equal. lia.
Qed.

Lemma of_N_pow tb : Z.of_N (2 ^ tb) = (2 ^ Z.of_N tb)%Z.
Proof. rewrite N2Z.inj_pow. reflexivity. Qed.

Lemma of_N_pow1 tb : 0 < tb -> Z.of_N (2 ^ (tb - 1)) = (2 ^ (Z.of_N tb - 1))%Z.
Proof. intros H. rewrite N2Z.inj_pow. f_equal. lia. Qed.

Lemma to_u_lt tb z : 0 < tb -> to_u tb z < 2 ^ tb.
Proof.
  intros H. unfold to_u.
  pose proof (Z.mod_pos_bound z (2 ^ Z.of_N tb)). pose proof (of_N_pow tb).
  assert (0 < 2 ^ Z.of_N tb)%Z by (apply Z.pow_pos_nonneg; lia). lia.
Qed.

Lemma to_s_range tb n : 0 < tb -> n < 2 ^ tb -> in_s tb (to_s tb n).
Proof.
  intros H Hn. unfold to_s, in_s. pose proof (pow_half tb H). pose proof (of_N_pow tb).
  pose proof (of_N_pow1 tb H).
  destruct (N.ltb_spec n (2 ^ (tb - 1))); lia.
Qed.

Lemma to_s_to_u tb z : 0 < tb -> in_s tb z -> to_s tb (to_u tb z) = z.
Proof.
  intros H [Hl Hh]. unfold to_s, to_u. pose proof (pow_half tb H) as E.
  pose proof (of_N_pow1 tb H) as E1.
  set (P := (2 ^ (Z.of_N tb - 1))%Z) in *.
  destruct (Z.leb_spec 0 z).
  - rewrite Z.mod_small by lia. 
    destruct (N.ltb_spec (Z.to_N z) (2 ^ (tb - 1))); lia.
  - assert (Em : (z mod 2 ^ Z.of_N tb = z + 2 ^ Z.of_N tb)%Z).
    { symmetry. apply Z.mod_unique with (q := (-1)%Z); lia. }
    rewrite Em. destruct (N.ltb_spec (Z.to_N (z + 2 ^ Z.of_N tb)) (2 ^ (tb - 1))); lia.
Qed.

Lemma to_u_to_s tb n : 0 < tb -> n < 2 ^ tb -> to_u tb (to_s tb n) = n.
Proof.
  intros H Hn. unfold to_s, to_u. pose proof (of_N_pow tb).
  destruct (N.ltb_spec n (2 ^ (tb - 1))).
  - rewrite Z.mod_small by lia. lia.
  - rewrite <- (Z.mod_unique (Z.of_N n - 2 ^ Z.of_N tb) (2 ^ Z.of_N tb) (-1) (Z.of_N n)); lia.
Qed.

Lemma lxor_ones_sub tb n : n < 2 ^ tb -> N.lxor (N.ones tb) n = 2 ^ tb - 1 - n.
Proof.
  intros H. rewrite N.lxor_comm.
  replace (N.lxor n (N.ones tb)) with (N.lnot n tb) by reflexivity.
  destruct (N.eq_dec n 0) as [->|Hz].
  - change (N.lnot 0 tb) with (N.ones tb). rewrite N.ones_equiv. lia.
  - rewrite N.lnot_sub_low by (apply N.log2_lt_pow2; lia).
    rewrite N.ones_equiv. lia.
Qed.

(** Closed form of [zig_encode]: [2x] for non-negative, [-2x - 1] for negative. *)
Lemma zig_encode_closed tb x : 0 < tb -> in_s tb x ->
  Z.of_N (zig_encode tb x) = (if (0 <=? x)%Z then 2 * x else - (2 * x) - 1)%Z.
Proof.
  intros H [Hl Hh]. unfold zig_encode. pose proof (pow_half tb H) as E.
  pose proof (of_N_pow tb) as E2.
  rewrite Z.shiftl_mul_pow2, Z.shiftr_div_pow2 by lia. change (2 ^ 1)%Z with 2%Z.
  set (P := (2 ^ (Z.of_N tb - 1))%Z) in *.
  assert (HP : (0 < P)%Z) by (apply Z.pow_pos_nonneg; lia).
  destruct (Z.leb_spec 0 x).
  - rewrite Z.div_small by lia. unfold to_u. rewrite Zmod_0_l. cbn [Z.to_N].
    rewrite N.lxor_0_l, Z.mod_small by lia. lia.
  - assert (Ed : (x / P = -1)%Z).
    { symmetry. apply Z.div_unique with (r := (x + P)%Z); lia. }
    rewrite Ed. unfold to_u at 1.
    assert (Em : (-1 mod 2 ^ Z.of_N tb = 2 ^ Z.of_N tb - 1)%Z).
    { symmetry. apply Z.mod_unique with (q := (-1)%Z); lia. }
    rewrite Em. replace (Z.to_N (2 ^ Z.of_N tb - 1)) with (N.ones tb)
      by (rewrite N.ones_equiv; lia).
    rewrite lxor_ones_sub by (apply to_u_lt; assumption).
    unfold to_u.
    assert (Em2 : (x * 2 mod 2 ^ Z.of_N tb = x * 2 + 2 ^ Z.of_N tb)%Z).
    { symmetry. apply Z.mod_unique with (q := (-1)%Z); lia. }
    rewrite Em2. lia.
Qed.

Lemma zig_encode_lt tb x : 0 < tb -> in_s tb x -> zig_encode tb x < 2 ^ tb.
Proof.
  intros H Hx. pose proof (zig_encode_closed tb x H Hx). destruct Hx.
  pose proof (pow_half tb H). pose proof (of_N_pow tb).
  destruct (0 <=? x)%Z eqn:?; lia.
Qed.

Lemma even_mod n : N.even n = (n mod 2 =? 0).
Proof.
  rewrite <- N.negb_odd, <- N.bit0_odd. pose proof (N.bit0_mod n) as H.
  destruct (N.testbit n 0); cbn [N.b2n negb] in *; rewrite <- H; reflexivity.
Qed.

(** Closed form of [zig_decode]. *)
Lemma zig_decode_closed tb n : 1 < tb -> n < 2 ^ tb ->
  zig_decode tb n = (if N.even n then Z.of_N (n / 2) else - Z.of_N (n / 2) - 1)%Z.
Proof.
  intros H Hn. unfold zig_decode.
  pose proof (of_N_pow1 tb ltac:(lia)) as E1. pose proof (of_N_pow tb) as E2.
  pose proof (pow_half tb ltac:(lia)) as E.
  assert (H2 : 2 <= 2 ^ (tb - 1)).
  { change 2 with (2 ^ 1) at 1. apply N.pow_le_mono_r; lia. }
  change 1 with (N.ones 1) at 2. rewrite N.land_ones. change (2 ^ 1) with 2.
  rewrite N.shiftr_div_pow2. change (2 ^ 1) with 2.
  assert (Hd : to_s tb (n / 2) = Z.of_N (n / 2)).
  { unfold to_s. destruct (N.ltb_spec (n / 2) (2 ^ (tb - 1))); [reflexivity|]. lia. }
  rewrite Hd.
  assert (Hm : to_s tb (n mod 2) = Z.of_N (n mod 2)).
  { unfold to_s. destruct (N.ltb_spec (n mod 2) (2 ^ (tb - 1))); [reflexivity|]. lia. }
  rewrite Hm, even_mod. destruct (N.eqb_spec (n mod 2) 0) as [Hz|Hz].
  - rewrite Hz. change (- Z.of_N 0)%Z with 0%Z. rewrite Z.lxor_0_r. lia.
  - replace (n mod 2) with 1 by lia. change (- Z.of_N 1)%Z with (-1)%Z.
    rewrite Z.lxor_m1_r. unfold Z.lnot. lia.
Qed.

Lemma zig_roundtrip tb x : 1 < tb -> in_s tb x -> zig_decode tb (zig_encode tb x) = x.
Proof.
  intros H Hx. pose proof (zig_encode_closed tb x ltac:(lia) Hx) as E.
  rewrite zig_decode_closed; [|assumption|apply zig_encode_lt; [lia|assumption]].
  set (n := zig_encode tb x) in *.
  rewrite even_mod.
  destruct (0 <=? x)%Z eqn:?; destruct (N.eqb_spec (n mod 2) 0); lia.
Qed.

Lemma zig_decode_range tb n : 1 < tb -> n < 2 ^ tb -> in_s tb (zig_decode tb n).
Proof.
  intros H Hn. rewrite zig_decode_closed by assumption. unfold in_s.
  pose proof (pow_half tb ltac:(lia)). pose proof (of_N_pow tb).
  destruct (N.even n); lia.
Qed.

Lemma zig_encode_decode tb n : 1 < tb -> n < 2 ^ tb -> zig_encode tb (zig_decode tb n) = n.
Proof.
  intros H Hn. pose proof (zig_decode_range tb n H Hn) as Hr.
  pose proof (zig_encode_closed tb _ ltac:(lia) Hr) as E.
  pose proof (zig_decode_closed tb n H Hn) as Ed. rewrite even_mod in Ed.
  set (z := zig_decode tb n) in *. set (m := zig_encode tb z) in *.
  destruct (N.eqb_spec (n mod 2) 0); destruct (Z.leb_spec 0 z); lia.
Qed.

(** ** Fixed width *)

Lemma to_le_length n v : length (to_le n v) = n.
Proof. revert v; induction n as [|n IH]; intros v; cbn; [|rewrite IH]; reflexivity. Qed.

Lemma to_le_bytes_ok n v : bytes_ok (to_le n v) = true.
Proof.
  revert v; induction n as [|n IH]; intros v; cbn [to_le]; [reflexivity|].
  rewrite bytes_ok_cons, IH. unfold byte_ok. lia.
Qed.

Lemma pow256_succ n : 256 ^ N.of_nat (S n) = 256 * 256 ^ N.of_nat n.
Proof. rewrite Nat2N.inj_succ, N.pow_succ_r'. reflexivity. Qed.

Lemma of_le_to_le n v : v < 256 ^ N.of_nat n -> of_le (to_le n v) = v.
Proof.
  revert v; induction n as [|n IH]; intros v H.
  - cbn in *. lia.
  - rewrite pow256_succ in H. cbn [to_le of_le].
    rewrite IH by (apply N.div_lt_upper_bound; lia). lia.
Qed.

Lemma of_le_lt bs : bytes_ok bs = true -> of_le bs < 256 ^ lenN bs.
Proof.
  induction bs as [|b r IH]; intros H; [cbn; lia|].
  rewrite bytes_ok_cons in H. apply andb_true_iff in H. destruct H as [Hb Hr].
  unfold byte_ok in Hb. unfold lenN in *. cbn [length of_le].
  rewrite pow256_succ. specialize (IH Hr). lia.
Qed.

Lemma to_le_of_le bs : bytes_ok bs = true -> to_le (length bs) (of_le bs) = bs.
Proof.
  induction bs as [|b r IH]; intros H; [reflexivity|].
  rewrite bytes_ok_cons in H. apply andb_true_iff in H. destruct H as [Hb Hr].
  unfold byte_ok in Hb. cbn [length of_le to_le].
  replace ((b + 256 * of_le r) mod 256) with b by lia.
  replace ((b + 256 * of_le r) / 256) with (of_le r) by lia.
  rewrite IH by assumption. reflexivity.
Qed.

Lemma bytes_ok_rev bs : bytes_ok (rev bs) = bytes_ok bs.
Proof.
  unfold bytes_ok. induction bs as [|b r IH]; cbn; [reflexivity|].
  rewrite forallb_app, IH. cbn. rewrite andb_true_r. apply andb_comm.
Qed.

Lemma lenN_rev {A} (l : list A) : lenN (rev l) = lenN l.
Proof. unfold lenN. now rewrite rev_length. Qed.

Lemma swap_bytes_le n v : to_le n (swap_bytes n v) = rev (to_le n v).
Proof.
  unfold swap_bytes.
  assert (E : n = length (rev (to_le n v))) by (rewrite rev_length, to_le_length; reflexivity).
  rewrite E at 1. apply to_le_of_le. rewrite bytes_ok_rev. apply to_le_bytes_ok.
Qed.

(** What a fixed integer looks like on the wire, independent of the target. *)
Definition fixed_bytes (bo : ByteOrder) (n : nat) (v : N) : bytes :=
  match bo with Little => to_le n v | Big => rev (to_le n v) end.

Lemma write_int_eq p bo n v : write_int p bo n v = fixed_bytes bo n v.
Proof.
  unfold write_int, to_ne, fixed_bytes. destruct p as [nb pt]; cbn.
  destruct bo, nb; cbn; rewrite ?swap_bytes_le, ?rev_involutive; reflexivity.
Qed.

Lemma fixed_bytes_len bo n v : lenN (fixed_bytes bo n v) = N.of_nat n.
Proof. destruct bo; cbn; rewrite ?lenN_rev; unfold lenN; now rewrite to_le_length. Qed.

Lemma fixed_bytes_ok bo n v : bytes_ok (fixed_bytes bo n v) = true.
Proof. destruct bo; cbn; rewrite ?bytes_ok_rev; apply to_le_bytes_ok. Qed.

Definition of_fixed (bo : ByteOrder) (bs : bytes) : N :=
  match bo with Little => of_le bs | Big => of_le (rev bs) end.

Lemma of_fixed_lt bo bs : bytes_ok bs = true -> of_fixed bo bs < 256 ^ lenN bs.
Proof.
  intros H. destruct bo; cbn.
  - apply of_le_lt; assumption.
  - rewrite <- lenN_rev. apply of_le_lt. now rewrite bytes_ok_rev.
Qed.

Lemma of_fixed_fixed bo n v :
  v < 256 ^ N.of_nat n -> of_fixed bo (fixed_bytes bo n v) = v.
Proof.
  intros H. destruct bo; cbn; rewrite ?rev_involutive; apply of_le_to_le; assumption.
Qed.

Lemma read_int_eq p bo n bs : bytes_ok bs = true ->
  read_int p bo n bs =
  match take_opt (N.of_nat n) bs with
  | Some (h, t) => Ok (of_fixed bo h, t)
  | None => Err
  end.
Proof.
  intros Hok. unfold read_int, read_bytes.
  destruct (take_opt _ bs) as [[h t]|] eqn:E; [|reflexivity].
  apply take_opt_some in E. destruct E as [-> El]. cbn [bind].
  rewrite bytes_ok_app in Hok.
  assert (Hh : bytes_ok h = true) by (destruct (bytes_ok h); [reflexivity|discriminate]).
  assert (Hn : n = length h) by (unfold lenN in El; lia).
  f_equal. f_equal. destruct p as [nb pt]. unfold of_ne, of_fixed. cbn [native_bo].
  destruct bo, nb; cbn; try reflexivity; unfold swap_bytes; rewrite Hn.
  - rewrite <- rev_length. rewrite to_le_of_le by now rewrite bytes_ok_rev.
    now rewrite rev_involutive.
  - now rewrite to_le_of_le.
Qed.

Lemma read_int_ext p bo n : extends (read_int p bo n).
Proof.
  apply (extends_bind (read_bytes (N.of_nat n))
    (fun h r => Ok (if byteorder_eqb bo (native_bo p) then of_ne p h
                    else swap_bytes n (of_ne p h), r))).
  - apply read_bytes_ext.
  - intros a. apply extends_ret.
Qed.

Lemma pow_bits w : 2 ^ bits w = 256 ^ N.of_nat (nbytes w).
Proof. destruct w; reflexivity. Qed.

Lemma read_write_int p bo n v rest : v < 256 ^ N.of_nat n ->
  read_int p bo n (write_int p bo n v ++ rest) = Ok (v, rest).
Proof.
  intros Hv. rewrite write_int_eq.
  pose proof (fixed_bytes_len bo n v) as El.
  assert (E : read_int p bo n (fixed_bytes bo n v) = Ok (v, [])).
  { rewrite read_int_eq by apply fixed_bytes_ok.
    rewrite <- El. rewrite <- (app_nil_r (fixed_bytes bo n v)) at 2.
    rewrite take_opt_app. now rewrite of_fixed_fixed. }
  apply (read_int_ext p bo n _ _ _ rest) in E. exact E.
Qed.

Lemma bytes_ok_split a b : bytes_ok (a ++ b) = true <-> bytes_ok a = true /\ bytes_ok b = true.
Proof. rewrite bytes_ok_app. apply andb_true_iff. Qed.

Lemma read_int_sound p bo n bs v rest : bytes_ok bs = true ->
  read_int p bo n bs = Ok (v, rest) ->
  v < 256 ^ N.of_nat n /\ exists h, bs = h ++ rest /\ lenN h = N.of_nat n
    /\ h = fixed_bytes bo n v.
Proof.
  intros Hok. rewrite read_int_eq by assumption.
  destruct (take_opt _ bs) as [[h t]|] eqn:E; [|discriminate].
  intros H; inversion H; subst. apply take_opt_some in E. destruct E as [-> El].
  apply bytes_ok_split in Hok. destruct Hok as [Hh Ht].
  split; [rewrite <- El; apply of_fixed_lt; assumption|].
  exists h. split; [reflexivity|]. split; [assumption|].
  unfold lenN in El. assert (n = length h) by lia. subst n.
  destruct bo; cbn.
  - now rewrite to_le_of_le.
  - rewrite <- rev_length, to_le_of_le by now rewrite bytes_ok_rev.
    now rewrite rev_involutive.
Qed.

(** ** The option-directed integer functions *)

Lemma bits_gt w : 8 <= bits w. Proof. destruct w; cbn; lia. Qed.
Lemma usize_bits_ge p : 16 <= usize_bits p.
Proof. unfold usize_bits. destruct (ptr p); cbn; lia. Qed.

Lemma unsigned_roundtrip p o w v rest : v < 2 ^ bits w ->
  decode_unsigned p o w (encode_unsigned p o w v ++ rest) = Ok (v, rest).
Proof.
  intros Hv. unfold decode_unsigned, encode_unsigned. destruct (integer_value o).
  - now apply cont_roundtrip.
  - apply read_write_int. now rewrite <- pow_bits.
Qed.

Lemma signed_roundtrip p o w v rest : in_s (bits w) v ->
  decode_signed p o w (encode_signed p o w v ++ rest) = Ok (v, rest).
Proof.
  intros Hv. unfold decode_signed, encode_signed. pose proof (bits_gt w).
  destruct (integer_value o).
  - rewrite cont_roundtrip by (apply zig_encode_lt; [lia|assumption]).
    cbn. rewrite zig_roundtrip by (assumption || lia). reflexivity.
  - rewrite read_write_int by (rewrite <- pow_bits; apply to_u_lt; lia).
    cbn. rewrite to_s_to_u by (assumption || lia). reflexivity.
Qed.

Lemma usize_roundtrip p o v bs rest : v < 2 ^ usize_bits p ->
  encode_usize p o v = Ok bs ->
  decode_usize p o (bs ++ rest) = Ok (v, rest).
Proof.
  intros Hv.
  assert (Hf : forall w,
    (if v <? 2 ^ bits (width_int w)
     then Ok (write_int p (byteorder_value o) (nbytes (width_int w)) v) else Err) = Ok bs ->
    (let* (v, r) := read_int p (byteorder_value o) (nbytes (width_int w)) (bs ++ rest) in
     if v <? 2 ^ usize_bits p then Ok (v, r) else Err) = Ok (v, rest)).
  { intros w. destruct (N.ltb_spec v (2 ^ bits (width_int w))) as [Hb|Hb]; [|discriminate].
    intros H. injection H as <-.
    rewrite read_write_int by (rewrite <- pow_bits; assumption).
    cbn [bind]. destruct (N.ltb_spec v (2 ^ usize_bits p)); [reflexivity|lia]. }
  unfold decode_usize, encode_usize. destruct (length_value o); try apply Hf.
  intros H. injection H as <-. now apply cont_roundtrip.
Qed.

Lemma decode_unsigned_ext p o w : extends (decode_unsigned p o w).
Proof.
  unfold decode_unsigned. destruct (integer_value o);
    [apply cont_decode_ext|apply read_int_ext].
Qed.

Lemma decode_signed_ext p o w : extends (decode_signed p o w).
Proof.
  unfold decode_signed. destruct (integer_value o).
  - apply (extends_bind (cont_decode (bits w)) (fun v r => Ok (zig_decode (bits w) v, r)));
      [apply cont_decode_ext|intros; apply extends_ret].
  - apply (extends_bind (read_int p (byteorder_value o) (nbytes w))
             (fun v r => Ok (to_s (bits w) v, r)));
      [apply read_int_ext|intros; apply extends_ret].
Qed.

Lemma decode_usize_ext p o : extends (decode_usize p o).
Proof.
  assert (Hf : forall w, extends (fun bs =>
    let* (v, r) := read_int p (byteorder_value o) (nbytes (width_int w)) bs in
    if v <? 2 ^ usize_bits p then Ok (v, r) else Err)).
  { intros w. apply (extends_bind (read_int p (byteorder_value o) (nbytes (width_int w)))
      (fun v r => if v <? 2 ^ usize_bits p then Ok (v, r) else Err)).
    - apply read_int_ext.
    - intros a. destruct (a <? _); [apply extends_ret|apply extends_err]. }
  unfold decode_usize. destruct (length_value o); first [apply cont_decode_ext | apply Hf].
Qed.

(** Soundness of decoding arbitrary input: in-range value, a non-empty prefix
    consumed. *)
Lemma decode_unsigned_sound p o w bs v rest : bytes_ok bs = true ->
  decode_unsigned p o w bs = Ok (v, rest) ->
  v < 2 ^ bits w /\ exists pre, bs = pre ++ rest /\ pre <> [].
Proof.
  intros Hok. unfold decode_unsigned. destruct (integer_value o); intros H.
  - apply cont_decode_sound in H; [|apply bits_gt|assumption].
    destruct H as [Hv [pre [E [Hn _]]]]. eauto.
  - apply read_int_sound in H; [|assumption]. destruct H as [Hv [h [E [El _]]]].
    rewrite pow_bits. split; [assumption|]. exists h. split; [assumption|].
    intros ->. destruct w; discriminate El.
Qed.

Lemma decode_signed_sound p o w bs v rest : bytes_ok bs = true ->
  decode_signed p o w bs = Ok (v, rest) ->
  in_s (bits w) v /\ exists pre, bs = pre ++ rest /\ pre <> [].
Proof.
  intros Hok. unfold decode_signed. pose proof (bits_gt w).
  destruct (integer_value o); intros H0; inv_bind H0; destruct a as [n r]; inversion H0; subst.
  - apply cont_decode_sound in H1; [|assumption|assumption].
    destruct H1 as [Hv [pre [E [Hn _]]]]. split; [apply zig_decode_range; [lia|assumption]|eauto].
  - apply read_int_sound in H1; [|assumption]. destruct H1 as [Hv [h [E [El _]]]].
    split; [apply to_s_range; [lia|rewrite pow_bits; assumption]|].
    exists h. split; [assumption|]. intros ->. destruct w; discriminate El.
Qed.

Lemma decode_usize_sound p o bs v rest : bytes_ok bs = true ->
  decode_usize p o bs = Ok (v, rest) ->
  v < 2 ^ usize_bits p /\ exists pre, bs = pre ++ rest /\ pre <> [].
Proof.
  intros Hok. pose proof (usize_bits_ge p) as Hu.
  assert (Hf : forall w,
    (let* (v, r) := read_int p (byteorder_value o) (nbytes (width_int w)) bs in
     if v <? 2 ^ usize_bits p then Ok (v, r) else Err) = Ok (v, rest) ->
    v < 2 ^ usize_bits p /\ exists pre, bs = pre ++ rest /\ pre <> []).
  { intros w H. inv_bind H. destruct a as [n r].
    destruct (N.ltb_spec n (2 ^ usize_bits p)); [|discriminate]. inversion H; subst.
    apply read_int_sound in H0; [|assumption]. destruct H0 as [Hv [h [E [El _]]]].
    split; [assumption|]. exists h. split; [assumption|]. intros ->.
    destruct (width_int w); discriminate El. }
  unfold decode_usize. destruct (length_value o); try apply Hf.
  intros H. apply cont_decode_sound in H; [|lia|assumption].
  destruct H as [Hv [pre [E [Hn _]]]]. eauto.
Qed.

Lemma read_int_no_panic p bo n bs : read_int p bo n bs <> Panic.
Proof.
  unfold read_int, read_bytes. destruct (take_opt _ bs) as [[h t]|]; cbn; discriminate.
Qed.

Lemma decode_usize_no_panic p o bs : decode_usize p o bs <> Panic.
Proof.
  assert (Hf : forall w,
    (let* (v, r) := read_int p (byteorder_value o) (nbytes (width_int w)) bs in
     if v <? 2 ^ usize_bits p then Ok (v, r) else Err) <> Panic).
  { intros w. pose proof (read_int_no_panic p (byteorder_value o) (nbytes (width_int w)) bs).
    destruct (read_int _ _ _ bs) as [[v r]| |]; cbn; [|discriminate|congruence].
    destruct (v <? _); discriminate. }
  unfold decode_usize. destruct (length_value o); first [apply cont_decode_no_panic | apply Hf].
Qed.

Lemma decode_unsigned_no_panic p o w bs : decode_unsigned p o w bs <> Panic.
Proof.
  unfold decode_unsigned. destruct (integer_value o);
    [apply cont_decode_no_panic|apply read_int_no_panic].
Qed.

Lemma decode_signed_no_panic p o w bs : decode_signed p o w bs <> Panic.
Proof.
  unfold decode_signed. destruct (integer_value o).
  - pose proof (cont_decode_no_panic (bits w) bs).
    destruct (cont_decode (bits w) bs) as [[v r]| |]; cbn; congruence.
  - pose proof (read_int_no_panic p (byteorder_value o) (nbytes w) bs).
    destruct (read_int _ _ _ bs) as [[v r]| |]; cbn; congruence.
Qed.

Lemma encode_unsigned_bytes_ok p o w v : bytes_ok (encode_unsigned p o w v) = true.
Proof.
  unfold encode_unsigned. destruct (integer_value o); [apply cont_encode_bytes_ok|].
  rewrite write_int_eq. apply fixed_bytes_ok.
Qed.

Lemma encode_signed_bytes_ok p o w v : bytes_ok (encode_signed p o w v) = true.
Proof.
  unfold encode_signed. destruct (integer_value o); [apply cont_encode_bytes_ok|].
  rewrite write_int_eq. apply fixed_bytes_ok.
Qed.

Lemma encode_usize_bytes_ok p o v bs : encode_usize p o v = Ok bs -> bytes_ok bs = true.
Proof.
  assert (Hf : forall w,
    (if v <? 2 ^ bits (width_int w)
     then Ok (write_int p (byteorder_value o) (nbytes (width_int w)) v) else Err) = Ok bs ->
    bytes_ok bs = true).
  { intros w. destruct (v <? _); [|discriminate]. intros H. injection H as <-.
    rewrite write_int_eq. apply fixed_bytes_ok. }
  unfold encode_usize. destruct (length_value o); try apply Hf.
  intros H. injection H as <-. apply cont_encode_bytes_ok.
Qed.

Lemma encode_usize_no_panic p o v : encode_usize p o v <> Panic.
Proof.
  unfold encode_usize. destruct (length_value o); try discriminate;
    destruct (v <? _); discriminate.
Qed.

(** ** Exact characterisation of [cont_decode] *)
From Verif Require Import IntSpec.

Lemma cont_loop_exact tb bs : bytes_ok bs = true -> forall shift acc, acc < 2 ^ tb ->
  cont_loop tb shift acc bs =
  match leb_split bs with
  | Some (h, t) =>
      if shift + 7 * lenN h <? tb
      then Ok ((acc + leb_value h * 2 ^ (shift + 7)) mod 2 ^ tb, t) else Err
  | None => Err
  end.
Proof.
  induction bs as [|b r IH]; intros Hok shift acc Ha; cbn [cont_loop leb_split].
  - destruct (tb <=? shift + 7); reflexivity.
  - rewrite bytes_ok_cons in Hok. apply andb_true_iff in Hok. destruct Hok as [Hb Hr].
    unfold byte_ok in Hb. specialize (IH Hr).
    assert (HP : 2 ^ tb <> 0) by (apply N.pow_nonzero; lia).
    destruct (N.leb_spec tb (shift + 7)) as [Ht|Ht].
    + destruct (N.ltb_spec b 128).
      * change (lenN [b]) with 1. destruct (N.ltb_spec (shift + 7 * 1) tb); [lia|reflexivity].
      * destruct (leb_split r) as [[h t]|]; [|reflexivity].
        rewrite lenN_cons. destruct (N.ltb_spec (shift + 7 * (1 + lenN h)) tb); [lia|reflexivity].
    + rewrite cont_bit_set by lia.
      rewrite land_mask, N.shiftl_mul_pow2, N.add_mod_idemp_r by assumption.
      destruct (N.leb_spec 128 b) as [Hc|Hc]; destruct (N.ltb_spec b 128) as [Hc'|Hc']; try lia.
      * rewrite IH by (apply N.mod_lt; assumption).
        destruct (leb_split r) as [[h t]|]; [|reflexivity].
        rewrite lenN_cons.
        destruct (N.ltb_spec (shift + 7 + 7 * lenN h) tb);
          destruct (N.ltb_spec (shift + 7 * (1 + lenN h)) tb); try lia; [|reflexivity].
        f_equal. f_equal. rewrite N.add_mod_idemp_l by assumption.
        f_equal. cbn [leb_value]. rewrite (N.pow_add_r 2 (shift + 7) 7).
        change (2 ^ 7) with 128. ring.
      * change (lenN [b]) with 1. destruct (N.ltb_spec (shift + 7 * 1) tb); [|lia].
        cbn [leb_value]. f_equal. f_equal. f_equal. lia.
Qed.

Lemma cont_decode_exact tb bs : 8 <= tb -> bytes_ok bs = true ->
  cont_decode tb bs =
  match leb_split bs with
  | Some (h, t) => if 7 * (lenN h - 1) <? tb then Ok (leb_value h mod 2 ^ tb, t) else Err
  | None => Err
  end.
Proof.
  intros Ht Hok. unfold cont_decode. destruct bs as [|b r]; [reflexivity|].
  cbn [read_byte bind leb_split].
  rewrite bytes_ok_cons in Hok. apply andb_true_iff in Hok. destruct Hok as [Hb Hr].
  unfold byte_ok in Hb. rewrite cont_bit_clear by lia.
  assert (H256 : 256 <= 2 ^ tb).
  { change 256 with (2 ^ 8). apply N.pow_le_mono_r; lia. }
  destruct (N.ltb_spec b 128).
  - change (lenN [b]) with 1. destruct (N.ltb_spec (7 * (1 - 1)) tb); [|lia].
    cbn [leb_value]. rewrite (N.mod_small b 128) by lia.
    rewrite N.mod_small by lia. f_equal. f_equal. lia.
  - rewrite land_mask. rewrite cont_loop_exact by (assumption || lia).
    destruct (leb_split r) as [[h t]|]; [|reflexivity].
    rewrite lenN_cons.
    destruct (N.ltb_spec (0 + 7 * lenN h) tb);
      destruct (N.ltb_spec (7 * (1 + lenN h - 1)) tb); try lia; [|reflexivity].
    f_equal. f_equal. f_equal. cbn [leb_value]. change (2 ^ (0 + 7)) with 128. ring.
Qed.

Lemma leb_split_app bs h t : leb_split bs = Some (h, t) -> bs = h ++ t.
Proof.
  revert h; induction bs as [|b r IH]; intros h; cbn; [discriminate|].
  destruct (b <? 128); [intros H; inversion H; reflexivity|].
  destruct (leb_split r) as [[h' t']|]; [|discriminate].
  intros H; inversion H; subst. cbn. f_equal. now apply IH.
Qed.

Lemma cont_encode_length v : lenN (cont_encode v) = 1 + N.log2 v / 7.
Proof.
  induction v as [v IH] using (well_founded_induction N.lt_wf_0).
  rewrite cont_encode_eq. destruct (N.ltb_spec v 128) as [H|H].
  - change (lenN [v]) with 1.
    assert (N.log2 v < 7).
    { destruct (N.eq_dec v 0) as [->|]; [reflexivity|]. apply N.log2_lt_pow2; [lia|].
      exact H. }
    rewrite N.div_small by assumption. reflexivity.
  - rewrite lenN_cons, IH by lia.
    assert (E : N.log2 (v / 128) = N.log2 v - 7).
    { change 128 with (2 ^ 7). rewrite <- N.shiftr_div_pow2. apply N.log2_shiftr. }
    rewrite E.
    assert (7 <= N.log2 v) by (apply N.log2_le_pow2; [lia|exact H]).
    lia.
Qed.

(** The encoder writes exactly the groups of the number. *)
Lemma cont_encode_split v rest : leb_split (cont_encode v ++ rest) = Some (cont_encode v, rest).
Proof.
  induction v as [v IH] using (well_founded_induction N.lt_wf_0).
  rewrite cont_encode_eq. destruct (N.ltb_spec v 128) as [H|H]; cbn [app leb_split].
  - destruct (N.ltb_spec v 128); [reflexivity|lia].
  - destruct (N.ltb_spec (v mod 128 + 128) 128); [lia|].
    rewrite IH by lia. reflexivity.
Qed.

Lemma cont_encode_value v : leb_value (cont_encode v) = v.
Proof.
  induction v as [v IH] using (well_founded_induction N.lt_wf_0).
  rewrite cont_encode_eq. destruct (N.ltb_spec v 128) as [H|H]; cbn [leb_value].
  - rewrite N.mod_small by lia. lia.
  - rewrite IH by lia.
    replace ((v mod 128 + 128) mod 128) with (v mod 128); [lia|].
    replace (v mod 128 + 128) with (v mod 128 + 1 * 128) by lia.
    rewrite N.mod_add by lia. rewrite N.mod_mod by lia. reflexivity.
Qed.

(** A strict prefix of an accepted encoding is rejected. *)
Lemma extends_prefix_err {A} (d : dec A) bs v pre ext :
  extends d -> d bs = Ok (v, []) -> bs = pre ++ ext -> ext <> [] ->
  d pre <> Panic -> d pre = Err.
Proof.
  intros He Hd -> Hx Hp. destruct (d pre) as [[v' r']| |] eqn:E; [|reflexivity|congruence].
  apply (He _ _ _ ext) in E. rewrite Hd in E. inversion E.
  destruct r'; cbn in *; [congruence|discriminate].
Qed.

Lemma number_le_of_le bs : number_le bs = of_le bs.
Proof. induction bs as [|b r IH]; cbn; [reflexivity|now rewrite IH]. Qed.

Lemma number_of_fixed bo bs : number bo bs = of_fixed bo bs.
Proof. destruct bo; cbn; apply number_le_of_le. Qed.

(** ** Statements used by [PropsInt.v] *)

Lemma variable_format p o w v rest : integer_value o = IVariable ->
  let e := encode_unsigned p o w v in
  leb_split (e ++ rest) = Some (e, rest) /\ leb_value e = v /\
  lenN e = 1 + N.log2 v / 7 /\ bytes_ok e = true.
Proof.
  intros H. unfold encode_unsigned. rewrite H. repeat split.
  - apply cont_encode_split.
  - apply cont_encode_value.
  - apply cont_encode_length.
  - apply cont_encode_bytes_ok.
Qed.

Lemma zigzag_rt w z : signed_range (bits w) z -> zig_decode (bits w) (zig_encode (bits w) z) = z.
Proof. apply zig_roundtrip. pose proof (bits_gt w). lia. Qed.

Lemma zigzag_bij w :
  (forall z, signed_range (bits w) z -> zig_encode (bits w) z < 2 ^ bits w) /\
  (forall n, n < 2 ^ bits w ->
     signed_range (bits w) (zig_decode (bits w) n) /\
     zig_encode (bits w) (zig_decode (bits w) n) = n).
Proof.
  pose proof (bits_gt w). split.
  - intros z. apply zig_encode_lt. lia.
  - intros n Hn. split; [apply zig_decode_range|apply zig_encode_decode]; lia.
Qed.

Lemma zigzag_small w z : signed_range (bits w) z ->
  (Z.of_N (zig_encode (bits w) z) <= 2 * Z.abs z)%Z.
Proof.
  intros Hz. pose proof (bits_gt w). rewrite zig_encode_closed by (assumption || lia).
  destruct (0 <=? z)%Z eqn:?; lia.
Qed.

Lemma fixed_format p o w v : integer_value o = IFixed -> v < 2 ^ bits w ->
  let e := encode_unsigned p o w v in
  lenN e * 8 = bits w /\ number (byteorder_value o) e = v /\ bytes_ok e = true.
Proof.
  intros H Hv. unfold encode_unsigned. rewrite H, write_int_eq. repeat split.
  - rewrite fixed_bytes_len. destruct w; reflexivity.
  - rewrite number_of_fixed. apply of_fixed_fixed. now rewrite <- pow_bits.
  - apply fixed_bytes_ok.
Qed.

Lemma fixed_mirror p ol ob w v : integer_value ol = IFixed -> integer_value ob = IFixed ->
  byteorder_value ol = Little -> byteorder_value ob = Big ->
  encode_unsigned p ob w v = rev (encode_unsigned p ol w v).
Proof.
  intros H1 H2 H3 H4. unfold encode_unsigned. rewrite H1, H2, H3, H4, !write_int_eq.
  reflexivity.
Qed.

Lemma usize_fits p o v :
  encode_usize p o v <> Panic /\
  (encode_usize p o v = Err <->
   length_value o <> WVariable /\ 2 ^ bits (width_int (length_value o)) <= v).
Proof.
  unfold encode_usize.
  assert (Hf : forall w, w <> WVariable ->
    (if v <? 2 ^ bits (width_int w) then
      Ok (write_int p (byteorder_value o) (nbytes (width_int w)) v) else Err) <> Panic /\
    ((if v <? 2 ^ bits (width_int w) then
      Ok (write_int p (byteorder_value o) (nbytes (width_int w)) v) else Err) = Err <->
     w <> WVariable /\ 2 ^ bits (width_int w) <= v)).
  { intros w Hw. destruct (N.ltb_spec v (2 ^ bits (width_int w))).
    - split; [discriminate|]. split; [discriminate|intros [_ H']; lia].
    - split; [discriminate|]. split; auto. }
  destruct (length_value o); try (apply Hf; discriminate).
  split; [discriminate|]. split; [discriminate|intros [H _]; congruence].
Qed.

Lemma decode_exact p o w bs : integer_value o = IVariable -> bytes_ok bs = true ->
  decode_unsigned p o w bs =
  match leb_split bs with
  | Some (h, t) =>
      if 7 * (lenN h - 1) <? bits w then Ok (leb_value h mod 2 ^ bits w, t) else Err
  | None => Err
  end.
Proof.
  intros H Hok. unfold decode_unsigned. rewrite H.
  apply cont_decode_exact; [apply bits_gt|assumption].
Qed.

Lemma decode_bounded p o w bs : integer_value o = IVariable -> bytes_ok bs = true ->
  decode_unsigned p o w bs <> Panic /\
  (forall v rest, decode_unsigned p o w bs = Ok (v, rest) ->
     v < 2 ^ bits w /\
     exists h, bs = h ++ rest /\ 1 <= lenN h /\ 7 * (lenN h - 1) < bits w).
Proof.
  intros H Hok. split; [apply decode_unsigned_no_panic|].
  intros v rest. unfold decode_unsigned. rewrite H. intros Hd.
  apply cont_decode_sound in Hd; [|apply bits_gt|assumption].
  destruct Hd as (Hv & h & E & Hn & Hl). split; [assumption|]. exists h.
  pose proof (bits_gt w).
  destruct h as [|b h]; [congruence|]. rewrite lenN_cons in *.
  repeat split; [assumption|lia|lia].
Qed.

Lemma decode_truncated p o w v pre ext : integer_value o = IVariable -> v < 2 ^ bits w ->
  encode_unsigned p o w v = pre ++ ext -> ext <> [] ->
  decode_unsigned p o w pre = Err.
Proof.
  intros H Hv He Hx.
  eapply extends_prefix_err with (bs := encode_unsigned p o w v) (v := v); try eassumption.
  - apply decode_unsigned_ext.
  - pose proof (unsigned_roundtrip p o w v [] Hv) as E. now rewrite app_nil_r in E.
  - apply decode_unsigned_no_panic.
Qed.
