(** Property C66: integers in JSON with the [parse-full] feature, where they may have a fraction and an
    exponent. Specification used: [JsonNumSpec.v].

    [tb]: the number of bits of the integer type. [oc] says whether arithmetic overflow checks are
    compiled in (debug builds). *)
From Verif Require Import Base Options Int Utf8 Types Json JsonNum JsonSpec JsonNumSpec BaseFacts JsonFacts JsonSafe JsonMore
  JsonNumFacts.
Local Open Scope N_scope.

(** * C66 *)

(** With overflow checks an unsigned integer is only read off the text of a number (where the digits after the
    point and of the exponent may be missing) that is equal to it. *)
Theorem C66_unsigned_exact :
  forall tb bs n r, 8 <= tb ->
    parse_unsigned_full true tb bs = Ok (n, r) ->
    n < 2 ^ tb /\
    exists w ds fs e s, space w /\ bs = w ++ s ++ r /\ decimal true ds fs e s /\ equals ds fs e n.
Proof. intros tb bs n r Ht H. apply parse_unsigned_full_exact in H; [exact H|lia]. Qed.
Print Assumptions C66_unsigned_exact.

Theorem C66_signed_exact :
  forall tb bs z r, 8 <= tb ->
    parse_signed_full true tb bs = Ok (z, r) ->
    in_sb tb z = true /\
    exists w neg ds fs e s n, space w /\ bs = w ++ (sign neg ++ s) ++ r /\ decimal true ds fs e s /\
      z = z_of neg n /\ equals ds fs e n.
Proof. intros tb bs z r Ht H. apply parse_signed_full_exact in H; [exact H|lia]. Qed.
Print Assumptions C66_signed_exact.

(** The text of a number equal to an integer of the type is accepted. Missing (see the refuted claims below):
    - zero with an exponent;
    - a positive exponent less than the number of digits after the point when these are all zero;
    - a negative exponent when the digits before the point are too large for the type;
    - exponents outside of the range of [i32]. *)
Theorem C66_unsigned_accepts_partial :
  forall oc tb w ds fs e s n rest,
    space w -> decimal false ds fs e s -> ends rest = true -> equals ds fs e n -> n < 2 ^ tb ->
    n <> 0 \/ e = 0%Z ->
    ((0 < e)%Z -> JsonNumSpec.value fs = 0 -> (Z.of_nat (length fs) <= e)%Z) ->
    ((e < 0)%Z -> JsonNumSpec.value ds < 2 ^ tb) ->
    (- 2 ^ 31 < e < 2 ^ 31)%Z ->
    parse_unsigned_full oc tb (w ++ s ++ rest) = Ok (n, rest).
Proof. intros. eapply parse_unsigned_full_accepts; eassumption. Qed.
Print Assumptions C66_unsigned_accepts_partial.

Theorem C66_signed_accepts_partial :
  forall oc tb w neg ds fs e s n rest, 1 <= tb ->
    space w -> decimal false ds fs e s -> ends rest = true -> equals ds fs e n -> in_sb tb (z_of neg n) = true ->
    n <> 0 \/ e = 0%Z ->
    ((0 < e)%Z -> JsonNumSpec.value fs = 0 -> (Z.of_nat (length fs) <= e)%Z) ->
    ((e < 0)%Z -> JsonNumSpec.value ds < 2 ^ tb) ->
    (- 2 ^ 31 < e < 2 ^ 31)%Z ->
    parse_signed_full oc tb (w ++ (sign neg ++ s) ++ rest) = Ok (z_of neg n, rest).
Proof. intros. eapply parse_signed_full_accepts; eassumption. Qed.
Print Assumptions C66_signed_accepts_partial.

(** On the text of an integer without fraction and exponent the feature makes no difference. *)
Theorem C66_agrees :
  forall oc tb w neg n s rest, space w -> int_text n s -> ends rest = true ->
    parse_unsigned_full oc tb (w ++ s ++ rest) = parse_unsigned oc tb (w ++ s ++ rest) /\
    parse_signed_full oc tb (w ++ (sign neg ++ s) ++ rest) = parse_signed oc tb (w ++ (sign neg ++ s) ++ rest).
Proof.
  intros oc tb w neg n s rest Hw Hs He. split; [exact (parse_unsigned_full_int oc tb w n s rest Hw Hs He)|].
  exact (parse_signed_full_int oc tb w neg n s rest Hw Hs He).
Qed.
Print Assumptions C66_agrees.

(** Without overflow checks any input gives an integer of the type and a proper suffix of the input, or an error. *)
Theorem C66_safe :
  forall tb bs, 8 <= tb ->
    match parse_unsigned_full false tb bs with
    | Ok (n, r) => n < 2 ^ tb /\ exists pre, pre <> [] /\ bs = pre ++ r
    | Err => True
    | Panic => False
    end /\
    match parse_signed_full false tb bs with
    | Ok (z, r) => in_sb tb z = true /\ exists pre, pre <> [] /\ bs = pre ++ r
    | Err => True
    | Panic => False
    end.
Proof.
  intros tb bs Ht. split.
  - pose proof (parse_unsigned_full_post false tb true bs ltac:(auto) ltac:(lia)) as P.
    destruct (parse_unsigned_full false tb bs) as [[n r]| |]; [exact P|exact I|discriminate P].
  - pose proof (parse_signed_full_post false tb true bs ltac:(auto) ltac:(lia)) as P.
    destruct (parse_signed_full false tb bs) as [[n r]| |]; [exact P|exact I|discriminate P].
Qed.
Print Assumptions C66_safe.

Local Ltac ds := repeat (apply Forall_cons; [red; lia|]); apply Forall_nil.

(** The text of a number that is equal to an integer of the type, [u8], but an error: 0e3, 1.00e1 and 1000e-1 *)
Theorem C66_accepts_refuted :
  exists l, (length l = 3)%nat /\
    forall ds fs e s n, In (ds, fs, e, s, n) l ->
      decimal false ds fs e s /\ equals ds fs e n /\ n < 2 ^ 8 /\ (- 2 ^ 31 < e < 2 ^ 31)%Z /\
      forall oc, parse_unsigned_full oc 8 s = Err.
Proof.
  exists [([48], [], 3%Z, [48; 101; 51], 0); ([49], [48; 48], 1%Z, [49; 46; 48; 48; 101; 49], 10);
          ([49; 48; 48; 48], [], (-1)%Z, [49; 48; 48; 48; 101; 45; 49], 100)].
  split; [reflexivity|]. intros ds fs e s n H.
  assert (W : forall l, l <> [] -> Forall digit l -> hd 0 l <> 48 \/ l = [48] -> whole l).
  { intros l H1 H2 H3. split; [assumption|]. split; [assumption|]. split; [|reflexivity]. intros H4. destruct H3; congruence. }
  destruct H as [H|[H|[H|[]]]]; injection H as <- <- <- <- <-.
  - split; [|split; [reflexivity|split; [reflexivity|split; [split; reflexivity|intros [|]; vm_compute; reflexivity]]]].
    exists [], [101; 51]. split; [apply W; [discriminate|ds|now right]|].
    split; [now left|]. split; [|reflexivity]. right. exists 101, [], [51].
    split; [now left|]. split; [now left|]. split; [ds|]. split; [discriminate|]. split; reflexivity.
  - split; [|split; [reflexivity|split; [reflexivity|split; [split; reflexivity|intros [|]; vm_compute; reflexivity]]]].
    exists [46; 48; 48], [101; 49]. split; [apply W; [discriminate|ds|left; discriminate]|].
    split; [right; split; [ds|]; split; [discriminate|reflexivity]|]. split; [|reflexivity]. right. exists 101, [], [49].
    split; [now left|]. split; [now left|]. split; [ds|]. split; [discriminate|]. split; reflexivity.
  - split; [|split; [reflexivity|split; [reflexivity|split; [split; reflexivity|intros [|]; vm_compute; reflexivity]]]].
    exists [], [101; 45; 49]. split; [apply W; [discriminate|ds|left; discriminate]|].
    split; [now left|]. split; [|reflexivity]. right. exists 101, [45], [49].
    split; [now left|]. split; [right; now right|]. split; [ds|]. split; [discriminate|]. split; reflexivity.
Qed.
Print Assumptions C66_accepts_refuted.

(** Text that is not JSON but read as an integer: [1.] and [1e] *)
Theorem C66_grammar_refuted :
  forall oc, parse_unsigned_full oc 8 [49; 46] = Ok (1, []) /\ parse_unsigned_full oc 8 [49; 101] = Ok (1, []).
Proof. intros [|]; split; vm_compute; reflexivity. Qed.
Print Assumptions C66_grammar_refuted.

(** With overflow checks decoding panics: 256 as [u8], and the least exponent, 1e-2147483648. Without them
    the first gives 0. *)
Theorem C66_panics_refuted :
  parse_unsigned_full true 8 [50; 53; 54] = Panic /\ parse_unsigned_full false 8 [50; 53; 54] = Ok (0, []) /\
  parse_unsigned_full true 8 [49; 101; 45; 50; 49; 52; 55; 52; 56; 51; 54; 52; 56] = Panic.
Proof. split; [vm_compute; reflexivity|]. split; vm_compute; reflexivity. Qed.
Print Assumptions C66_panics_refuted.

Example C66_nonvacuous :
  (* -12.50e2 and 1200e-2 *)
  parse_signed_full true 16 [32; 45; 49; 50; 46; 53; 48; 101; 50; 44] = Ok ((-1250)%Z, [44]) /\
  decimal false [49; 50] [53; 48] 2 [49; 50; 46; 53; 48; 101; 50] /\ equals [49; 50] [53; 48] 2 1250 /\
  parse_unsigned_full true 16 [49; 50; 48; 48; 101; 45; 50; 44] = Ok (12, [44]) /\ equals [49; 50; 48; 48] [] (-2) 12.
Proof.
  split; [vm_compute; reflexivity|]. split; [|split; [reflexivity|split; [vm_compute; reflexivity|reflexivity]]].
  exists [46; 53; 48], [101; 50]. split.
  { split; [discriminate|]. split; [ds|]. split; [discriminate|reflexivity]. }
  split; [right; split; [ds|]; split; [discriminate|reflexivity]|]. split; [|reflexivity].
  right. exists 101, [], [50]. split; [now left|]. split; [now left|]. split; [ds|].
  split; [discriminate|]. split; reflexivity.
Qed.
