(** Property C38: hashing does not depend on how the input is split.
    Specification: [SipSpec.siphash13_128], the hash of a whole message. *)
From Coq Require Import Lia.
From Verif Require Import Base BaseFacts Options Int IntFacts Zc Sip SipSpec SipFacts.
Local Open Scope N_scope.

(** The bytes that a call contributes: integers count as their bytes in memory. *)
Definition native (nb : ByteOrder) (w : nat) (x : N) : bytes :=
  match nb with Little => to_le w x | Big => rev (to_le w x) end.
Definition call_bytes (nb : ByteOrder) (c : hcall) : bytes :=
  match c with HBytes msg => msg | HInt w x | HOther w x => native nb w x end.
(** Calls with bytes, and with integers that fit their type (u8 to u64 for
    [HInt]). *)
Definition call_ok (c : hcall) : Prop :=
  match c with
  | HBytes msg => bytes_ok msg = true
  | HInt w x => (w <= 8)%nat /\ x < 256 ^ N.of_nat w
  | HOther w x => x < 256 ^ N.of_nat w
  end.

Lemma calls_fed nb k0 k1 cs : Forall call_ok cs -> forall m h, fed k0 k1 m h ->
  exists h', h_calls nb h cs = ZOk h' /\ fed k0 k1 (m ++ concat (map (call_bytes nb) cs)) h'.
Proof.
  induction 1 as [|c cs C _ IH]; intros m h F.
  - exists h. split; auto. cbn. now rewrite app_nil_r.
  - cbn [h_calls map concat].
    assert (NO : forall w x, bytes_ok (native nb w x) = true).
    { intros w x. unfold native. destruct nb; rewrite ?bytes_ok_rev; apply to_le_bytes_ok. }
    assert (S : exists h1, h_call nb h c = ZOk h1 /\ fed k0 k1 (m ++ call_bytes nb c) h1).
    { destruct c as [msg|w x|w x]; cbn [h_call call_bytes call_ok] in *.
      - now apply write_fed.
      - destruct C as [W X].
        replace (N.of_nat w) with (lenN (native nb w x)).
        2: { unfold native, lenN. destruct nb; rewrite ?rev_length, to_le_length; reflexivity. }
        replace (match nb with Little => x | Big => swap_bytes w x end) with (of_le (native nb w x)).
        2: { unfold native, swap_bytes. destruct nb; auto. now apply of_le_to_le. }
        apply short_fed; auto. unfold native. destruct nb; rewrite ?rev_length, to_le_length; auto.
      - apply write_fed; auto. }
    destruct S as (h1 & -> & F1). cbn [zbind]. destruct (IH _ _ F1) as (h2 & R & F2).
    exists h2. split; auto. now rewrite app_assoc.
Qed.

(** Any history of calls hashes the concatenation of what it was given, never
    reads outside its input and never panics. *)
Theorem C38_sip nb k0 k1 cs :
  Forall call_ok cs ->
  exists h, h_calls nb (h_new k0 k1) cs = ZOk h /\
    h_finish h = siphash13_128 k0 k1 (concat (map (call_bytes nb) cs)).
Proof.
  intros C. destruct (calls_fed nb k0 k1 cs C [] (h_new k0 k1) (new_fed k0 k1)) as (h & R & F).
  exists h. split; auto. now apply finish_fed.
Qed.

(** So histories with the same bytes have the same hash. *)
Theorem C38_chunking nb k0 k1 cs cs' h h' :
  Forall call_ok cs -> Forall call_ok cs' ->
  concat (map (call_bytes nb) cs) = concat (map (call_bytes nb) cs') ->
  h_calls nb (h_new k0 k1) cs = ZOk h -> h_calls nb (h_new k0 k1) cs' = ZOk h' ->
  h_finish h = h_finish h'.
Proof.
  intros C C' E R R'.
  destruct (C38_sip nb k0 k1 cs C) as (x & X & FX). rewrite X in R. inversion R; subst.
  destruct (C38_sip nb k0 k1 cs' C') as (y & Y & FY). rewrite Y in R'. inversion R'; subst.
  now rewrite FX, FY, E.
Qed.

Example C38_nonvacuous :
  exists h h', Forall call_ok [HBytes [0; 1; 2]; HInt 8 0x0a09080706050403] /\
    h_calls Little (h_new 0x0706050403020100 0x0f0e0d0c0b0a0908) [HBytes [0; 1; 2]; HInt 8 0x0a09080706050403] = ZOk h /\
    h_calls Little (h_new 0x0706050403020100 0x0f0e0d0c0b0a0908) [HBytes [0; 1; 2; 3; 4; 5; 6; 7; 8; 9; 10]] = ZOk h' /\
    h_finish h = (0xdb914455f39a3b72, 0x4e0c6efc3d63d6b1) /\ h_finish h' = h_finish h.
Proof.
  eexists. eexists. split.
  - repeat constructor.
  - split; [reflexivity|]. split; [reflexivity|]. split; vm_compute; reflexivity.
Qed.

Print Assumptions C38_sip.
Print Assumptions C38_chunking.
