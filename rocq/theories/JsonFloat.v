(** Floating point numbers in JSON text *)
From Coq Require Import QArith Qabs Lqa Qpower.
From Coq Require Import Lia.
From Verif Require Import Base BaseFacts JsonSpec FloatSpec FloatTextSpec Dec2flt FloatFacts FloatFast FloatTop NumText NumTextFacts.
Local Open Scope N_scope.

(** [means] for floating point numbers *)
Definition fmeans (B : binary) (neg : bool) (b : N) (j : jtree) : Prop :=
  (exists n, j = JInt neg n /\ rounds_to B (inject_Z (Z.of_N n)) b) \/
  (exists ds fs e, j = JNum neg ds fs e /\ moderate ds fs e /\ rounds_to B (decimal_value ds fs e) b).

Lemma sign_cases neg : sign neg = [] \/ sign neg = [43] \/ sign neg = [45].
Proof. destruct neg; auto. Qed.
Lemma sign_dec neg : (if list_eq_dec N.eq_dec (sign neg) [45] then true else false) = neg.
Proof. destruct neg; reflexivity. Qed.

Lemma float_json F tight neg b j s rest : std F -> fmeans (r_bin F) neg b j -> gtext tight j s -> ends rest = true ->
  json_decode_float F (s ++ rest) = Ok (signed (r_bin F) neg b, rest).
Proof.
  intros HF Hm Ht Hr.
  assert (G : exists ds fs e s', s = sign neg ++ s' /\ decimal false ds fs e s' /\ moderate ds fs e /\ rounds_to (r_bin F) (decimal_value ds fs e) b).
  { destruct Hm as [(n & -> & R)|(ds & fs & e & -> & M & R)].
    - inversion Ht as [| | |? ? s0 Hi| | | |]; subst. exists s0, [], 0%Z, s0. split; [reflexivity|].
      assert (V : value s0 = n) by apply Hi. split; [|split].
      + exists [], []. split; [unfold whole; rewrite V; exact Hi|]. split; [left; auto|]. split; [left; auto|]. now rewrite app_nil_r.
      + left. reflexivity.
      + eapply rounds_to_Qeq; [|exact R]. unfold decimal_value. rewrite app_nil_r, V. cbn [length Z.of_nat Z.sub Z.opp Z.add].
        change (10 ^ 0)%Q with 1%Q. ring.
    - inversion Ht as [| | | |? ? ? ? sf se Hw Hf He Hn| | |]; subst. exists ds, fs, e, (ds ++ sf ++ se). split; [reflexivity|].
      split; [|auto]. exists sf, se. auto. }
  destruct G as (ds & fs & e & s' & -> & D & M & R).
  destruct (float_loose F (sign neg) ds fs e s' rest HF (decimal_loose _ _ _ _ D) Hr (sign_cases neg)) as (b' & e' & E & _ & _ & R').
  rewrite <- app_assoc, E, sign_dec. rewrite (rounds_to_unique (r_bin F) (decimal_value ds fs e) b' b) ; auto.
  apply std_ok, HF.
Qed.

Lemma float_text_json F hi lo x tight : std F -> (1 <= hi)%Z -> x < 2 ^ (1 + ebits (r_bin F) + mbits (r_bin F)) -> finite_float (r_bin F) x = true ->
  exists neg ds fs e b, gtext tight (JNum neg ds fs e) (float_text F hi lo x) /\ x = signed (r_bin F) neg b /\ fmeans (r_bin F) neg b (JNum neg ds fs e).
Proof.
  intros HF Hhi Hx Hf. destruct (float_text_ok F hi lo x HF Hhi Hx Hf) as (neg & ds & fs & e & sf & se & b & E & A1 & A2 & A3 & A4 & A5 & A6 & A7).
  exists neg, ds, fs, e, b. rewrite E. split; [now constructor|]. split; [assumption|]. right. exists ds, fs, e. auto.
Qed.
