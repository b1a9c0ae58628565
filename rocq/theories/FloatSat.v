(** A number with an exponent that the parser does not read to its end. *)
From Coq Require Import QArith Qabs Qround Lqa Qpower.
From Coq Require Import Lia.
From Verif Require Import Base BaseFacts Utf8 JsonSpec JsonNumSpec FloatSpec FloatTextSpec Dec2fltTable Dec2flt FloatFacts FloatFast FloatLemire2 FloatLemire3 FloatDigits FloatSlow FloatRound FloatSlow2 FloatSwar FloatParse FloatDec FloatTop FloatWords.
Local Open Scope N_scope.

Definition sat_zeros : bytes := repeat 48 (N.to_nat 1000000).
Definition sat_exp : bytes := [101; 49; 48; 48; 48; 48; 48; 49].
Definition sat_text : bytes := [48; 46] ++ sat_zeros ++ [49] ++ sat_exp.

Lemma zeros_digs n : digs (repeat 48 n).
Proof. induction n as [|n IH]; [reflexivity|]. cbn [repeat]. apply digs_cons. split; [reflexivity|exact IH]. Qed.
Lemma zeros_nm n l : nm (repeat 48 n ++ l) = nm l.
Proof. induction n as [|n IH]; [reflexivity|]. cbn [repeat app]. rewrite nm_cons, IH. change (48 - 48) with 0. lia. Qed.

Lemma sat_grammar : decimal false [48] (sat_zeros ++ [49]) 1000001 sat_text.
Proof.
  exists (46 :: sat_zeros ++ [49]), sat_exp. split; [|split; [|split]].
  - split; [discriminate|]. split; [apply digit_digs; reflexivity|]. split; reflexivity.
  - right. split; [|split; [intro C; apply app_eq_nil in C; destruct C; discriminate|reflexivity]].
    apply digit_digs, digs_app. split; [apply zeros_digs|reflexivity].
  - right. exists 101, [], [49; 48; 48; 48; 48; 48; 49]. split; [left; reflexivity|]. split; [left; reflexivity|].
    split; [apply digit_digs; reflexivity|]. split; [discriminate|]. split; reflexivity.
  - unfold sat_text. cbn [app]. rewrite <- app_assoc. reflexivity.
Qed.
Lemma sat_len : Z.of_nat (length (sat_zeros ++ [49])) = 1000001%Z.
Proof. unfold sat_zeros. rewrite app_length, repeat_length. change (length [49]) with 1%nat. rewrite Nat2Z.inj_add, N_nat_Z. reflexivity. Qed.
Lemma sat_nm : nm ([48] ++ sat_zeros ++ [49]) = 1.
Proof. cbn [app]. rewrite nm_cons. change (48 - 48) with 0. unfold sat_zeros. rewrite zeros_nm. reflexivity. Qed.
Lemma sat_value : Qeq (decimal_value [48] (sat_zeros ++ [49]) 1000001) 1.
Proof. rewrite dv_value. unfold dv. rewrite sat_nm, sat_len. reflexivity. Qed.

Lemma sat_decode F : std F -> json_decode_float F sat_text = Ok (0, []).
Proof.
  intro HF. pose proof (std_nums F HF) as U. pose proof (u_bias F U) as Ub. pose proof (u_bm F U) as Ubm.
  pose proof (f_ok F (u_ok F U)) as FO.
  assert (HM : mant [48] (sat_zeros ++ [49]) (46 :: sat_zeros ++ [49]) sat_exp).
  { split; [reflexivity|]. split; [apply digs_app; split; [apply zeros_digs|reflexivity]|]. split; [reflexivity|left; reflexivity]. }
  destruct (dec2flt_ok F [48] (sat_zeros ++ [49]) (46 :: sat_zeros ++ [49]) sat_exp 100000 [] [] HF HM) as (b & Db & Rb); [discriminate|reflexivity|left; reflexivity|].
  assert (E : sat_text = [] ++ [48] ++ (46 :: sat_zeros ++ [49]) ++ sat_exp). { unfold sat_text. cbn [app]. rewrite <- app_assoc. reflexivity. }
  unfold json_decode_float. rewrite E, Db. cbn [bind]. f_equal. f_equal. change (b = 0).
  apply (rounds_to_unique (r_bin F) _ b 0 FO Rb). unfold dv. rewrite sat_nm, sat_len. apply rounds_zero; [assumption|].
  change (iz 1) with 1%Q. rewrite Qmult_1_l. assert (HK : K (r_bin F) = (bias (r_bin F) + Z.of_N (meb F))%Z) by reflexivity.
  assert (G4 : (2 ^ K (r_bin F) <= 2 ^ 1075)%Q) by (apply q2le; lia).
  assert (G5 : (10 ^ (100000 - 1000001) <= 10 ^ (-325))%Q) by (apply q10le; lia).
  pose proof (q2pos (K (r_bin F))) as P. pose proof n1 as N1. pose proof (q10pos (-325)) as P10.
  set (a := (10 ^ (100000 - 1000001))%Q) in *. set (b1 := (2 ^ K (r_bin F))%Q) in *. set (c := (10 ^ (-325))%Q) in *. set (d := (2 ^ 1075)%Q) in *.
  clearbody a b1 c d. clear - G4 G5 P N1 P10. 
  apply Qle_lt_trans with (c * b1)%Q; [apply Qmult_le_compat_r; [assumption|apply Qlt_le_weak, P]|].
  eapply Qle_lt_trans; [apply Qmult_le_l; [exact P10|exact G4]|exact N1].
Qed.
