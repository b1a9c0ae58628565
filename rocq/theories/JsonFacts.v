(** Lemmas about the lexical part of [Json] with respect to [JsonSpec]. *)
From Verif Require Import Base Options Int Utf8 Types Json JsonSpec BaseFacts Utf8Facts.
From Coq Require Import ZifyBool ZifyNat ZifyN.
Local Open Scope N_scope.

Scheme text_mind := Minimality for gtext Sort Prop
  with elems_mind := Minimality for gelems Sort Prop
  with members_mind := Minimality for gmembers Sort Prop
  with member_mind := Minimality for gmember Sort Prop.
Combined Scheme text_mutind from text_mind, elems_mind, members_mind, member_mind.

(** Text without whitespace after the colons is text. *)
Lemma loosen_all tight :
  (forall j s, gtext tight j s -> text j s) /\ (forall l s, gelems tight l s -> elems l s) /\
  (forall l s, gmembers tight l s -> members l s) /\ (forall m s, gmember tight m s -> member m s).
Proof. apply text_mutind; intros; try (constructor; assumption). apply member_intro; try assumption. discriminate. Qed.
Lemma loosen tight j s : gtext tight j s -> text j s.
Proof. apply loosen_all. Qed.

Section Tight.
Context {tight : bool}.
Local Notation text := (gtext tight).

(** ** White space and tokens *)

Lemma is_ws_iff b : is_ws b = true <-> b = 32 \/ b = 9 \/ b = 10 \/ b = 13.
Proof. unfold is_ws. lia. Qed.

Lemma skip_ws_space w s : space w -> skip_ws (w ++ s) = skip_ws s.
Proof.
  induction 1 as [|b w Hb _ IH]; cbn; [reflexivity|].
  rewrite (proj2 (is_ws_iff b)) by tauto. exact IH.
Qed.

Lemma skip_ws_id b r : is_ws b = false -> skip_ws (b :: r) = b :: r.
Proof. intros H. cbn. now rewrite H. Qed.

Definition jtok (j : jtree) : token :=
  match j with
  | JNull => KNull
  | JBool true => KTrue
  | JBool false => KFalse
  | JInt _ _ | JNum _ _ _ _ => KNumber
  | JStr _ => KString
  | JArr _ => KOBracket
  | JObj _ => KOBrace
  end.

Lemma jtok_value j : is_value (jtok j) = true.
Proof. now destruct j as [|[]| | | | |]. Qed.

Lemma digit_byte b : digit b -> is_ws b = false /\ from_byte b = KNumber /\ is_digit b = true /\ b <> 45.
Proof.
  unfold digit. intros H. unfold is_ws, from_byte, is_digit, between.
  repeat split; try lia.
  repeat match goal with |- context [if ?c then _ else _] => destruct c eqn:?; try lia end.
  reflexivity.
Qed.

Lemma sign_int_head neg n s : int_text n s -> exists b r, sign neg ++ s = b :: r /\
  is_ws b = false /\ from_byte b = KNumber.
Proof.
  intros (Hn & Hd & _). destruct neg; cbn; [eauto|].
  destruct s as [|b r]; [congruence|]. inversion Hd; subst. exists b, r.
  destruct (digit_byte b) as (A & B & _); auto.
Qed.

Lemma text_head j s : text j s -> exists b r, s = b :: r /\ is_ws b = false /\ from_byte b = jtok j.
Proof.
  intros H. inversion H; subst; cbn; try (do 2 eexists; repeat split; reflexivity).
  - apply sign_int_head with n; assumption.
  - destruct (sign_int_head neg (value ds) ds) as (b & r & E & A & B); [assumption|].
    rewrite app_assoc, E. cbn. eauto.
Qed.

Lemma text_ne j s : text j s -> (0 < length s)%nat.
Proof. intros H. destruct (text_head j s H) as (b & r & -> & _). cbn; lia. Qed.

Lemma text_skip_ws j s rest : text j s -> skip_ws (s ++ rest) = s ++ rest.
Proof. intros H. destruct (text_head j s H) as (b & r & -> & A & _). now apply skip_ws_id. Qed.

Lemma text_lex w j s rest : space w -> text j s -> lex (w ++ s ++ rest) = (jtok j, s ++ rest).
Proof.
  intros Hw H. unfold lex. rewrite skip_ws_space, (text_skip_ws j) by assumption.
  destruct (text_head j s H) as (b & r & -> & _ & <-). reflexivity.
Qed.

Lemma expect_at k b rest w : space w -> is_ws b = false -> token_eqb (from_byte b) k = true ->
  expect k (w ++ b :: rest) = Ok rest.
Proof.
  intros Hw Hb Hk. unfold expect, lex. rewrite skip_ws_space by assumption.
  rewrite skip_ws_id by assumption. cbn [tok]. now rewrite Hk.
Qed.

Lemma next_value_space first w s : space w -> next_value first (w ++ s) = next_value first s.
Proof.
  induction 1 as [|b w Hb _ IH]; cbn; [reflexivity|].
  rewrite (proj2 (is_ws_iff b)) by tauto. exact IH.
Qed.

Lemma next_value_text first w j s rest : space w -> text j s ->
  next_value first (w ++ s ++ rest) = Ok (true, s ++ rest).
Proof.
  intros Hw H. rewrite next_value_space by assumption.
  destruct (text_head j s H) as (b & r & -> & A & B). cbn. rewrite A, B, jtok_value. reflexivity.
Qed.

Lemma next_value_end first w rest : space w -> next_value first (w ++ 93 :: rest) = Ok (false, 93 :: rest).
Proof. intros Hw. now rewrite next_value_space. Qed.

Lemma next_value_comma w r : space w -> next_value false (w ++ 44 :: r) = next_value false r.
Proof. intros Hw. now rewrite next_value_space. Qed.

Lemma next_key_space first w s : space w -> next_key first (w ++ s) = next_key first s.
Proof.
  induction 1 as [|b w Hb _ IH]; cbn; [reflexivity|].
  rewrite (proj2 (is_ws_iff b)) by tauto. exact IH.
Qed.

Lemma next_key_str first w rest : space w ->
  next_key first (w ++ 34 :: rest) = Ok (true, 34 :: rest).
Proof. intros Hw. now rewrite next_key_space. Qed.

Lemma next_key_end first w rest : space w -> next_key first (w ++ 125 :: rest) = Ok (false, 125 :: rest).
Proof. intros Hw. now rewrite next_key_space. Qed.

Lemma next_key_comma w r : space w -> next_key false (w ++ 44 :: r) = next_key false r.
Proof. intros Hw. now rewrite next_key_space. Qed.

(** What follows an element can follow a number. *)
Lemma ends_space w s : space w -> ends s = true -> ends (w ++ s) = true.
Proof.
  intros Hw Hs. destruct Hw as [|b w Hb _]; [assumption|]. cbn. unfold between. lia.
Qed.

Lemma ends_cons b s : b = 44 \/ b = 93 \/ b = 125 \/ b = 58 -> ends (b :: s) = true.
Proof. cbn. unfold between. lia. Qed.

(** ** Literals *)

Lemma parse_exact_app lit rest : parse_exact lit (lit ++ rest) = Ok rest.
Proof.
  unfold parse_exact. rewrite take_opt_app. now destruct (list_eq_dec N.eq_dec lit lit).
Qed.

(** ** Strings *)

Definition plain (b : N) : Prop := needs_escape b = false.

Lemma span_plain_app pre b r : Forall plain pre -> needs_escape b = true ->
  span_plain (pre ++ b :: r) = (pre, b :: r).
Proof.
  intros H Hb. induction H as [|c pre Hc _ IH]; cbn; [now rewrite Hb|].
  rewrite Hc. now rewrite IH.
Qed.

Lemma span_plain_eq bs : let (h, t) := span_plain bs in
  bs = h ++ t /\ Forall plain h /\ match t with [] => True | b :: _ => needs_escape b = true end.
Proof.
  induction bs as [|b r IH]; cbn; [repeat split; constructor|].
  destruct (needs_escape b) eqn:E; [repeat split; [constructor|assumption]|].
  destruct (span_plain r) as [h t]. destruct IH as (A & B & C). subst. repeat split; [|assumption].
  now constructor.
Qed.

Lemma utf8_enc_plain c : char_valid c = true -> 32 <= c -> c <> 34 -> c <> 92 -> Forall plain (utf8_enc c).
Proof.
  intros H A B C. destruct (utf8_enc_high c H) as [[-> D]|[D E]].
  - repeat constructor. unfold plain, needs_escape. lia.
  - eapply Forall_impl; [|exact E]. cbn. intros b Hb. unfold plain, needs_escape. lia.
Qed.

Lemma hex_val_hex a x : hex a x -> hex_val a = Some x.
Proof.
  intros []; unfold hex_val, between.
  - destruct ((48 <=? 48 + d) && (48 + d <=? 57)) eqn:E; [f_equal; lia|lia].
  - destruct ((48 <=? 55 + d) && (55 + d <=? 57)) eqn:E; [lia|].
    destruct ((65 <=? 55 + d) && (55 + d <=? 70)) eqn:F; [f_equal; lia|lia].
  - destruct ((48 <=? 87 + d) && (87 + d <=? 57)) eqn:E; [lia|].
    destruct ((65 <=? 87 + d) && (87 + d <=? 70)) eqn:F; [lia|].
    destruct ((97 <=? 87 + d) && (87 + d <=? 102)) eqn:G; [f_equal; lia|lia].
Qed.

Lemma parse_hex4 h n s : hex4 h n -> parse_hex (h ++ s) = Ok (n, s).
Proof.
  intros (a & b & c & d & x & y & z & w & -> & Ha & Hb & Hc & Hd & ->).
  cbn [app parse_hex]. rewrite (hex_val_hex a x), (hex_val_hex b y), (hex_val_hex c z), (hex_val_hex d w) by assumption.
  f_equal. f_equal. lia.
Qed.

Lemma parse_u_bmp h c s : hex4 h c -> char_valid c = true -> parse_u (h ++ s) = Ok (c, s).
Proof.
  intros H Hc. unfold parse_u. rewrite (parse_hex4 h c) by assumption. cbn [bind].
  apply char_valid_iff in Hc. unfold between.
  destruct ((56320 <=? c) && (c <=? 57343)) eqn:A; [lia|].
  destruct ((55296 <=? c) && (c <=? 56319)) eqn:B; [lia|]. reflexivity.
Qed.

Lemma parse_u_pair h1 h2 hi lo s : hex4 h1 hi -> hex4 h2 lo ->
  0xD800 <= hi <= 0xDBFF -> 0xDC00 <= lo <= 0xDFFF ->
  parse_u (h1 ++ 92 :: 117 :: h2 ++ s) = Ok (0x10000 + (hi - 0xD800) * 0x400 + (lo - 0xDC00), s).
Proof.
  intros H1 H2 A B. unfold parse_u. rewrite (parse_hex4 h1 hi) by assumption. cbn [bind].
  unfold between.
  destruct ((56320 <=? hi) && (hi <=? 57343)) eqn:C; [lia|].
  destruct ((55296 <=? hi) && (hi <=? 56319)) eqn:D; [|lia].
  rewrite (parse_hex4 h2 lo) by assumption. cbn [bind].
  destruct ((56320 <=? lo) && (lo <=? 57343)) eqn:E; [|lia].
  assert (F : char_valid ((hi - 55296) * 1024 + (lo - 56320) + 65536) = true)
    by (apply char_valid_iff; lia).
  rewrite F. f_equal. f_equal. lia.
Qed.

Lemma parse_escape_short c e s : In (c, e) short_escapes -> parse_escape (e :: s) = Ok (utf8_enc c, s).
Proof.
  intros H. cbn in H.
  repeat (destruct H as [H|H]; [injection H as <- <-; reflexivity|]). contradiction.
Qed.

Lemma parse_escape_u s : parse_escape (117 :: s) = (let* (c, r') := parse_u s in Ok (utf8_enc c, r')).
Proof. reflexivity. Qed.

(** Parse the rest of a string, of which [pre] has already been looked at. *)
Lemma str_loop_body cs s : body cs s -> forall fuel scratch pre rest,
  Forall plain pre -> utf8_valid pre = true -> (length s < fuel)%nat ->
  str_loop fuel scratch (pre ++ s ++ 34 :: rest) = Ok (scratch ++ pre ++ str_bytes cs, rest).
Proof.
  induction 1 as [|c cs s Hc H1 H2 H3 _ IH|c e cs s He _ IH|c h cs s Hh Hc _ IH
                  |hi lo h1 h2 cs s Hh1 Hh2 R1 R2 _ IH]; intros fuel scratch pre rest Hp Hv Hf.
  - destruct fuel as [|f]; [cbn in Hf; lia|]. cbn [app str_loop].
    rewrite (span_plain_app pre 34 rest Hp eq_refl). cbn. rewrite Hv. now rewrite app_nil_r.
  - rewrite <- app_assoc, app_assoc. rewrite IH.
    + cbn [str_bytes flat_map]. now rewrite <- app_assoc.
    + apply Forall_app; split; [assumption|]. now apply utf8_enc_plain.
    + rewrite utf8_app by assumption. now apply utf8_enc_valid.
    + rewrite app_length in Hf. lia.
  - destruct fuel as [|f]; [cbn in Hf; lia|]. cbn [app str_loop].
    rewrite (span_plain_app pre 92 _ Hp eq_refl). cbn [N.eqb Pos.eqb]. rewrite Hv.
    rewrite (parse_escape_short c e _ He). cbn [bind].
    rewrite (IH f _ [] rest); [|constructor|reflexivity|cbn in Hf; lia].
    cbn [str_bytes flat_map app]. now rewrite !app_assoc.
  - destruct fuel as [|f]; [cbn in Hf; lia|]. cbn [app str_loop].
    rewrite (span_plain_app pre 92 _ Hp eq_refl). cbn [N.eqb Pos.eqb]. rewrite Hv.
    rewrite parse_escape_u, <- app_assoc, (parse_u_bmp h c) by assumption. cbn [bind].
    rewrite (IH f _ [] rest); [|constructor|reflexivity|cbn [length] in Hf; rewrite app_length in Hf; lia].
    cbn [str_bytes flat_map app]. now rewrite !app_assoc.
  - destruct fuel as [|f]; [cbn in Hf; lia|]. cbn [app str_loop].
    rewrite (span_plain_app pre 92 _ Hp eq_refl). cbn [N.eqb Pos.eqb]. rewrite Hv.
    rewrite parse_escape_u, <- app_assoc. cbn [app]. rewrite <- app_assoc, (parse_u_pair h1 h2 hi lo) by assumption.
    cbn [bind]. rewrite (IH f _ [] rest); [|constructor|reflexivity|].
    + cbn [str_bytes flat_map app]. now rewrite !app_assoc.
    + cbn [length] in Hf. rewrite app_length in Hf. cbn [length] in Hf. rewrite app_length in Hf. lia.
Qed.

Lemma skip_str_body cs s : body cs s -> forall fuel pre rest,
  Forall plain pre -> (length s < fuel)%nat ->
  skip_str_loop fuel (pre ++ s ++ 34 :: rest) = Ok rest.
Proof.
  induction 1 as [|c cs s Hc H1 H2 H3 _ IH|c e cs s He _ IH|c h cs s Hh Hc _ IH
                  |hi lo h1 h2 cs s Hh1 Hh2 R1 R2 _ IH]; intros fuel pre rest Hp Hf.
  - destruct fuel as [|f]; [cbn in Hf; lia|]. cbn [app skip_str_loop].
    now rewrite (span_plain_app pre 34 rest Hp eq_refl).
  - rewrite <- app_assoc, app_assoc. apply IH.
    + apply Forall_app; split; [assumption|]. now apply utf8_enc_plain.
    + rewrite app_length in Hf. lia.
  - destruct fuel as [|f]; [cbn in Hf; lia|]. cbn [app skip_str_loop].
    rewrite (span_plain_app pre 92 _ Hp eq_refl). cbn [snd N.eqb Pos.eqb].
    rewrite (parse_escape_short c e _ He). cbn [bind].
    apply (IH f [] rest); [constructor|cbn in Hf; lia].
  - destruct fuel as [|f]; [cbn in Hf; lia|]. cbn [app skip_str_loop].
    rewrite (span_plain_app pre 92 _ Hp eq_refl). cbn [snd N.eqb Pos.eqb].
    rewrite parse_escape_u, <- app_assoc, (parse_u_bmp h c) by assumption. cbn [bind].
    apply (IH f [] rest); [constructor|cbn [length] in Hf; rewrite app_length in Hf; lia].
  - destruct fuel as [|f]; [cbn in Hf; lia|]. cbn [app skip_str_loop].
    rewrite (span_plain_app pre 92 _ Hp eq_refl). cbn [snd N.eqb Pos.eqb].
    rewrite parse_escape_u, <- app_assoc. cbn [app]. rewrite <- app_assoc, (parse_u_pair h1 h2 hi lo) by assumption.
    cbn [bind]. apply (IH f [] rest); [constructor|].
    cbn [length] in Hf. rewrite app_length in Hf. cbn [length] in Hf. rewrite app_length in Hf. lia.
Qed.

Lemma parse_string_text w cs s rest : space w -> body cs s ->
  parse_string (w ++ (34 :: s ++ [34]) ++ rest) = Ok (str_bytes cs, rest).
Proof.
  intros Hw H. unfold parse_string. cbn [app].
  rewrite (expect_at KString 34 ((s ++ [34]) ++ rest) w) by (assumption || reflexivity).
  cbn [bind]. rewrite <- app_assoc. cbn [app].
  apply (str_loop_body cs s H _ [] [] rest); [constructor|reflexivity|].
  rewrite app_length. cbn. lia.
Qed.

Lemma skip_string_body cs s rest : body cs s -> skip_string (s ++ 34 :: rest) = Ok rest.
Proof.
  intros H. unfold skip_string. apply (skip_str_body cs s H _ [] rest); [constructor|].
  rewrite app_length. cbn. lia.
Qed.

(** ** Numbers *)

Definition value_from (acc : N) (ds : bytes) : N := fold_left (fun a d => 10 * a + (d - 48)) ds acc.

Lemma value_from_le ds : forall acc, acc <= value_from acc ds.
Proof.
  unfold value_from. induction ds as [|d ds IH]; intros acc; cbn [fold_left]; [lia|]. etransitivity; [|apply IH]. lia.
Qed.

Lemma digits_ok oc tb ds : forall acc rest, Forall digit ds -> ends rest = true ->
  value_from acc ds < 2 ^ tb -> digits oc tb acc (ds ++ rest) = Ok (value_from acc ds, rest).
Proof.
  induction ds as [|d ds IH]; intros acc rest Hd He Hv.
  - cbn. destruct rest as [|b r]; cbn; [reflexivity|].
    cbn in He. unfold is_digit. now destruct (between 48 57 b).
  - inversion Hd as [|x l Hx Hl]; subst. cbn [app digits].
    destruct (digit_byte d Hx) as (_ & _ & E & _). rewrite E.
    cbn [value_from fold_left] in Hv |- *. pose proof (value_from_le ds (10 * acc + (d - 48))) as L.
    unfold value_from in L.
    destruct (2 ^ tb <=? acc * 10) eqn:A; [lia|]. cbv zeta.
    destruct (2 ^ tb <=? acc * 10 + (d - 48)) eqn:B; [lia|].
    replace (acc * 10 + (d - 48)) with (10 * acc + (d - 48)) by lia. apply IH; assumption.
Qed.

Lemma unsigned_base_ok oc tb n s rest : int_text n s -> ends rest = true -> n < 2 ^ tb ->
  unsigned_base oc tb (s ++ rest) = Ok (n, rest).
Proof.
  intros (Hn & Hd & Hz & Hv) He Hb. destruct s as [|b r]; [congruence|].
  inversion Hd as [|x l Hx Hl]; subst. cbn [app unsigned_base].
  destruct (b =? 48) eqn:E.
  - assert (b = 48) by lia. subst b. specialize (Hz eq_refl). injection Hz as ->. reflexivity.
  - unfold digit in Hx. unfold is_digit_nonzero, between.
    destruct ((49 <=? b) && (b <=? 57)) eqn:F; [|lia].
    assert (V : value (b :: r) = value_from (b - 48) r).
    { unfold value, value_from. cbn. f_equal; lia. }
    rewrite V in *. now apply digits_ok.
Qed.

Lemma int_head_ws n s rest : int_text n s -> skip_ws (s ++ rest) = s ++ rest.
Proof.
  intros H. destruct (sign_int_head false n s H) as (b & r & E & A & _). cbn in E. rewrite E.
  now apply skip_ws_id.
Qed.

Lemma parse_unsigned_ok oc tb w n s rest : space w -> int_text n s -> ends rest = true -> n < 2 ^ tb ->
  parse_unsigned oc tb (w ++ s ++ rest) = Ok (n, rest).
Proof.
  intros Hw H He Hn. unfold parse_unsigned. rewrite skip_ws_space, (int_head_ws n) by assumption.
  now apply unsigned_base_ok.
Qed.

Lemma in_sb_iff tb z : in_sb tb z = true <-> (- 2 ^ (Z.of_N tb - 1) <= z < 2 ^ (Z.of_N tb - 1))%Z.
Proof. unfold in_sb. lia. Qed.

Lemma pow_half tb : 1 <= tb -> Z.of_N (2 ^ (tb - 1)) = (2 ^ (Z.of_N tb - 1))%Z.
Proof. intros H. rewrite N2Z.inj_pow, N2Z.inj_sub by assumption. reflexivity. Qed.

Lemma pow_double tb : 1 <= tb -> 2 ^ tb = 2 * 2 ^ (tb - 1).
Proof. intros H. rewrite <- N.pow_succ_r'. f_equal. lia. Qed.

Lemma not_minus n s rest : int_text n s -> exists b r, s ++ rest = b :: r /\ b <> 45.
Proof.
  intros (Hn & Hd & _). destruct s as [|b r]; [congruence|]. inversion Hd; subst.
  exists b, (r ++ rest). split; [reflexivity|]. unfold digit in *. lia.
Qed.

Lemma parse_signed_pos oc tb b r : b <> 45 -> skip_ws (b :: r) = b :: r ->
  parse_signed oc tb (b :: r) =
  (let* (n, r') := unsigned_base oc tb (b :: r) in let* z := signed tb n in Ok (z, r')).
Proof.
  intros Hb Hw. unfold parse_signed. rewrite Hw.
  destruct b as [|q]; [reflexivity|].
  do 6 (destruct q as [q|q|]; try reflexivity). congruence.
Qed.

Lemma parse_signed_ok oc tb w neg n s rest : 1 <= tb -> space w -> int_text n s -> ends rest = true ->
  in_sb tb (z_of neg n) = true ->
  parse_signed oc tb (w ++ (sign neg ++ s) ++ rest) = Ok (z_of neg n, rest).
Proof.
  intros Ht Hw H He Hr. apply in_sb_iff in Hr. pose proof (pow_half tb Ht) as P. pose proof (pow_double tb Ht) as D.
  assert (0 < 2 ^ (tb - 1)) by (apply N.neq_0_lt_0, N.pow_nonzero; lia).
  destruct neg; unfold z_of in *; cbn [sign].
  - unfold parse_signed. rewrite skip_ws_space by assumption. cbn [app skip_ws is_ws N.eqb Pos.eqb orb].
    rewrite (unsigned_base_ok oc tb n) by (assumption || lia). cbn [bind]. unfold negate.
    destruct (2 ^ (tb - 1) <? n) eqn:E; [lia|]. reflexivity.
  - cbn [app]. assert (S : parse_signed oc tb (w ++ s ++ rest) = parse_signed oc tb (s ++ rest)).
    { unfold parse_signed. now rewrite skip_ws_space. }
    rewrite S. destruct (not_minus n s rest H) as (b & r & E & Hb).
    pose proof (int_head_ws n s rest H) as Hs. rewrite E in Hs.
    rewrite E, (parse_signed_pos oc tb b r Hb Hs), <- E.
    rewrite (unsigned_base_ok oc tb n) by (assumption || lia). cbn [bind]. unfold signed.
    destruct (2 ^ (tb - 1) - 1 <? n) eqn:F; [lia|]. reflexivity.
Qed.

Lemma skip_digits_ok ds rest : Forall digit ds ->
  match rest with [] => True | b :: _ => is_digit b = false end -> skip_digits (ds ++ rest) = rest.
Proof.
  intros H He. induction H as [|d ds Hd _ IH]; cbn.
  - destruct rest as [|b r]; cbn; [reflexivity|]. now rewrite He.
  - destruct (digit_byte d Hd) as (_ & _ & -> & _). exact IH.
Qed.

Lemma ends_digit rest : ends rest = true -> match rest with [] => True | b :: _ => is_digit b = false end.
Proof. destruct rest as [|b r]; cbn; [auto|]. unfold is_digit. now destruct (between 48 57 b). Qed.

Lemma ends_other rest b r : ends rest = true -> rest = b :: r -> b <> 46 /\ b <> 101 /\ b <> 69.
Proof. intros H ->. cbn in H. lia. Qed.

(** The part of [skip_number] after the sign *)
Definition after_dot (r1 : bytes) : bytes := match r1 with 46 :: r => skip_digits r | _ => r1 end.
Lemma after_dot_not r : match r with 46 :: _ => False | _ => True end -> after_dot r = r.
Proof.
  destruct r as [|b r]; [reflexivity|]. intros H.
  destruct b as [|q]; [reflexivity|]. do 6 (destruct q as [q|q|]; try reflexivity). contradiction.
Qed.
Lemma ends_46 rest : ends rest = true -> match rest with 46 :: _ => False | _ => True end.
Proof.
  destruct rest as [|b r]; [auto|]. intros H. destruct (ends_other _ _ _ H eq_refl) as (A & _).
  destruct b as [|q]; [auto|]. do 6 (destruct q as [q|q|]; auto).
Qed.

Definition skip_frac_exp (r1 : bytes) : res bytes :=
  let r2 := after_dot r1 in
  match r2 with
  | b :: r =>
      if (b =? 101) || (b =? 69) then
        Ok (skip_digits (match r with
                         | c :: r' => if (c =? 45) || (c =? 43) then r' else r
                         | [] => r end))
      else Ok r2
  | [] => Ok []
  end.

Lemma skip_number_eq neg n s rest : int_text n s ->
  match rest with [] => True | b :: _ => is_digit b = false end ->
  skip_number ((sign neg ++ s) ++ rest) = skip_frac_exp rest.
Proof.
  intros (Hn & Hd & Hz & _) He. destruct s as [|b r]; [congruence|].
  inversion Hd as [|x l Hx Hl]; subst. unfold digit in Hx.
  assert (R : skip_number ((sign neg ++ b :: r) ++ rest) =
    (let* r1 := if b =? 48 then Ok (r ++ rest)
       else if is_digit_nonzero b then Ok (skip_digits (r ++ rest)) else Err in skip_frac_exp r1)).
  { destruct neg; [reflexivity|]. cbn [sign app]. unfold skip_number.
    destruct b as [|q]; [reflexivity|].
    do 6 (destruct q as [q|q|]; try reflexivity). lia. }
  rewrite R. destruct (b =? 48) eqn:E.
  - assert (b = 48) by lia. subst. specialize (Hz eq_refl). injection Hz as ->. reflexivity.
  - unfold is_digit_nonzero, between. destruct ((49 <=? b) && (b <=? 57)) eqn:F; [|lia].
    cbn [bind]. now rewrite skip_digits_ok.
Qed.

Lemma skip_end rest : ends rest = true -> skip_frac_exp rest = Ok rest.
Proof.
  intros H. unfold skip_frac_exp. cbv zeta. rewrite after_dot_not by now apply ends_46.
  destruct rest as [|b r]; [reflexivity|].
  destruct (ends_other _ _ _ H eq_refl) as (A & B & C). destruct ((b =? 101) || (b =? 69)) eqn:F; [lia|reflexivity].
Qed.

Definition frac_text (s : bytes) : Prop :=
  exists ds, ds <> [] /\ Forall digit ds /\ s = 46 :: ds.
Definition exp_text (s : bytes) : Prop :=
  exists e sg ds, (e = 101 \/ e = 69) /\ (sg = [] \/ sg = [43] \/ sg = [45]) /\
    ds <> [] /\ Forall digit ds /\ s = e :: sg ++ ds.
Lemma frac_cases fs sf : frac false fs sf -> sf = [] \/ frac_text sf.
Proof. intros [[_ ->]|(H1 & H2 & ->)]; [now left|]. right. exists fs. repeat split; auto. intros ->. now specialize (H2 eq_refl). Qed.
Lemma expo_cases e se : expo false e se -> se = [] \/ exp_text se.
Proof.
  intros [[_ ->]|(c & sg & es & H1 & H2 & H3 & H4 & -> & _)]; [now left|]. right. exists c, sg, es. repeat split; auto.
  intros ->. now specialize (H4 eq_refl).
Qed.

Lemma skip_exp e rest : exp_text e -> ends rest = true -> skip_frac_exp (e ++ rest) = Ok rest.
Proof.
  intros (b & sg & ds & Hb & Hs & Hn & Hd & ->) He. unfold skip_frac_exp. cbn [app]. cbv zeta.
  rewrite after_dot_not by (destruct Hb as [-> | ->]; exact I).
  replace ((b =? 101) || (b =? 69)) with true by lia.
  destruct ds as [|d ds]; [congruence|]. inversion Hd as [|x l Hx Hl]; subst. unfold digit in Hx.
  pose proof (ends_digit rest He) as Hr.
  destruct Hs as [-> |[-> | ->]]; cbn [app].
  - replace ((d =? 45) || (d =? 43)) with false by lia.
    change (d :: ds ++ rest) with ((d :: ds) ++ rest). now rewrite skip_digits_ok.
  - cbn [N.eqb Pos.eqb orb]. change (d :: ds ++ rest) with ((d :: ds) ++ rest). now rewrite skip_digits_ok.
  - cbn [N.eqb Pos.eqb orb]. change (d :: ds ++ rest) with ((d :: ds) ++ rest). now rewrite skip_digits_ok.
Qed.

Lemma skip_frac f rest : frac_text f ->
  match rest with [] => True | b :: _ => is_digit b = false end ->
  (match rest with 46 :: _ => False | _ => True end) ->
  skip_frac_exp (f ++ rest) = skip_frac_exp rest.
Proof.
  intros (ds & Hn & Hd & ->) Hr Hp. unfold skip_frac_exp. cbn [app after_dot]. cbv zeta.
  rewrite skip_digits_ok by assumption. now rewrite (after_dot_not rest).
Qed.

Lemma exp_head e rest : exp_text e -> match e ++ rest with [] => True | b :: _ => is_digit b = false end /\
  (match e ++ rest with 46 :: _ => False | _ => True end).
Proof. intros (b & sg & ds & [-> | ->] & _ & _ & _ & ->); cbn; split; auto. Qed.

Lemma frac_head f rest : frac_text f -> match f ++ rest with [] => True | b :: _ => is_digit b = false end.
Proof. intros (ds & _ & _ & ->). reflexivity. Qed.

Lemma skip_number_text j s rest : text j s -> jtok j = KNumber -> ends rest = true ->
  skip_number (s ++ rest) = Ok rest.
Proof.
  intros H Hj He. inversion H; subst; try discriminate; try (destruct neg; discriminate).
  - rewrite (skip_number_eq neg n) by (assumption || now apply ends_digit). now apply skip_end.
  - match goal with H1 : frac _ _ _, H2 : expo _ _ _ |- _ => destruct (frac_cases _ _ H1) as [-> |F]; destruct (expo_cases _ _ H2) as [-> |X] end.
    + match goal with H0 : [] ++ [] <> [] |- _ => now elim H0 end.
    + cbn [app]. rewrite app_assoc, <- (app_assoc _ se rest).
      rewrite (skip_number_eq neg (value ds)) by (assumption || now apply exp_head). now apply skip_exp.
    + rewrite app_nil_r, app_assoc, <- (app_assoc _ sf rest).
      rewrite (skip_number_eq neg (value ds)) by (assumption || now apply frac_head).
      rewrite skip_frac; [now apply skip_end|assumption|now apply ends_digit|now apply ends_46].
    + rewrite app_assoc, <- (app_assoc _ (sf ++ se) rest), <- (app_assoc sf se rest).
      rewrite (skip_number_eq neg (value ds)) by (assumption || now apply frac_head).
      destruct (exp_head se rest) as [A B]; [assumption|].
      rewrite skip_frac by assumption. now apply skip_exp.
Qed.
End Tight.
