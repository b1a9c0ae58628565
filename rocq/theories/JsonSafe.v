(** Decoding arbitrary bytes as JSON. *)
From Verif Require Import Base Options Int Utf8 Types Json JsonSpec BaseFacts Utf8Facts TypesFacts
  IntFacts StorageFacts DecFacts JsonFacts JsonText JsonDec JsonEnc FloatFast FloatTop FloatExt.
From Coq Require Import ZifyBool ZifyNat ZifyN.
Local Open Scope N_scope.

(** [x] is not a panic, unless [np = false], and a result satisfies [Q]. *)
Definition post {A} (np : bool) (x : res A) (Q : A -> Prop) : Prop :=
  match x with Ok a => Q a | Err => True | Panic => np = false end.

Lemma post_bind {A B} np (x : res A) (f : A -> res B) (Q : A -> Prop) (Q' : B -> Prop) :
  post np x Q -> (forall a, Q a -> post np (f a) Q') -> post np (bind x f) Q'.
Proof. destruct x; cbn; auto. Qed.

Lemma post_weaken {A} np (x : res A) (Q Q' : A -> Prop) : post np x Q -> (forall a, Q a -> Q' a) -> post np x Q'.
Proof. destruct x; cbn; auto. Qed.

Lemma post_np {A} np np' (x : res A) (Q : A -> Prop) : (np' = true -> np = true) -> post np x Q -> post np' x Q.
Proof. destruct x; cbn; auto. intros H ->. destruct np'; [|reflexivity]. now discriminate H. Qed.

(** ** Suffixes *)

Definition sfx (bs r : bytes) : Prop := exists pre, bs = pre ++ r.
Definition psfx (bs r : bytes) : Prop := exists pre, pre <> [] /\ bs = pre ++ r.

Lemma sfx_refl bs : sfx bs bs.
Proof. now exists []. Qed.
Lemma sfx_trans a b c : sfx a b -> sfx b c -> sfx a c.
Proof. intros [x ->] [y ->]. exists (x ++ y). now rewrite app_assoc. Qed.
Lemma psfx_sfx a b : psfx a b -> sfx a b.
Proof. intros (x & _ & ->). now exists x. Qed.
Lemma sfx_cons b r : sfx (b :: r) r.
Proof. now exists [b]. Qed.
Lemma psfx_cons b r : psfx (b :: r) r.
Proof. now exists [b]. Qed.
Lemma sfx_psfx a b c : sfx a b -> psfx b c -> psfx a c.
Proof.
  intros [x ->] (y & Hy & ->). exists (x ++ y). rewrite app_assoc. split; [|reflexivity].
  destruct x, y; cbn; congruence.
Qed.
Lemma psfx_sfx_l a b c : psfx a b -> sfx b c -> psfx a c.
Proof.
  intros (x & Hx & ->) [y ->]. exists (x ++ y). rewrite app_assoc. split; [|reflexivity].
  destruct x; cbn; congruence.
Qed.
Lemma psfx_trans a b c : psfx a b -> psfx b c -> psfx a c.
Proof. intros H1 H2. eapply sfx_psfx; [apply psfx_sfx; exact H1|exact H2]. Qed.
Lemma sfx_len a b : sfx a b -> (length b <= length a)%nat.
Proof. intros [x ->]. rewrite app_length. lia. Qed.
Lemma psfx_len a b : psfx a b -> (length b < length a)%nat.
Proof. intros (x & Hx & ->). rewrite app_length. destruct x; [congruence|cbn; lia]. Qed.

Ltac sf := eauto using sfx_refl, sfx_trans, psfx_sfx, sfx_cons, psfx_cons, sfx_psfx, psfx_sfx_l, psfx_trans.

(** ** Tokens *)

Lemma skip_ws_sfx bs : sfx bs (skip_ws bs).
Proof.
  induction bs as [|b r IH]; cbn [skip_ws]; [apply sfx_refl|].
  destruct (is_ws b); [|apply sfx_refl]. eapply sfx_trans; [apply sfx_cons|exact IH].
Qed.

Lemma skip1_post np bs : post np (skip1 bs) (psfx bs).
Proof. destruct bs; cbn; [trivial|apply psfx_cons]. Qed.

Lemma expect_post np k bs : post np (expect k bs) (psfx bs).
Proof.
  unfold expect, lex. destruct (token_eqb _ _); [|exact I].
  eapply post_weaken; [apply skip1_post|]. intros r H. pose proof (skip_ws_sfx bs). sf.
Qed.

Lemma parse_exact_post np lit bs : lit <> [] -> post np (parse_exact lit bs) (psfx bs).
Proof.
  intros Hl. unfold parse_exact. destruct (take_opt (lenN lit) bs) as [[h r]|] eqn:E; [|exact I].
  apply take_opt_some in E. destruct E as [-> Hh].
  destruct (list_eq_dec N.eq_dec h lit); [|exact I]. cbn. subst. now exists lit.
Qed.

Lemma next_value_post np first bs : post np (next_value first bs) (fun x => sfx bs (snd x)).
Proof.
  induction bs as [|b r IH]; cbn [next_value]; [exact I|].
  assert (K : post np (next_value first r) (fun x => sfx (b :: r) (snd x))).
  { eapply post_weaken; [exact IH|]. cbn. intros x H. eapply sfx_trans; [apply sfx_cons|exact H]. }
  destruct (is_ws b); [exact K|]. destruct (is_value (from_byte b)); [apply sfx_refl|].
  destruct (from_byte b); try exact I; [destruct first; [exact I|exact K]|apply sfx_refl].
Qed.

Lemma next_key_post np first bs : post np (next_key first bs) (fun x => sfx bs (snd x)).
Proof.
  induction bs as [|b r IH]; cbn [next_key]; [exact I|].
  assert (K : post np (next_key first r) (fun x => sfx (b :: r) (snd x))).
  { eapply post_weaken; [exact IH|]. cbn. intros x H. eapply sfx_trans; [apply sfx_cons|exact H]. }
  destruct (is_ws b); [exact K|].
  destruct (from_byte b); try exact I; [destruct first; [exact I|exact K]|apply sfx_refl..].
Qed.

(** ** Strings *)

Lemma span_plain_sfx bs : forall h r, span_plain bs = (h, r) -> bs = h ++ r.
Proof.
  induction bs as [|b bs IH]; cbn [span_plain]; intros h r E; [injection E as <- <-; reflexivity|].
  destruct (needs_escape b); [injection E as <- <-; reflexivity|].
  destruct (span_plain bs) as [h' r'] eqn:E'. injection E as <- <-. cbn. now rewrite (IH h' r').
Qed.

Lemma hex_val_lt b n : hex_val b = Some n -> n < 16.
Proof.
  unfold hex_val. destruct (between 48 57 b) eqn:E1; [intros E; injection E as <-; unfold between in *; lia|].
  destruct (between 65 70 b) eqn:E2; [intros E; injection E as <-; unfold between in *; lia|].
  destruct (between 97 102 b) eqn:E3; [intros E; injection E as <-; unfold between in *; lia|discriminate].
Qed.

Lemma parse_hex_post np bs : post np (parse_hex bs)
  (fun x => fst x < 65536 /\ psfx bs (snd x) /\ (length bs = 4 + length (snd x))%nat).
Proof.
  unfold parse_hex. destruct bs as [|a [|b [|c [|d r]]]]; try exact I.
  destruct (hex_val a) eqn:Ea, (hex_val b) eqn:Eb, (hex_val c) eqn:Ec, (hex_val d) eqn:Ed; try exact I.
  apply hex_val_lt in Ea, Eb, Ec, Ed. cbn [post fst snd]. split; [lia|]. split; [|reflexivity].
  exists [a; b; c; d]. split; [discriminate|reflexivity].
Qed.

Lemma utf8_enc_len4 c : (length (utf8_enc c) <= 4)%nat.
Proof. unfold utf8_enc. repeat destruct (_ <? _); cbn; lia. Qed.

Lemma parse_u_post np bs : post np (parse_u bs)
  (fun x => char_valid (fst x) = true /\ psfx bs (snd x) /\ (4 + length (snd x) <= length bs)%nat).
Proof.
  unfold parse_u. eapply post_bind; [apply parse_hex_post|]. intros [n1 r]; cbn [fst snd]; intros (Hn & Hp & Hl).
  destruct (between 0xDC00 0xDFFF n1) eqn:E1; [exact I|].
  destruct (between 0xD800 0xDBFF n1) eqn:E2.
  - assert (G : forall x (Q : N * bytes -> Prop), (forall r', r = 92 :: 117 :: r' ->
        post np (let* (n2, r'') := parse_hex r' in
        if between 0xDC00 0xDFFF n2 then
          let n := (n1 - 0xD800) * 1024 + (n2 - 0xDC00) + 0x10000 in
          if char_valid n then Ok (n, r'') else Err
        else Err) Q) -> x = match r with
    | 92 :: 117 :: r' =>
        let* (n2, r'') := parse_hex r' in
        if between 0xDC00 0xDFFF n2 then
          let n := (n1 - 0xD800) * 1024 + (n2 - 0xDC00) + 0x10000 in
          if char_valid n then Ok (n, r'') else Err
        else Err
    | _ => Err
    end -> post np x Q).
    { intros x Q G ->. destruct r as [|a r]; [exact I|].
      destruct a as [|a]; [exact I|]. do 7 (destruct a as [a|a|]; try exact I).
      destruct r as [|b r]; [exact I|]. destruct b as [|b]; [exact I|].
      do 7 (destruct b as [b|b|]; try exact I). apply G. reflexivity. }
    eapply G; [|reflexivity]. clear G. intros r' ->.
    eapply post_bind; [apply parse_hex_post|]. intros [n2 r'']; cbn [fst snd]; intros (Hn2 & Hp2 & Hl2).
    destruct (between 0xDC00 0xDFFF n2); [|exact I]. cbn zeta.
    destruct (char_valid _) eqn:Ec; [|exact I]. cbn [post fst snd].
    split; [assumption|]. split; [|cbn in Hl; lia].
    eapply psfx_trans; [exact Hp|]. eapply psfx_trans; [apply psfx_cons|]. eapply psfx_trans; [apply psfx_cons|exact Hp2].
  - cbn [post fst snd]. split; [|split; [assumption|lia]].
    apply char_valid_iff. unfold between in *. lia.
Qed.

Lemma parse_escape_post np bs : post np (parse_escape bs)
  (fun x => utf8_valid (fst x) = true /\ psfx bs (snd x) /\
            (length (fst x) + length (snd x) <= length bs)%nat).
Proof.
  unfold parse_escape. destruct bs as [|b r]; [exact I|].
  repeat match goal with |- context [if ?c then _ else _] =>
    destruct c; [cbn [post fst snd]; first [split; [reflexivity|split; [apply psfx_cons|cbn; lia]]|idtac]|] end;
    try exact I.
  eapply post_bind; [apply parse_u_post|]. intros [c r']; cbn [fst snd post]; intros (Hc & Hp & Hl).
  split; [now apply utf8_enc_valid|]. split; [eapply psfx_trans; [apply psfx_cons|exact Hp]|].
  pose proof (utf8_enc_len4 c). cbn. lia.
Qed.

Lemma str_loop_post np fuel : forall scratch bs, (length bs < fuel)%nat -> utf8_valid scratch = true ->
  post np (str_loop fuel scratch bs)
    (fun x => utf8_valid (fst x) = true /\ psfx bs (snd x) /\
              (length (fst x) + length (snd x) <= length scratch + length bs)%nat).
Proof.
  induction fuel as [|fuel IH]; intros scratch bs Hf Hs; [lia|]. cbn [str_loop].
  destruct (span_plain bs) as [seg r] eqn:E. apply span_plain_sfx in E. subst bs.
  destruct r as [|b r]; [exact I|]. rewrite app_length in *. cbn [length] in *.
  assert (Hsf : psfx (seg ++ b :: r) r) by (exists (seg ++ [b]); rewrite <- app_assoc; split; [destruct seg; discriminate|reflexivity]).
  destruct (b =? 34).
  - destruct (utf8_valid seg) eqn:Eu; [|exact I]. cbn [post fst snd].
    split; [now rewrite utf8_app|]. split; [assumption|]. rewrite app_length. lia.
  - destruct (b =? 92); [|exact I]. destruct (utf8_valid seg) eqn:Eu; [|exact I].
    eapply post_bind; [apply parse_escape_post|]. intros [c r']; cbn [fst snd]; intros (Hc & Hp & Hl).
    pose proof (psfx_len _ _ Hp).
    eapply post_weaken; [apply IH; [lia|rewrite utf8_app by assumption; now rewrite utf8_app]|].
    intros [s r2]; cbn [fst snd]. rewrite !app_length. intros (H1 & H2 & H3).
    split; [assumption|]. split; [|lia]. eapply psfx_trans; [exact Hsf|]. eapply psfx_trans; [exact Hp|exact H2].
Qed.

Lemma parse_string_post np bs : post np (parse_string bs)
  (fun x => utf8_valid (fst x) = true /\ psfx bs (snd x) /\ (length (fst x) + length (snd x) < length bs)%nat).
Proof.
  unfold parse_string. eapply post_bind; [apply expect_post|]. intros r Hr.
  pose proof (psfx_len _ _ Hr).
  eapply post_weaken; [apply str_loop_post; [lia|reflexivity]|]. intros [s r']; cbn [fst snd].
  intros (H1 & H2 & H3). split; [assumption|]. split; [sf|]. cbn in H3. lia.
Qed.

Lemma skip_str_post np fuel : forall bs, (length bs < fuel)%nat -> post np (skip_str_loop fuel bs) (psfx bs).
Proof.
  induction fuel as [|fuel IH]; intros bs Hf; [lia|]. cbn [skip_str_loop].
  destruct (span_plain bs) as [seg r] eqn:E. apply span_plain_sfx in E. subst bs. cbn [snd].
  destruct r as [|b r]; [exact I|]. rewrite app_length in Hf. cbn [length] in Hf.
  assert (Hsf : psfx (seg ++ b :: r) r) by (exists (seg ++ [b]); rewrite <- app_assoc; split; [destruct seg; discriminate|reflexivity]).
  destruct (b =? 34); [exact Hsf|]. destruct (b =? 92); [|exact I].
  eapply post_bind; [apply parse_escape_post|]. intros [c r']; cbn [fst snd]; intros (_ & Hp & _).
  pose proof (psfx_len _ _ Hp). eapply post_weaken; [apply IH; lia|]. intros r2 H2. sf.
Qed.

Lemma utf8_valid_bytes s : utf8_valid s = true -> bytes_ok s = true.
Proof.
  intros H. destruct (utf8_chars s H) as (cs & Hc & ->). clear H.
  induction Hc as [|c cs Hc _ IH]; cbn [flat_map]; [reflexivity|].
  rewrite bytes_ok_app, IH, utf8_enc_byte by assumption. reflexivity.
Qed.

Lemma decode_char_post np bs : post np (decode_char bs) (fun x => char_valid (fst x) = true /\ psfx bs (snd x)).
Proof.
  unfold decode_char. eapply post_bind; [apply parse_string_post|]. intros [s r]; cbn [fst snd]; intros (H1 & H2 & _).
  destruct (utf8_chars s H1) as (cs & Hc & E). unfold str_bytes in *.
  destruct Hc as [|c cs Hc Hcs]; cbn [flat_map] in E; subst s; [exact I|].
  rewrite utf8_next_enc by assumption. destruct (flat_map utf8_enc cs); [|exact I]. cbn. auto.
Qed.

(** ** Integers *)

Lemma digits_post oc tb np : forall bs acc, (np = true -> oc = false) -> acc < 2 ^ tb ->
  post np (digits oc tb acc bs) (fun x => fst x < 2 ^ tb /\ sfx bs (snd x)).
Proof.
  intros bs acc Hnp. revert acc. induction bs as [|b r IH]; intros acc Ha; cbn [digits].
  - cbn. split; [assumption|apply sfx_refl].
  - destruct (is_digit b); [|cbn; split; [assumption|apply sfx_refl]].
    assert (K : forall a, a < 2 ^ tb -> post np (digits oc tb a r) (fun x => fst x < 2 ^ tb /\ sfx (b :: r) (snd x))).
    { intros a H. eapply post_weaken; [now apply IH|]. intros x [H1 H2]. split; [assumption|].
      eapply sfx_trans; [apply sfx_cons|exact H2]. }
    destruct (2 ^ tb <=? acc * 10) eqn:E1; [exact I|].
    destruct (2 ^ tb <=? acc * 10 + (b - 48)) eqn:E2.
    + destruct oc; [cbn; destruct np; [now discriminate Hnp|reflexivity]|].
      apply K. apply N.mod_lt. apply N.pow_nonzero. discriminate.
    + apply K. lia.
Qed.

Lemma unsigned_base_post oc tb np bs : (np = true -> oc = false) -> 4 <= tb ->
  post np (unsigned_base oc tb bs) (fun x => fst x < 2 ^ tb /\ psfx bs (snd x)).
Proof.
  intros Hnp Ht. unfold unsigned_base. destruct bs as [|b r]; [exact I|].
  assert (H16 : 2 ^ 4 <= 2 ^ tb) by (apply N.pow_le_mono_r; lia). change (2 ^ 4) with 16 in H16.
  destruct (b =? 48); [cbn; split; [lia|apply psfx_cons]|].
  destruct (is_digit_nonzero b) eqn:E; [|exact I].
  unfold is_digit_nonzero, between in E.
  eapply post_weaken; [apply digits_post; [assumption|lia]|].
  intros x [H1 H2]. split; [assumption|]. eapply psfx_sfx_l; [apply psfx_cons|exact H2].
Qed.

Lemma parse_unsigned_post oc tb np bs : (np = true -> oc = false) -> 4 <= tb ->
  post np (parse_unsigned oc tb bs) (fun x => fst x < 2 ^ tb /\ psfx bs (snd x)).
Proof.
  intros Hnp Ht. unfold parse_unsigned. eapply post_weaken; [now apply unsigned_base_post|].
  intros x [H1 H2]. split; [assumption|]. eapply sfx_psfx; [apply skip_ws_sfx|exact H2].
Qed.

Lemma parse_signed_eq oc tb bs : parse_signed oc tb bs =
  match skip_ws bs with
  | [] => Err
  | b :: r => if b =? 45 then let* (n, r') := unsigned_base oc tb r in let* z := negate tb n in Ok (z, r')
              else let* (n, r') := unsigned_base oc tb (b :: r) in let* z := signed tb n in Ok (z, r')
  end.
Proof.
  unfold parse_signed. destruct (skip_ws bs) as [|a r]; [reflexivity|]. destruct a as [|a]; [reflexivity|].
  do 6 (destruct a as [a|a|]; try reflexivity).
Qed.

Lemma parse_signed_post oc tb np bs : (np = true -> oc = false) -> 4 <= tb ->
  post np (parse_signed oc tb bs) (fun x => in_sb tb (fst x) = true /\ psfx bs (snd x)).
Proof.
  intros Hnp Ht. rewrite parse_signed_eq.
  pose proof (skip_ws_sfx bs) as Hsk. destruct (skip_ws bs) as [|b r']; [exact I|].
  pose proof (pow_half tb) as Hpw. destruct (b =? 45).
  - eapply post_bind; [now apply unsigned_base_post|]. intros [n r2]; cbn [fst snd]; intros [H1 H2].
    unfold negate. destruct (2 ^ (tb - 1) <? n) eqn:En; [exact I|]. cbn [bind post fst snd].
    split.
    + apply in_sb_iff. lia.
    + eapply sfx_psfx; [exact Hsk|]. eapply psfx_trans; [apply psfx_cons|exact H2].
  - eapply post_bind; [now apply unsigned_base_post|]. intros [n r2]; cbn [fst snd]; intros [H1 H2].
    unfold signed. destruct (2 ^ (tb - 1) - 1 <? n) eqn:En; [exact I|]. cbn [bind post fst snd].
    assert (0 < 2 ^ (tb - 1)) by (apply N.neq_0_lt_0, N.pow_nonzero; discriminate).
    split.
    + apply in_sb_iff. lia.
    + eapply sfx_psfx; [exact Hsk|exact H2].
Qed.

(** ** Skipping *)

Lemma skip_digits_sfx bs : sfx bs (skip_digits bs).
Proof.
  induction bs as [|b r IH]; cbn [skip_digits]; [apply sfx_refl|].
  destruct (is_digit b); [|apply sfx_refl]. eapply sfx_trans; [apply sfx_cons|exact IH].
Qed.

Lemma cases_46 r1 : sfx r1 (match r1 with 46 :: r => skip_digits r | _ => r1 end).
Proof.
  destruct r1 as [|b r]; [apply sfx_refl|]. destruct b as [|b]; [apply sfx_refl|].
  do 6 (destruct b as [b|b|]; try apply sfx_refl). eapply sfx_trans; [apply sfx_cons|apply skip_digits_sfx].
Qed.

Lemma cases_45 (bs : bytes) : sfx bs (match bs with 45 :: r => r | _ => bs end).
Proof.
  destruct bs as [|b r]; [apply sfx_refl|]. destruct b as [|b]; [apply sfx_refl|].
  do 6 (destruct b as [b|b|]; try apply sfx_refl). apply sfx_cons.
Qed.

Lemma skip_number_post np bs : post np (skip_number bs) (psfx bs).
Proof.
  unfold skip_number. cbv zeta. pose proof (cases_45 bs) as H0.
  set (r0 := match bs with 45 :: r => r | _ => bs end) in *. clearbody r0.
  eapply post_bind with (Q := psfx bs).
  { destruct r0 as [|b r]; [exact I|]. destruct (b =? 48); [cbn; sf|].
    destruct (is_digit_nonzero b); [|exact I]. cbn. pose proof (skip_digits_sfx r).
    eapply sfx_psfx; [exact H0|]. eapply psfx_sfx_l; [apply psfx_cons|assumption]. }
  intros r1 H1.
  match goal with |- post _ (match ?m with [] => Ok [] | _ => _ end) _ => assert (H2 : sfx r1 m) by apply (cases_46 r1); set (r2 := m) in * end.
  clearbody r2.
  assert (H3 : psfx bs r2) by (eapply psfx_sfx_l; [exact H1|exact H2]).
  destruct r2 as [|b r]; [exact H3|]. destruct (_ || _); [|exact H3]. cbn [post].
  eapply psfx_trans; [exact H3|]. eapply psfx_sfx_l; [apply psfx_cons|].
  assert (K : sfx r (match r with c :: r' => if (c =? 45) || (c =? 43) then r' else r | [] => r end)).
  { destruct r as [|c r']; [apply sfx_refl|]. destruct (_ || _); [apply sfx_cons|apply sfx_refl]. }
  eapply sfx_trans; [exact K|apply skip_digits_sfx].
Qed.

Lemma skip_all_post np fuel :
  (forall bs, (2 * length bs + 1 <= fuel)%nat -> post np (skip_any fuel bs) (psfx bs)) /\
  (forall first bs, (2 * length bs + 2 <= fuel)%nat -> post np (skip_seq fuel first bs) (psfx bs)) /\
  (forall first bs, (2 * length bs + 2 <= fuel)%nat -> post np (skip_obj fuel first bs) (psfx bs)).
Proof.
  induction fuel as [|fuel (IHa & IHs & IHo)]; [repeat split; intros; lia|]. repeat split.
  - intros bs Hf. cbn [skip_any]. unfold lex. pose proof (skip_ws_sfx bs) as Hw. pose proof (sfx_len _ _ Hw).
    set (r := skip_ws bs) in *. clearbody r.
    destruct (tok r); try exact I.
    + eapply post_bind; [apply skip1_post|]. intros r' Hr. pose proof (psfx_len _ _ Hr).
      eapply post_weaken; [apply IHo; lia|]. intros x Hx. sf.
    + eapply post_bind; [apply skip1_post|]. intros r' Hr. pose proof (psfx_len _ _ Hr).
      eapply post_weaken; [apply IHs; lia|]. intros x Hx. sf.
    + eapply post_bind; [apply skip1_post|]. intros r' Hr.
      eapply post_weaken; [apply skip_str_post; lia|]. intros x Hx. sf.
    + eapply post_weaken; [apply skip_number_post|]. intros x Hx. sf.
    + eapply post_weaken; [apply parse_exact_post; discriminate|]. intros x Hx. sf.
    + eapply post_weaken; [apply parse_exact_post; discriminate|]. intros x Hx. sf.
    + eapply post_weaken; [apply parse_exact_post; discriminate|]. intros x Hx. sf.
  - intros first bs Hf. cbn [skip_seq]. eapply post_bind; [apply next_value_post|].
    intros [more r]; cbn [snd]; intros Hr. pose proof (sfx_len _ _ Hr). destruct more.
    + eapply post_bind; [apply IHa; lia|]. intros r' Hr'. pose proof (psfx_len _ _ Hr').
      eapply post_weaken; [apply IHs; lia|]. intros x Hx. sf.
    + eapply post_weaken; [apply expect_post|]. intros x Hx. sf.
  - intros first bs Hf. cbn [skip_obj]. eapply post_bind; [apply next_key_post|].
    intros [more r]; cbn [snd]; intros Hr. pose proof (sfx_len _ _ Hr). destruct more.
    + eapply post_bind; [apply IHa; lia|]. intros r1 H1. pose proof (psfx_len _ _ H1) as L1.
      eapply post_bind; [apply expect_post|]. intros r2 H2. pose proof (psfx_len _ _ H2) as L2.
      eapply post_bind; [apply IHa; lia|]. intros r3 H3. pose proof (psfx_len _ _ H3) as L3.
      eapply post_weaken; [apply IHo; lia|]. intros x Hx.
      eapply sfx_psfx; [exact Hr|]. eapply psfx_trans; [exact H1|]. eapply psfx_trans; [exact H2|].
      eapply psfx_trans; [exact H3|exact Hx].
    + eapply post_weaken; [apply expect_post|]. intros x Hx. sf.
Qed.

Lemma skip_value_post np bs : post np (skip_value bs) (psfx bs).
Proof. apply (skip_all_post np). unfold skip_fuel. lia. Qed.
Lemma skip_rest_post np first bs : post np (skip_rest first bs) (psfx bs).
Proof. apply (skip_all_post np). unfold skip_fuel. lia. Qed.
Lemma skip_entries_post np first bs : post np (skip_entries first bs) (psfx bs).
Proof. apply (skip_all_post np). unfold skip_fuel. lia. Qed.

(** ** Loops. [I s bs] is an invariant of the state and the remaining input. *)

Section Loops.
  Context {S : Type} (np : bool) (I : S -> bytes -> Prop) (step : S -> bytes -> res (S * bytes)).
  Hypothesis Imono : forall s bs r, I s bs -> sfx bs r -> I s r.
  Hypothesis Istep : forall s r, I s r -> post np (step s r) (fun x => I (fst x) (snd x) /\ psfx r (snd x)).

  Lemma seq_loop_post fuel : forall first s bs, (length bs < fuel)%nat -> I s bs ->
    post np (seq_loop fuel step first s bs) (fun x => I (fst x) (snd x) /\ sfx bs (snd x)).
  Proof.
    induction fuel as [|fuel IH]; intros first s bs Hf Hi; [lia|]. cbn [seq_loop].
    eapply post_bind; [apply next_value_post|]. intros [more r]; cbn [snd]; intros Hr.
    pose proof (sfx_len _ _ Hr). destruct more; [|cbn; split; [now apply Imono with bs|assumption]].
    eapply post_bind; [apply Istep; now apply Imono with bs|]. intros [s' r']; cbn [fst snd]; intros [H1 H2].
    pose proof (psfx_len _ _ H2). eapply post_weaken; [apply IH; [lia|assumption]|].
    intros x [H3 H4]. split; [assumption|]. eapply sfx_trans; [exact Hr|]. eapply sfx_trans; [apply psfx_sfx; exact H2|exact H4].
  Qed.

  Lemma obj_loop_post fuel : forall first s bs, (length bs < fuel)%nat -> I s bs ->
    post np (obj_loop fuel step first s bs) (fun x => I (fst x) (snd x) /\ sfx bs (snd x)).
  Proof.
    induction fuel as [|fuel IH]; intros first s bs Hf Hi; [lia|]. cbn [obj_loop].
    eapply post_bind; [apply next_key_post|]. intros [more r]; cbn [snd]; intros Hr.
    pose proof (sfx_len _ _ Hr). destruct more; [|cbn; split; [now apply Imono with bs|assumption]].
    eapply post_bind; [apply Istep; now apply Imono with bs|]. intros [s' r']; cbn [fst snd]; intros [H1 H2].
    pose proof (psfx_len _ _ H2). eapply post_weaken; [apply IH; [lia|assumption]|].
    intros x [H3 H4]. split; [assumption|]. eapply sfx_trans; [exact Hr|]. eapply sfx_trans; [apply psfx_sfx; exact H2|exact H4].
  Qed.

  Lemma dec_sequence_post s bs : I s bs ->
    post np (dec_sequence step s bs) (fun x => I (fst x) (snd x) /\ psfx bs (snd x)).
  Proof.
    intros Hi. unfold dec_sequence. eapply post_bind; [apply expect_post|]. intros r Hr.
    eapply post_bind; [apply seq_loop_post; [lia|eapply Imono; [exact Hi|sf]]|].
    intros [s' r']; cbn [fst snd]; intros [H1 H2].
    eapply post_bind; [apply skip_rest_post|]. intros r2 H3. cbn. split.
    - eapply Imono; [exact H1|sf].
    - eapply psfx_trans; [exact Hr|]. eapply sfx_psfx; [exact H2|exact H3].
  Qed.

  Lemma dec_object_post s bs : I s bs ->
    post np (dec_object step s bs) (fun x => I (fst x) (snd x) /\ psfx bs (snd x)).
  Proof.
    intros Hi. unfold dec_object. eapply post_bind; [apply expect_post|]. intros r Hr.
    eapply post_bind; [apply obj_loop_post; [lia|eapply Imono; [exact Hi|sf]]|].
    intros [s' r']; cbn [fst snd]; intros [H1 H2].
    eapply post_bind; [apply skip_entries_post|]. intros r2 H3. cbn. split.
    - eapply Imono; [exact H1|sf].
    - eapply psfx_trans; [exact Hr|]. eapply sfx_psfx; [exact H2|exact H3].
  Qed.
End Loops.

Definition typed (np : bool) (M : N) (P : val -> bool) (d : dec val) : Prop :=
  forall bs, lenN bs < M -> post np (d bs) (fun x => P (fst x) = true /\ psfx bs (snd x)).

Lemma lenN_sfx a b : sfx a b -> lenN b <= lenN a.
Proof. intros H. apply sfx_len in H. unfold lenN. lia. Qed.
Lemma lenN_psfx a b : psfx a b -> lenN b < lenN a.
Proof. intros H. apply psfx_len in H. unfold lenN. lia. Qed.

Lemma next_list_post np M ds Ps : Forall2 (typed np M) Ps ds -> forall first bs, lenN bs < M ->
  post np (next_list ds first bs) (fun x => all2 Ps (fst x) = true /\ sfx bs (snd x)).
Proof.
  induction 1 as [|P d Ps ds Hd _ IH]; intros first bs Hl; cbn [next_list].
  - cbn. split; [reflexivity|apply sfx_refl].
  - eapply post_bind; [apply next_value_post|]. intros [more r]; cbn [snd]; intros Hr.
    pose proof (lenN_sfx _ _ Hr) as LHr. destruct more; [|exact I].
    eapply post_bind; [apply Hd; lia|]. intros [v r']; cbn [fst snd]; intros [H1 H2]. pose proof (lenN_psfx _ _ H2) as LH2.
    eapply post_bind; [apply IH; lia|]. intros [vs r2]; cbn [fst snd]; intros [H3 H4].
    cbn. rewrite H1, H3. split; [reflexivity|]. eapply sfx_trans; [exact Hr|]. eapply sfx_trans; [apply psfx_sfx; exact H2|exact H4].
Qed.

Lemma dec_tuple_post np M ds Ps : Forall2 (typed np M) Ps ds -> forall bs, lenN bs < M ->
  post np (dec_tuple ds bs) (fun x => all2 Ps (fst x) = true /\ psfx bs (snd x)).
Proof.
  intros H bs Hl. unfold dec_tuple. eapply post_bind; [apply expect_post|]. intros r Hr. pose proof (lenN_psfx _ _ Hr) as LHr.
  eapply post_bind; [apply (next_list_post np M ds Ps H); lia|]. intros [vs r']; cbn [fst snd]; intros [H1 H2].
  eapply post_bind; [apply skip_rest_post|]. intros r2 H3. cbn. split; [assumption|].
  eapply psfx_trans; [exact Hr|]. eapply sfx_psfx; [exact H2|exact H3].
Qed.

(** ** Keys *)

Lemma jkdec_typed p oc np t : (np = true -> oc = false) -> wf p t ->
  typed np (2 ^ usize_bits p) (has_type p t) (jkdec p oc t).
Proof.
  intros Hnp. pose proof (usize_bits_ge p) as Hu.
  assert (Un : forall tb bs, 4 <= tb -> post np (key_unsigned oc tb bs)
            (fun x => (exists n, fst x = VN n /\ n < 2 ^ tb) /\ psfx bs (snd x))).
  { intros tb bs Ht. unfold key_unsigned. eapply post_bind; [apply parse_string_post|].
    intros [s r]; cbn [fst snd]; intros (_ & H2 & _). eapply post_bind; [now apply parse_unsigned_post|].
    intros [n r']; cbn [fst snd]; intros [H3 _]. cbn. split; [now exists n|assumption]. }
  assert (Si : forall tb bs, 4 <= tb -> post np (key_signed oc tb bs)
            (fun x => (exists z, fst x = VZ z /\ in_sb tb z = true) /\ psfx bs (snd x))).
  { intros tb bs Ht. unfold key_signed. eapply post_bind; [apply parse_string_post|].
    intros [s r]; cbn [fst snd]; intros (_ & H2 & _). eapply post_bind; [now apply parse_signed_post|].
    intros [n r']; cbn [fst snd]; intros [H3 _]. cbn. split; [now exists n|assumption]. }
  induction t using ty_ind'; intros Hwf bs Hl; cbn [jkdec]; try exact I.
  - pose proof (bits_ge w). eapply post_weaken; [apply Un; lia|]. intros [v r]; cbn [fst snd].
    intros [(n & -> & Hn) Hp]. cbn. split; [lia|assumption].
  - pose proof (bits_ge w). eapply post_weaken; [apply Si; lia|]. intros [v r]; cbn [fst snd].
    intros [(n & -> & Hn) Hp]. cbn. auto.
  - eapply post_weaken; [apply Un; lia|]. intros [v r]; cbn [fst snd].
    intros [(n & -> & Hn) Hp]. cbn [has_type]. split; [lia|assumption].
  - eapply post_weaken; [apply Si; lia|]. intros [v r]; cbn [fst snd].
    intros [(n & -> & Hn) Hp]. cbn [has_type]. auto.
  - pose proof (bits_ge w). eapply post_bind; [apply Un; lia|]. intros [v r]; cbn [fst snd].
    intros [(n & -> & Hn) Hp]. destruct n; [exact I|]. cbn [post fst snd has_type]. split; [lia|assumption].
  - eapply post_bind; [apply parse_string_post|].
    intros [s r]; cbn [fst snd]; intros (H1 & H2 & H3). cbn [post fst snd has_type]. split; [|assumption].
    rewrite H1, utf8_valid_bytes by assumption. cbn [andb]. unfold len_ok, lenN in *. lia.
  - now apply IHt.
  - destruct Hwf as (Hw & _). eapply post_bind; [now apply IHt|]. intros [k r]; cbn [fst snd]; intros [H1 H2].
    destruct (find_name k tags) as [i|] eqn:E; [|exact I]. cbn [post fst snd has_type]. split; [|assumption].
    apply find_name_some in E. apply Nat.ltb_lt. apply nth_error_Some. congruence.
Qed.

(** ** Values *)

Lemma jfield_post p oc np kt fs s bs : (np = true -> oc = false) -> wf p kt ->
  Forall (fun ft => typed np (2 ^ usize_bits p) (has_type p (snd ft)) (jdec p oc (snd ft))) fs ->
  slots_ok (map (fun ft => has_type p (snd ft)) fs) s -> lenN bs < 2 ^ usize_bits p ->
  post np (jfield (jkdec p oc kt) (map (fun ft => fname (fst ft)) fs) (map (fun ft => jdec p oc (snd ft)) fs) s bs)
    (fun x => slots_ok (map (fun ft => has_type p (snd ft)) fs) (fst x) /\ psfx bs (snd x)).
Proof.
  intros Hnp Hk Hf Hs Hl. unfold jfield.
  eapply post_bind; [now apply (jkdec_typed p oc np kt Hnp Hk)|]. intros [k r0]; cbn [fst snd]; intros [_ H0].
  pose proof (lenN_psfx _ _ H0) as LH0. destruct (find_name k _) as [i|] eqn:Ei.
  - rewrite nth_error_map. destruct (nth_error fs i) as [ft|] eqn:En; cbn [option_map]; [|exact I].
    eapply post_bind; [apply expect_post|]. intros r Hr. pose proof (lenN_psfx _ _ Hr) as LHr.
    rewrite Forall_forall in Hf. eapply post_bind; [apply (Hf ft); [apply nth_error_In in En; exact En|lia]|].
    intros [v r']; cbn [fst snd]; intros [H1 H2]. cbn. split.
    + eapply set_slot_ok; [exact Hs| |exact H1]. now rewrite nth_error_map, En.
    + eapply psfx_trans; [exact H0|]. eapply psfx_trans; [exact Hr|exact H2].
  - eapply post_bind; [apply expect_post|]. intros r Hr.
    eapply post_bind; [apply skip_value_post|]. intros r' H2. cbn. split; [assumption|].
    eapply psfx_trans; [exact H0|]. eapply psfx_trans; [exact Hr|exact H2].
Qed.

Lemma Forall_Forall2_map {A B C} (R : B -> C -> Prop) (f : A -> B) (g : A -> C) l :
  Forall (fun a => R (f a) (g a)) l -> Forall2 R (map f l) (map g l).
Proof. induction 1; constructor; auto. Qed.

Lemma forallb_Forall {A} (P : A -> bool) l : forallb P l = true <-> Forall (fun x => P x = true) l.
Proof. rewrite forallb_forall, Forall_forall. reflexivity. Qed.

Lemma float_post' F np bs : std F ->
  post np (Dec2flt.json_decode_float F bs) (fun x => fst x < 2 ^ (1 + FloatSpec.ebits (Dec2flt.r_bin F) + FloatSpec.mbits (Dec2flt.r_bin F)) /\ psfx bs (snd x)).
Proof.
  intros HF. destruct (Dec2flt.json_decode_float F bs) as [[x r]| |] eqn:E; [|exact I|now elim (float_safe F bs HF)].
  exact (float_post F bs x r HF E).
Qed.

Theorem jdec_typed p oc t : wf p t -> forall np, (np = true -> oc = false /\ no_arr t = true) ->
  typed np (2 ^ usize_bits p) (has_type p t) (jdec p oc t).
Proof.
  pose proof (usize_bits_ge p) as Hu. set (M := 2 ^ usize_bits p) in *.
  induction t using ty_ind'; intros Hwf np Hnp bs Hl; cbn [no_arr] in Hnp; cbn [wf] in Hwf; cbn [jdec];
    assert (Hoc : np = true -> oc = false) by (intros E; apply (Hnp E)); try exact I.
  - eapply post_bind; [apply skip_value_post|]. intros r Hr. cbn. auto.
  - unfold lex. pose proof (skip_ws_sfx bs) as Hw. destruct (tok (skip_ws bs)); try exact I;
      (eapply post_bind; [apply parse_exact_post; discriminate|]); intros r Hr; cbn; split; try reflexivity; sf.
  - eapply post_bind; [apply decode_char_post|]. intros [c r]; cbn [fst snd]; intros [H1 H2]. cbn. auto.
  - pose proof (bits_ge w). eapply post_bind; [apply parse_unsigned_post; [assumption|lia]|].
    intros [n r]; cbn [fst snd]; intros [H1 H2]. cbn. split; [lia|assumption].
  - pose proof (bits_ge w). eapply post_bind; [apply parse_signed_post; [assumption|lia]|].
    intros [n r]; cbn [fst snd]; intros [H1 H2]. cbn. auto.
  - eapply post_bind; [apply parse_unsigned_post; [assumption|lia]|].
    intros [n r]; cbn [fst snd]; intros [H1 H2]. cbn [post fst snd has_type]. split; [lia|assumption].
  - eapply post_bind; [apply parse_signed_post; [assumption|lia]|].
    intros [n r]; cbn [fst snd]; intros [H1 H2]. cbn [post fst snd has_type]. auto.
  - eapply post_bind; [exact (float_post' Dec2flt.F32 np bs (or_introl eq_refl))|].
    intros [n r]; cbn [fst snd]; intros [H1 H2]. cbn [post fst snd has_type]. split; [|assumption]. apply N.ltb_lt. exact H1.
  - eapply post_bind; [exact (float_post' Dec2flt.F64 np bs (or_intror eq_refl))|].
    intros [n r]; cbn [fst snd]; intros [H1 H2]. cbn [post fst snd has_type]. split; [|assumption]. apply N.ltb_lt. exact H1.
  - pose proof (bits_ge w). eapply post_bind; [apply parse_unsigned_post; [assumption|lia]|].
    intros [n r]; cbn [fst snd]; intros [H1 H2]. destruct (n =? 0) eqn:E; [exact I|].
    cbn [post fst snd has_type]. split; [rewrite E; lia|assumption].
  - eapply post_bind; [apply parse_string_post|].
    intros [s r]; cbn [fst snd]; intros (H1 & H2 & H3). cbn [post fst snd has_type]. split; [|assumption].
    rewrite H1, utf8_valid_bytes by assumption. cbn [andb]. unfold len_ok, lenN, M in *. lia.
  - eapply post_bind.
    + apply (dec_sequence_post np (fun s r => bytes_ok s = true /\ lenN s + lenN r < M)).
      * intros s b r [H1 H2] H3. apply lenN_sfx in H3. split; [assumption|lia].
      * intros s r [H1 H2]. unfold byte_step. eapply post_bind; [apply parse_unsigned_post; [assumption|lia]|].
        intros [n r']; cbn [fst snd]; intros [H3 H4]. cbn [post fst snd]. split; [|assumption].
        apply lenN_psfx in H4. rewrite lenN_app. change (lenN [n]) with 1. split; [|lia].
        rewrite bytes_ok_app, H1. cbn. unfold byte_ok. change (2 ^ 8) with 256 in H3. lia.
      * split; [reflexivity|]. change (lenN (@nil N)) with 0. lia.
    + intros [s r]; cbn [fst snd]; intros [[H1 H2] H3]. cbn [post fst snd has_type]. split; [|assumption].
      rewrite H1. cbn [andb]. unfold len_ok, M in *. lia.
  - destruct np; [exfalso; now destruct (Hnp eq_refl)|].
    eapply post_bind.
    + apply (dec_sequence_post false (fun s r => bytes_ok s = true)).
      * auto.
      * intros s r H1. unfold arr_step. destruct (lenN s <=? n); [|exact I].
        eapply post_bind; [apply parse_unsigned_post; [discriminate|lia]|].
        intros [b r']; cbn [fst snd]; intros [H3 H4]. destruct (lenN s <? n); [|reflexivity].
        cbn [post fst snd]. split; [|assumption].
        rewrite bytes_ok_app, H1. cbn. unfold byte_ok. change (2 ^ 8) with 256 in H3. lia.
      * reflexivity.
    + intros [s r]; cbn [fst snd]; intros [H1 H3]. destruct (lenN s =? n) eqn:E; [|exact I].
      cbn [post fst snd has_type]. rewrite H1, E. auto.
  - unfold lex. pose proof (skip_ws_sfx bs) as Hw. pose proof (lenN_sfx _ _ Hw) as LHw.
    assert (K : post np (let* (v, r') := jdec p oc t (skip_ws bs) in Ok (VSome v, r'))
      (fun x => has_type p (TOpt t) (fst x) = true /\ psfx bs (snd x))).
    { eapply post_bind; [apply (IHt Hwf np Hnp); lia|]. intros [v r]; cbn [fst snd]; intros [H1 H2].
      cbn. split; [assumption|sf]. }
    destruct (tok (skip_ws bs)); try exact K.
    eapply post_bind; [apply parse_exact_post; discriminate|]. intros r Hr. cbn. split; [reflexivity|sf].
  - now apply (IHt Hwf np Hnp).
  - eapply post_bind.
    + apply (dec_sequence_post np (fun s r => Forall (fun v => has_type p t v = true) s /\ lenN s + lenN r < M)).
      * intros s b r [H1 H2] H3. apply lenN_sfx in H3. split; [assumption|lia].
      * intros s r [H1 H2]. eapply post_bind; [apply (IHt Hwf np Hnp); lia|].
        intros [v r']; cbn [fst snd]; intros [H3 H4]. cbn [post fst snd]. split; [|assumption].
        apply lenN_psfx in H4. rewrite lenN_app. change (lenN [v]) with 1. split; [|lia].
        apply Forall_app. auto.
      * split; [constructor|]. change (lenN (@nil val)) with 0. lia.
    + intros [s r]; cbn [fst snd]; intros [[H1 H2] H3]. cbn [post fst snd has_type]. split; [|assumption].
      apply forallb_Forall in H1. rewrite H1. cbn [andb]. unfold len_ok, M in *. lia.
  - destruct Hwf as [Hwf Hn]. eapply post_bind.
    + apply (dec_sequence_post np (fun s r => Forall (fun v => has_type p t v = true) s /\ lenN r < M)).
      * intros s b r [H1 H2] H3. apply lenN_sfx in H3. split; [assumption|lia].
      * intros s r [H1 H2]. eapply post_bind; [apply (IHt Hwf np Hnp); lia|].
        intros [v r']; cbn [fst snd]; intros [H3 H4]. destruct (lenN s <? n); [|exact I].
        cbn [post fst snd]. split; [|assumption].
        apply lenN_psfx in H4. split; [|lia]. apply Forall_app. auto.
      * split; [constructor|]. lia.
    + intros [s r]; cbn [fst snd]; intros [[H1 H2] H3]. destruct (lenN s =? n) eqn:E; [|exact I].
      cbn [post fst snd has_type]. split; [|assumption]. apply forallb_Forall in H1. now rewrite H1, E.
  - eapply post_bind.
    + apply (dec_sequence_post np (fun s r => (Forall (fun v => has_type p t v = true) s /\ NoDup s) /\ lenN s + lenN r < M)).
      * intros s b r [H1 H2] H3. apply lenN_sfx in H3. split; [assumption|lia].
      * intros s r [[H1 H1'] H2]. eapply post_bind; [apply (IHt Hwf np Hnp); lia|].
        intros [v r']; cbn [fst snd]; intros [H3 H4]. cbn [post fst snd]. split; [|assumption].
        apply lenN_psfx in H4.
        destruct (set_insert_inv (fun v => has_type p t v = true) v s H3 H1 H1') as (H5 & H6 & H7).
        split; [auto|lia].
      * split; [split; constructor|]. change (lenN (@nil val)) with 0. lia.
    + intros [s r]; cbn [fst snd]; intros [[[H1 H1'] H2] H3]. cbn [post fst snd has_type]. split; [|assumption].
      apply forallb_Forall in H1. apply distinct_NoDup in H1'. rewrite H1, H1'. cbn [andb]. unfold len_ok, M in *. lia.
  - destruct Hwf as [Hwf _]. apply allP_Forall in Hwf.
    eapply post_bind; [apply (dec_tuple_post np M (map (jdec p oc) ts) (map (has_type p) ts)); [|assumption]|].
    + apply Forall_Forall2_map. rewrite Forall_forall in *. intros t Ht. apply H; auto.
      intros E. destruct (Hnp E) as [H1 H2]. split; [assumption|]. rewrite forallb_forall in H2. auto.
    + intros [vs r]; cbn [fst snd]; intros [H1 H2]. cbn [post fst snd has_type]. auto.
  - destruct Hwf as [Hw1 Hw2].
    assert (Hnp2 : np = true -> oc = false /\ no_arr t2 = true).
    { intros E. destruct (Hnp E) as [H1 H2]. apply andb_true_iff in H2. tauto. }
    eapply post_bind.
    + apply (dec_object_post np (fun s r => (Forall (fun kv => has_type p t1 (fst kv) && has_type p t2 (snd kv) = true) s
                 /\ NoDup (map fst s)) /\ lenN s + lenN r < M)).
      * intros s b r [H1 H2] H3. apply lenN_sfx in H3. split; [assumption|lia].
      * intros s r [[H1 H1'] H2]. eapply post_bind; [apply (jkdec_typed p oc np t1 Hoc Hw1); fold M; lia|].
        intros [k r0]; cbn [fst snd]; intros [Hk Hp0]. pose proof (lenN_psfx _ _ Hp0) as LHp0.
        eapply post_bind; [apply expect_post|]. intros r1 Hp1. pose proof (lenN_psfx _ _ Hp1) as LHp1.
        eapply post_bind; [apply (IHt2 Hw2 np Hnp2); lia|].
        intros [v r']; cbn [fst snd]; intros [H3 H4]. cbn [post fst snd]. pose proof (lenN_psfx _ _ H4) as LH4.
        destruct (map_insert_inv (fun kv => has_type p t1 (fst kv) && has_type p t2 (snd kv) = true) k v s) as (H5 & H6 & H7);
          [cbn; now rewrite Hk, H3|assumption..|].
        split; [split; [auto|lia]|]. eapply psfx_trans; [exact Hp0|]. eapply psfx_trans; [exact Hp1|exact H4].
      * split; [split; constructor|]. change (lenN (@nil (val * val))) with 0. lia.
    + intros [s r]; cbn [fst snd]; intros [[[H1 H1'] H2] H3]. cbn [post fst snd has_type]. split; [|assumption].
      apply forallb_Forall in H1. apply distinct_NoDup in H1'. rewrite H1, H1'. cbn [andb]. unfold len_ok, M in *. lia.
  - destruct Hwf as [Hwf _]. apply allP_Forall in Hwf.
    eapply post_bind; [apply (dec_tuple_post np M (map (fun ft => jdec p oc (snd ft)) fs) (map (fun ft => has_type p (snd ft)) fs)); [|assumption]|].
    + apply Forall_Forall2_map. rewrite Forall_forall in *. intros t Ht. apply H; auto.
      intros E. destruct (Hnp E) as [H1 H2]. split; [assumption|]. rewrite forallb_forall in H2. auto.
    + intros [vs r]; cbn [fst snd]; intros [H1 H2]. cbn [post fst snd has_type]. auto.
  - destruct Hwf as (Hk & Hf & _ & _ & _ & Hdef & _). apply allP_Forall in Hf.
    destruct fs as [|ft0 fs0] eqn:Efs.
    + eapply post_bind; [apply expect_post|]. intros r Hr.
      eapply post_bind; [apply skip_entries_post|]. intros r' Hr'. cbn. split; [reflexivity|sf].
    + rewrite <- Efs in *. clear Efs ft0 fs0.
      assert (HT : Forall (fun ft => typed np M (has_type p (snd ft)) (jdec p oc (snd ft))) fs).
      { rewrite Forall_forall in *. intros ft Ht. apply H; auto.
        intros E. destruct (Hnp E) as [H1 H2]. split; [assumption|]. apply andb_true_iff in H2.
        destruct H2 as [_ H2]. rewrite forallb_forall in H2. auto. }
      eapply post_bind; [apply expect_post|]. intros r Hr. pose proof (lenN_psfx _ _ Hr) as LHr.
      eapply post_bind.
      * apply (obj_loop_post np (fun s r => slots_ok (map (fun ft => has_type p (snd ft)) fs) s /\ lenN r < M)).
        -- intros s b r' [H1 H2] H3. apply lenN_sfx in H3. split; [assumption|lia].
        -- intros s r' [H1 H2]. eapply post_weaken; [now apply jfield_post|]. intros [s' r2]; cbn [fst snd].
           intros [H3 H4]. pose proof (lenN_psfx _ _ H4) as LH4. split; [split; [assumption|lia]|assumption].
        -- lia.
        -- split; [|lia]. replace (map (fun _ : finfo * ty => @None val) fs) with
             (map (fun _ : val -> bool => @None val) (map (fun ft => has_type p (snd ft)) fs)) by now rewrite map_map.
           apply slots_ok_none.
      * intros [s r']; cbn [fst snd]; intros [[H1 H2] H3].
        destruct (fill (map fst fs) s) as [vs| |] eqn:Ef; [|exact I|now apply fill_no_panic in Ef].
        cbn [bind]. eapply post_bind; [apply skip_entries_post|]. intros r2 H4. cbn [post fst snd has_type].
        split; [|eapply psfx_trans; [exact Hr|]; eapply sfx_psfx; [exact H3|exact H4]].
        eapply fill_ok; [exact H1| | |exact Ef]; [now rewrite !map_length|].
        intros f P d Hin Hd. clear - Hin Hd Hdef.
        assert (K : exists ft, In ft fs /\ fst ft = f /\ has_type p (snd ft) = P).
        { clear Hdef Hd. induction fs as [|ft fs IH]; [contradiction|]. cbn in Hin. destruct Hin as [E|Hin].
          - injection E as <- <-. exists ft. cbn. auto.
          - destruct (IH Hin) as (ft' & A & B). exists ft'. cbn. auto. }
        destruct K as (ft & A & <- & <-). now apply (Hdef ft).
  - destruct Hwf as (Hw & _). eapply post_bind; [now apply (IHt Hw np Hnp)|]. intros [k r]; cbn [fst snd]; intros [H1 H2].
    destruct (find_name k tags) as [i|] eqn:E; [|exact I]. cbn [post fst snd has_type]. split; [|assumption].
    apply find_name_some in E. apply Nat.ltb_lt. apply nth_error_Some. congruence.
  - destruct Hwf as (Hk & Hf & _). apply allP_Forall in Hf.
    eapply post_bind; [apply expect_post|]. intros r0 H0. pose proof (lenN_psfx _ _ H0) as LH0.
    eapply post_bind; [apply (jkdec_typed p oc np t Hoc Hk); fold M; lia|].
    intros [k r1]; cbn [fst snd]; intros [_ H1]. pose proof (lenN_psfx _ _ H1) as LH1.
    destruct (find_name k (map fst vs)) as [i|]; [|exact I].
    rewrite nth_error_map. destruct (nth_error vs i) as [tv|] eqn:En; cbn [option_map]; [|exact I].
    assert (Hin : In tv vs) by (apply nth_error_In in En; exact En).
    eapply post_bind; [apply expect_post|]. intros r2 H2. pose proof (lenN_psfx _ _ H2) as LH2.
    rewrite Forall_forall in H, Hf. eapply post_bind.
    + apply (H tv Hin (Hf tv Hin) np); [|lia]. intros E. destruct (Hnp E) as [A B]. split; [assumption|].
      apply andb_true_iff in B. destruct B as [_ B]. rewrite forallb_forall in B. auto.
    + intros [v r3]; cbn [fst snd]; intros [H3 H4].
      eapply post_bind; [apply expect_post|]. intros r4 H5. cbn [post fst snd has_type].
      rewrite nth_error_map, En. cbn [option_map]. split; [assumption|].
      eapply psfx_trans; [exact H0|]. eapply psfx_trans; [exact H1|]. eapply psfx_trans; [exact H2|].
      eapply psfx_trans; [exact H4|exact H5].
Qed.
