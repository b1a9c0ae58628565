(** Skipping and decoding JSON text: lemmas about [Json] with respect to [JsonSpec]. *)
From Verif Require Import Base Options Int Utf8 Types Json JsonSpec BaseFacts Utf8Facts TypesFacts
  StorageFacts JsonFacts.
From Coq Require Import ZifyBool ZifyNat ZifyN.
Local Open Scope N_scope.

Section Tight.
Context {tight : bool}.
Local Notation text := (gtext tight).
Local Notation elems := (gelems tight).
Local Notation members := (gmembers tight).
Local Notation member := (gmember tight).

(** ** Skipping *)

Lemma skip_seq_space f first w s : space w -> skip_seq f first (w ++ s) = skip_seq f first s.
Proof. intros Hw. destruct f; [reflexivity|]. cbn [skip_seq]. now rewrite next_value_space. Qed.

Lemma skip_seq_comma f r : skip_seq f false (44 :: r) = skip_seq f false r.
Proof. destruct f; reflexivity. Qed.

Lemma skip_obj_space f first w s : space w -> skip_obj f first (w ++ s) = skip_obj f first s.
Proof. intros Hw. destruct f; [reflexivity|]. cbn [skip_obj]. now rewrite next_key_space. Qed.

Lemma skip_obj_comma f r : skip_obj f false (44 :: r) = skip_obj f false r.
Proof. destruct f; reflexivity. Qed.

Lemma space_nil : space []. Proof. constructor. Qed.

Lemma skip_seq_step f first w j s rest : space w -> text j s ->
  skip_seq (S f) first (w ++ s ++ rest) =
  (let* r := skip_any f (s ++ rest) in skip_seq f false r).
Proof. intros Hw H. cbn [skip_seq]. now rewrite (next_value_text (tight := tight) first w j). Qed.

Lemma skip_texts :
  (forall j s, text j s -> forall fuel w rest, space w -> ends rest = true ->
     (2 * length s + 1 <= fuel)%nat -> skip_any fuel (w ++ s ++ rest) = Ok rest) /\
  (forall l s, elems l s -> forall fuel first rest,
     (2 * length s + 2 <= fuel)%nat -> skip_seq fuel first (s ++ 93 :: rest) = Ok rest) /\
  (forall l s, members l s -> forall fuel first rest,
     (2 * length s + 2 <= fuel)%nat -> skip_obj fuel first (s ++ 125 :: rest) = Ok rest) /\
  (forall m s, member m s -> (0 < length s)%nat /\ forall fuel first rest, ends rest = true ->
     (2 * length s + 1 <= fuel)%nat -> skip_obj (S fuel) first (s ++ rest) = skip_obj fuel false rest).
Proof.
  assert (LIT : forall j s fuel w rest, text j s -> space w -> (1 <= fuel)%nat ->
    skip_any fuel (w ++ s ++ rest) =
    match jtok j with
    | KOBrace => let* r' := skip1 (s ++ rest) in skip_obj (pred fuel) true r'
    | KOBracket => let* r' := skip1 (s ++ rest) in skip_seq (pred fuel) true r'
    | KNull => parse_exact lit_null (s ++ rest)
    | KTrue => parse_exact lit_true (s ++ rest)
    | KFalse => parse_exact lit_false (s ++ rest)
    | KNumber => skip_number (s ++ rest)
    | KString => let* r' := skip1 (s ++ rest) in skip_string r'
    | _ => Err
    end).
  { intros j s fuel w rest H Hw Hf. destruct fuel as [|f]; [lia|]. cbn [skip_any pred].
    now rewrite (text_lex (tight := tight) w j). }
  assert (NUM : forall j s fuel w rest, text j s -> jtok j = KNumber -> space w -> ends rest = true ->
    (1 <= fuel)%nat -> skip_any fuel (w ++ s ++ rest) = Ok rest).
  { intros j s fuel w rest H Hj Hw He Hf. rewrite (LIT j) by assumption. rewrite Hj.
    now apply (skip_number_text (tight := tight) j). }
  apply text_mutind.
  - intros fuel w rest Hw He Hf. rewrite (LIT JNull) by (constructor || assumption || (cbn in Hf; lia)).
    apply parse_exact_app.
  - intros fuel w rest Hw He Hf. rewrite (LIT (JBool true)) by (constructor || assumption || (cbn in Hf; lia)).
    apply parse_exact_app.
  - intros fuel w rest Hw He Hf. rewrite (LIT (JBool false)) by (constructor || assumption || (cbn in Hf; lia)).
    apply parse_exact_app.
  - intros neg n s H fuel w rest Hw He Hf. apply (NUM (JInt neg n)); try assumption; [now constructor|reflexivity|lia].
  - intros neg ds fs e sf se H H0 H1 H2 fuel w rest Hw He Hf. apply (NUM (JNum neg ds fs e)); try assumption; [now constructor|reflexivity|].
    destruct fuel; [lia|lia].
  - intros cs s H fuel w rest Hw He Hf. rewrite (LIT (JStr cs)) by (now constructor || assumption || (cbn in Hf; lia)).
    cbn [jtok app skip1 bind]. rewrite <- app_assoc. cbn [app]. now apply skip_string_body with cs.
  - intros l s H IH fuel w rest Hw He Hf. rewrite (LIT (JArr l)) by (now constructor || assumption || (cbn in Hf; lia)).
    cbn [jtok app skip1 bind]. rewrite <- app_assoc. cbn [app]. apply IH.
    cbn [length] in Hf. rewrite app_length in Hf. cbn in Hf. lia.
  - intros l s H IH fuel w rest Hw He Hf. rewrite (LIT (JObj l)) by (now constructor || assumption || (cbn in Hf; lia)).
    cbn [jtok app skip1 bind]. rewrite <- app_assoc. cbn [app]. apply IH.
    cbn [length] in Hf. rewrite app_length in Hf. cbn in Hf. lia.
  (* elements *)
  - intros w Hw fuel first rest Hf. destruct fuel as [|f]; [lia|]. cbn [skip_seq].
    rewrite next_value_end by assumption. cbn [bind].
    apply (expect_at KCBracket 93 rest [] space_nil); reflexivity.
  - intros w1 j s w2 Hw1 H IH Hw2 fuel first rest Hf. destruct fuel as [|[|f]]; [lia|lia|].
    pose proof (text_ne j s H) as Hn. rewrite !app_length in Hf.
    rewrite <- app_assoc, <- app_assoc.
    rewrite (skip_seq_step _ first w1 j) by assumption.
    pose proof (fun f r => IH f [] r space_nil) as IH0; cbn [app] in IH0.
    rewrite IH0; [|apply ends_space; [assumption|reflexivity]|lia].
    cbn [bind]. rewrite skip_seq_space by assumption. cbn [skip_seq next_value is_ws N.eqb Pos.eqb orb].
    cbn [from_byte is_value bind]. apply (expect_at KCBracket 93 rest [] space_nil); reflexivity.
  - intros w1 j s w2 l r Hw1 H IH Hw2 Hl IHl Hne fuel first rest Hf. destruct fuel as [|f]; [lia|].
    pose proof (text_ne j s H) as Hn. rewrite !app_length in Hf. cbn [length] in Hf.
    rewrite <- app_assoc, <- app_assoc, <- app_assoc.
    rewrite (skip_seq_step _ first w1 j) by assumption.
    pose proof (fun f r => IH f [] r space_nil) as IH0; cbn [app] in IH0. cbn [app].
    rewrite IH0; [|apply ends_space; [assumption|reflexivity]|lia].
    cbn [bind app]. rewrite skip_seq_space by assumption. rewrite skip_seq_comma. apply IHl. lia.
  (* members *)
  - intros w Hw fuel first rest Hf. destruct fuel as [|f]; [lia|]. cbn [skip_obj].
    rewrite next_key_end by assumption. cbn [bind].
    apply (expect_at KCBrace 125 rest [] space_nil); reflexivity.
  - intros m s H [Hn IH] fuel first rest Hf. destruct fuel as [|[|f]]; [lia|lia|].
    rewrite IH by (reflexivity || lia). cbn [skip_obj].
    change (next_key false (125 :: rest)) with (@Ok (bool * bytes) (false, 125 :: rest)). cbn [bind].
    apply (expect_at KCBrace 125 rest [] space_nil); reflexivity.
  - intros m s l r H [Hn IH] Hl IHl Hne fuel first rest Hf. destruct fuel as [|f]; [lia|].
    rewrite app_length in Hf. cbn [length] in Hf. rewrite <- app_assoc.
    rewrite IH by (reflexivity || lia). cbn [app]. rewrite skip_obj_comma. apply IHl. lia.
  - intros w1 k ks w2 w3 j s w4 Hw1 Hk Hw2 Hw3 Hti H IH Hw4. split.
    { rewrite app_length. cbn [length app]. lia. }
    intros fuel first rest He Hf.
    assert (L : (length (w1 ++ (34%N :: ks ++ [34%N]) ++ w2 ++ 58%N :: w3 ++ s ++ w4) >=
                 length (34%N :: ks ++ [34%N]) + length s + 1)%nat).
    { rewrite !app_length. cbn [length]. rewrite !app_length. lia. }
    rewrite <- !app_assoc. cbn [skip_obj].
    cbn [app]. rewrite (next_key_str first w1) by assumption. cbn [bind].
    assert (K : forall rest', skip_any fuel (34 :: (ks ++ [34]) ++ rest') = Ok rest').
    { intros rest'. change (34 :: (ks ++ [34]) ++ rest') with ([] ++ (34 :: ks ++ [34]) ++ rest').
      rewrite (LIT (JStr k)) by (now constructor || lia || constructor).
      cbn [jtok app skip1 bind]. rewrite <- app_assoc. cbn [app]. now apply skip_string_body with k. }
    rewrite K. cbn [bind]. rewrite <- app_assoc. cbn [app].
    rewrite (expect_at KColon 58 _ w2) by (assumption || reflexivity). cbn [bind].
    rewrite <- !app_assoc. rewrite (IH _ w3 (w4 ++ rest)); [|assumption|now apply ends_space|lia].
    cbn [bind]. now apply skip_obj_space.
Qed.

Lemma skip_value_text w j s rest : space w -> text j s -> ends rest = true ->
  skip_value (w ++ s ++ rest) = Ok rest.
Proof.
  intros Hw H He. unfold skip_value, skip_fuel. apply (proj1 skip_texts j); try assumption.
  rewrite !app_length. lia.
Qed.

Lemma skip_rest_elems first l s rest : elems l s -> skip_rest first (s ++ 93 :: rest) = Ok rest.
Proof.
  intros H. unfold skip_rest, skip_fuel. apply (proj1 (proj2 skip_texts) l); try assumption.
  rewrite !app_length. lia.
Qed.

Lemma skip_entries_members first l s rest : members l s -> skip_entries first (s ++ 125 :: rest) = Ok rest.
Proof.
  intros H. unfold skip_entries, skip_fuel. apply (proj1 (proj2 (proj2 skip_texts)) l); try assumption.
  rewrite !app_length. lia.
Qed.

(** ** Sequences *)

(** [step] takes the elements one by one. *)
Inductive runs {S : Type} (step : S -> bytes -> res (S * bytes)) : S -> list jtree -> S -> Prop :=
| runs_nil s : runs step s [] s
| runs_cons s j l s' s'' :
    (forall b rest, text j b -> ends rest = true -> step s (b ++ rest) = Ok (s', rest)) ->
    runs step s' l s'' -> runs step s (j :: l) s''.

Lemma seq_loop_space {S} f (step : S -> bytes -> res (S * bytes)) first s w b : space w ->
  seq_loop f step first s (w ++ b) = seq_loop f step first s b.
Proof. intros Hw. destruct f; [reflexivity|]. cbn [seq_loop]. now rewrite next_value_space. Qed.

Lemma seq_loop_comma {S} f (step : S -> bytes -> res (S * bytes)) s r :
  seq_loop f step false s (44 :: r) = seq_loop f step false s r.
Proof. destruct f; reflexivity. Qed.

Lemma elems_length l : forall s, elems l s -> (length l <= length s)%nat.
Proof.
  induction l as [|j l IH]; intros b H; [cbn; lia|].
  inversion H as [|w1 j' s w2 Hw1 Ht Hw2|w1 j' s w2 l' r Hw1 Ht Hw2 Hl Hne]; subst.
  - pose proof (text_ne j s Ht). rewrite !app_length. cbn. lia.
  - pose proof (text_ne j s Ht). specialize (IH r Hl). rewrite !app_length. cbn. lia.
Qed.

Lemma seq_loop_elems {S} (step : S -> bytes -> res (S * bytes)) l s : elems l s ->
  forall st st' fuel first rest, runs step st l st' -> (length l < fuel)%nat ->
  seq_loop fuel step first st (s ++ 93 :: rest) = Ok (st', 93 :: rest).
Proof.
  revert s. induction l as [|j l IH]; intros b H st st' fuel first rest Hr Hf.
  - inversion H; subst. inversion Hr; subst. destruct fuel as [|f]; [lia|]. cbn [seq_loop].
    now rewrite next_value_end.
  - inversion Hr as [|s0 j0 l0 s1 s2 Hs Hrl]; subst. destruct fuel as [|f]; [cbn in Hf; lia|].
    cbn [length] in Hf. inversion H as [|w1 j' s w2 Hw1 Ht Hw2|w1 j' s w2 l' r Hw1 Ht Hw2 Hl Hne]; subst.
    + rewrite <- app_assoc, <- app_assoc. cbn [seq_loop]. rewrite (next_value_text (tight := tight) first w1 j) by assumption.
      cbn [bind]. rewrite Hs; [|assumption|apply ends_space; [assumption|reflexivity]]. cbn [bind].
      rewrite seq_loop_space by assumption. apply (IH [] (elems_nil [] space_nil)); [assumption|lia].
    + rewrite <- !app_assoc. cbn [seq_loop]. rewrite (next_value_text (tight := tight) first w1 j) by assumption.
      cbn [bind]. rewrite Hs; [|assumption|apply ends_space; [assumption|reflexivity]]. cbn [bind app].
      rewrite seq_loop_space by assumption. rewrite seq_loop_comma. apply IH; [assumption|assumption|lia].
Qed.

Lemma dec_sequence_text {S} (step : S -> bytes -> res (S * bytes)) w l s st st' rest :
  space w -> text (JArr l) s -> runs step st l st' ->
  dec_sequence step st (w ++ s ++ rest) = Ok (st', rest).
Proof.
  intros Hw H Hr. inversion H as [| | | | | |l0 b Hb|]; subst. unfold dec_sequence. cbn [app].
  rewrite (expect_at KOBracket 91 _ w) by (assumption || reflexivity). cbn [bind].
  rewrite <- app_assoc. cbn [app]. pose proof (elems_length l b Hb) as L.
  rewrite (seq_loop_elems step l b Hb st st' _ true rest Hr).
  - cbn [bind]. pose proof (skip_rest_elems false [] [] rest (elems_nil [] space_nil)) as K.
    cbn [app] in K. now rewrite K.
  - rewrite app_length. cbn. lia.
Qed.

(** A fixed number of elements. *)
Inductive list_runs : list (dec val) -> list jtree -> list val -> Prop :=
| list_runs_nil : list_runs [] [] []
| list_runs_cons d ds j l v vs :
    (forall b rest, text j b -> ends rest = true -> d (b ++ rest) = Ok (v, rest)) ->
    list_runs ds l vs -> list_runs (d :: ds) (j :: l) (v :: vs).

(** [first] is whether no element has been taken. Afterwards what remains
    is [w ++ s'] where [s'] is the text of the rest or a comma and that text. *)
Lemma next_list_elems ds l vs : list_runs ds l vs -> forall first extra s rest,
  elems (l ++ extra) s ->
  exists s' , next_list ds first (s ++ 93 :: rest) = Ok (vs, s') /\
    forall f, skip_seq f (match ds with [] => first | _ => false end) s' =
              skip_seq f (match ds with [] => first | _ => false end)
                         (match ds, extra with _ :: _, [] => 93 :: rest
                          | _, _ => s' end) /\
    (match ds, extra with
     | _ :: _, [] => True
     | _, _ => exists b, elems extra b /\
         (s' = b ++ 93 :: rest \/ (ds <> [] /\ exists w, space w /\ s' = w ++ 44 :: b ++ 93 :: rest))
     end).
Proof.
  induction 1 as [|d ds j l v vs Hd Hr IH]; intros first extra s rest H.
  - exists (s ++ 93 :: rest). split; [reflexivity|]. intros f. split; [reflexivity|].
    exists s. split; [assumption|]. now left.
  - cbn [app] in H. cbn [next_list]. remember (j :: l ++ extra) as le eqn:El.
    destruct H as [w Hw|w1 j' b w2 Hw1 Ht Hw2|w1 j' b w2 l' r Hw1 Ht Hw2 Hl Hne]; [discriminate|..];
      injection El as -> El.
    + symmetry in El. apply app_eq_nil in El. destruct El as [-> ->]. inversion Hr; subst.
      rewrite <- app_assoc, <- app_assoc. rewrite (next_value_text (tight := tight) first w1 j) by assumption. cbn [bind].
      rewrite Hd; [|assumption|apply ends_space; [assumption|reflexivity]]. cbn [bind next_list].
      eexists. split; [reflexivity|]. intros f. split; [|exact I]. now apply skip_seq_space.
    + subst l'. rewrite <- !app_assoc. rewrite (next_value_text (tight := tight) first w1 j) by assumption. cbn [bind].
      rewrite Hd; [|assumption|apply ends_space; [assumption|reflexivity]]. cbn [bind app].
      inversion Hr; subst.
      * cbn [next_list bind]. eexists. split; [reflexivity|]. intros f.
        destruct extra as [|j2 extra]; [now elim Hne|]. split; [reflexivity|].
        exists r. split; [assumption|]. right. split; [discriminate|]. exists w2. auto.
      * destruct (IH false extra r rest Hl) as (s' & E & HE).
        assert (N : next_list (d0 :: ds0) false (w2 ++ 44 :: r ++ 93 :: rest) =
                    next_list (d0 :: ds0) false (r ++ 93 :: rest)).
        { cbn [next_list]. now rewrite next_value_comma. }
        rewrite N, E. cbn [bind]. exists s'. split; [reflexivity|]. intros f. specialize (HE f).
        destruct extra; (split; [apply HE|]); [exact I|]. destruct HE as [_ (b' & Hb' & HS)].
        exists b'. split; [assumption|]. destruct HS as [HS|[_ HS]]; [now left|]. right. split; [discriminate|assumption].
Qed.

Lemma skip_seq_tail first l s rest s' : elems l s -> (s' = s ++ 93 :: rest \/
    (first = false /\ exists w, space w /\ s' = w ++ 44 :: s ++ 93 :: rest)) ->
  skip_rest first s' = Ok rest.
Proof.
  intros H [-> |(-> & w & Hw & ->)].
  - now apply skip_rest_elems with l.
  - unfold skip_rest. rewrite skip_seq_space, skip_seq_comma by assumption.
    apply (proj1 (proj2 skip_texts) l s H). unfold skip_fuel. rewrite !app_length. cbn [length].
    rewrite app_length. cbn [length]. lia.
Qed.

Lemma dec_tuple_text ds w l extra s vs rest : space w -> text (JArr (l ++ extra)) s -> list_runs ds l vs ->
  dec_tuple ds (w ++ s ++ rest) = Ok (vs, rest).
Proof.
  intros Hw H Hr. inversion H as [| | | | | |l0 b Hb|]; subst. unfold dec_tuple. cbn [app].
  rewrite (expect_at KOBracket 91 _ w) by (assumption || reflexivity). cbn [bind].
  rewrite <- app_assoc. cbn [app].
  destruct (next_list_elems ds l vs Hr true extra b rest Hb) as (s' & E & HE). rewrite E. cbn [bind].
  destruct ds as [|d ds].
  - destruct (HE O) as [_ (b' & Hb' & HS)].
    rewrite (skip_seq_tail true extra b' rest s' Hb'); [reflexivity|].
    destruct HS as [HS|[HS _]]; [now left|congruence].
  - destruct extra as [|j2 extra].
    + unfold skip_rest. destruct (HE (skip_fuel s')) as [-> _].
      assert (F : exists f, skip_fuel s' = S f) by (unfold skip_fuel; exists (2 * length s' + 1)%nat; lia).
      destruct F as [f ->]. reflexivity.
    + destruct (HE O) as [_ (b' & Hb' & HS)].
      rewrite (skip_seq_tail false (j2 :: extra) b' rest s' Hb'); [reflexivity|].
      destruct HS as [HS|[_ HS]]; [now left|]. right. auto.
Qed.

(** ** Objects *)

(** Text of a key and of the value up to the end of the value *)
Inductive oruns {S : Type} (step : S -> bytes -> res (S * bytes)) : S -> list (list N * jtree) -> S -> Prop :=
| oruns_nil s : oruns step s [] s
| oruns_cons s k j l s' s'' :
    (forall ks w2 w3 b rest, body k ks -> space w2 -> space w3 -> (tight = true -> w3 = []) -> text j b -> ends rest = true ->
       step s ((34 :: ks ++ [34]) ++ w2 ++ 58 :: w3 ++ b ++ rest) = Ok (s', rest)) ->
    oruns step s' l s'' -> oruns step s ((k, j) :: l) s''.

Lemma obj_loop_space {S} f (step : S -> bytes -> res (S * bytes)) first s w b : space w ->
  obj_loop f step first s (w ++ b) = obj_loop f step first s b.
Proof. intros Hw. destruct f; [reflexivity|]. cbn [obj_loop]. now rewrite next_key_space. Qed.

Lemma obj_loop_comma {S} f (step : S -> bytes -> res (S * bytes)) s r :
  obj_loop f step false s (44 :: r) = obj_loop f step false s r.
Proof. destruct f; reflexivity. Qed.

Lemma members_length l : forall s, members l s -> (length l <= length s)%nat.
Proof.
  induction l as [|m l IH]; intros b H; [cbn; lia|].
  inversion H as [|m' s Hm|m' s l' r Hm Hl Hne]; subst.
  - pose proof (proj1 (proj2 (proj2 (proj2 skip_texts)) _ _ Hm)). cbn. lia.
  - specialize (IH r Hl). rewrite !app_length. cbn. lia.
Qed.

Lemma obj_loop_member {S} (step : S -> bytes -> res (S * bytes)) k j s st st' f first rest :
  (forall ks w2 w3 b rest, body k ks -> space w2 -> space w3 -> (tight = true -> w3 = []) -> text j b -> ends rest = true ->
       step st ((34 :: ks ++ [34]) ++ w2 ++ 58 :: w3 ++ b ++ rest) = Ok (st', rest)) ->
  member (k, j) s -> ends rest = true ->
  obj_loop (Datatypes.S f) step first st (s ++ rest) = obj_loop f step false st' rest.
Proof.
  intros Hs H He. inversion H as [w1 k' ks w2 w3 j' b w4 Hw1 Hk Hw2 Hw3 Hti Ht Hw4]; subst.
  rewrite <- !app_assoc. cbn [obj_loop]. cbn [app]. rewrite (next_key_str first w1) by assumption. cbn [bind].
  specialize (Hs ks w2 w3 b (w4 ++ rest) Hk Hw2 Hw3 Hti Ht (ends_space w4 rest Hw4 He)).
  rewrite <- !app_assoc. cbn [app] in *. repeat rewrite <- app_assoc in Hs. cbn [app] in *. repeat rewrite <- app_assoc. cbn [app]. repeat rewrite <- app_assoc.
  rewrite Hs. cbn [bind]. now apply obj_loop_space.
Qed.

Lemma obj_loop_members {S} (step : S -> bytes -> res (S * bytes)) l : forall s, members l s ->
  forall st st' fuel first rest, oruns step st l st' -> (length l < fuel)%nat ->
  obj_loop fuel step first st (s ++ 125 :: rest) = Ok (st', 125 :: rest).
Proof.
  induction l as [|[k j] l IH]; intros b H st st' fuel first rest Hr Hf.
  - inversion H; subst. inversion Hr; subst. destruct fuel as [|f]; [lia|]. cbn [obj_loop].
    now rewrite next_key_end.
  - inversion Hr as [|s0 k0 j0 l0 s1 s2 Hs Hrl]; subst. destruct fuel as [|f]; [cbn in Hf; lia|].
    cbn [length] in Hf. inversion H as [|m s Hm|m s l' r Hm Hl Hne]; subst.
    + rewrite (obj_loop_member step k j b st s1 f first _ Hs Hm) by reflexivity.
      apply (IH [] (members_nil [] space_nil)); [assumption|lia].
    + rewrite <- app_assoc. rewrite (obj_loop_member step k j s st s1 f first _ Hs Hm) by reflexivity.
      cbn [app]. rewrite obj_loop_comma. apply IH; [assumption|assumption|lia].
Qed.

Lemma dec_object_text {S} (step : S -> bytes -> res (S * bytes)) w l s st st' rest :
  space w -> text (JObj l) s -> oruns step st l st' ->
  dec_object step st (w ++ s ++ rest) = Ok (st', rest).
Proof.
  intros Hw H Hr. inversion H as [| | | | | | |l0 b Hb]; subst. unfold dec_object. cbn [app].
  rewrite (expect_at KOBrace 123 _ w) by (assumption || reflexivity). cbn [bind].
  rewrite <- app_assoc. cbn [app]. pose proof (members_length l b Hb) as L.
  rewrite (obj_loop_members step l b Hb st st' _ true rest Hr).
  - cbn [bind]. pose proof (skip_entries_members false [] [] rest (members_nil [] space_nil)) as K.
    cbn [app] in K. now rewrite K.
  - rewrite app_length. cbn. lia.
Qed.
End Tight.
