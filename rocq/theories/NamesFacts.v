(** Facts about the names of fields and variants. *)
From Verif Require Import Base Options Int Utf8 Types Names NamesSpec BaseFacts TypesFacts.
From Coq Require Import Lia.
Local Open Scope N_scope.

(** ** Words *)

Lemma span cs s : exists t r, s = t ++ r /\ inner cs t /\ boundary cs r.
Proof.
  induction s as [|x s (t & r & -> & Ht & Hr)]; [exists [], []; repeat split; constructor|].
  destruct (x =? 95) eqn:E1; [exists [], (x :: t ++ r); repeat split; [constructor|left; now apply N.eqb_eq]|].
  destruct (is_upper cs x) eqn:E2; [exists [], (x :: t ++ r); repeat split; [constructor|now right]|].
  exists (x :: t), r. repeat split; auto. constructor; auto. split; [now apply N.eqb_neq|exact E2].
Qed.

Lemma splits_exist cs s : exists ws, splits cs s ws.
Proof.
  assert (G : forall n s, (length s <= n)%nat -> exists ws, splits cs s ws).
  { clear s. induction n as [|n IH]; intros s Hn.
    - destruct s; [|cbn in Hn; lia]. exists []. constructor.
    - destruct s as [|c s]; [exists []; constructor|]. cbn in Hn. destruct (N.eq_dec c 95) as [->|Hc].
      + destruct (IH s) as (ws & H); [lia|]. exists ws. now constructor.
      + destruct (span cs s) as (t & r & -> & Ht & Hr). rewrite app_length in Hn. destruct (IH r) as (ws & H); [lia|].
        exists ((c :: t) :: ws). now constructor. }
  exact (G (length s) s (le_n _)).
Qed.

Lemma span_unique cs t : forall t' r r', inner cs t -> inner cs t' -> boundary cs r -> boundary cs r' ->
  t ++ r = t' ++ r' -> t = t' /\ r = r'.
Proof.
  induction t as [|x t IH]; intros t' r r' Ht Ht' Hr Hr' E.
  - destruct t' as [|y t']; [auto|]. cbn in E. subst r. inversion Ht'; subst. cbn in Hr. destruct H1 as [A B]. destruct Hr; congruence.
  - destruct t' as [|y t'].
    + cbn in E. subst r'. inversion Ht; subst. cbn in Hr'. destruct H1 as [A B]. destruct Hr'; congruence.
    + cbn in E. inversion E; subst y. inversion Ht; subst. inversion Ht'; subst.
      destruct (IH t' r r') as [-> ->]; auto.
Qed.

Lemma splits_unique cs s ws : splits cs s ws -> forall ws', splits cs s ws' -> ws = ws'.
Proof.
  intros H. induction H as [|s ws H IH|c t r ws Hc Ht Hr H IH]; intros ws' H'.
  - inversion H'. reflexivity.
  - inversion H'; subst; [auto|congruence].
  - inversion H'; subst; [congruence|]. destruct (span_unique cs t0 t r0 r) as [-> ->]; auto. f_equal. auto.
Qed.

(** ** The loop writes the words *)

Definition word_out cs st count (w : list N) : list N :=
  match w with c :: t => feed cs st true count c ++ concat (map (feed cs st false count) t) | [] => [] end.
Fixpoint words_out cs st count (ws : list (list N)) : list N :=
  match ws with
  | [] => []
  | w :: r => (if 0 <? count then prefix st else []) ++ word_out cs st count w ++ words_out cs st (count + 1) r
  end.

Lemma rename_inner cs st count t r : inner cs t ->
  rename cs st count false (t ++ r) = concat (map (feed cs st false count) t) ++ rename cs st count false r.
Proof.
  intros H. induction H as [|x t [H1 H2] _ IH]; [reflexivity|]. cbn [app rename map concat].
  apply N.eqb_neq in H1. rewrite H1, H2. cbn [andb app]. rewrite IH. now rewrite app_assoc.
Qed.

Lemma rename_boundary cs st count r : boundary cs r -> rename cs st count false r = rename cs st (count + 1) true r.
Proof.
  destruct r as [|x r]; [reflexivity|]. intros H. cbn [rename]. destruct (x =? 95) eqn:E; [reflexivity|].
  destruct H as [->|H]; [discriminate|]. rewrite H. reflexivity.
Qed.

Lemma rename_words cs st s ws : splits cs s ws -> forall count, rename cs st count true s = words_out cs st count ws.
Proof.
  intros H. induction H as [|s ws H IH|c t r ws Hc Ht Hr H IH]; intros count.
  - reflexivity.
  - cbn [rename]. apply IH.
  - cbn [rename words_out word_out]. apply N.eqb_neq in Hc. rewrite Hc. rewrite andb_false_r. cbn [andb].
    rewrite rename_inner by assumption. rewrite rename_boundary by assumption. rewrite IH. now rewrite <- !app_assoc.
Qed.

Lemma join_map sep (f : list N -> list N) ws : join sep (map f ws) =
  match ws with [] => [] | w :: r => f w ++ concat (map (fun x => sep ++ f x) r) end.
Proof.
  destruct ws as [|w ws]; [reflexivity|]. revert w. induction ws as [|x ws IH]; intros w.
  - cbn. now rewrite app_nil_r.
  - cbn [map join concat]. f_equal. rewrite <- app_assoc. f_equal. exact (IH x).
Qed.

Definition word_ne (w : list N) : Prop := w <> [].
Lemma splits_ne cs s ws : splits cs s ws -> Forall word_ne ws.
Proof. intros H. induction H; auto. constructor; auto. discriminate. Qed.

(** Past the first word. *)
Lemma words_later cs st ws : forall count, 0 < count ->
  words_out cs st count ws = concat (map (fun w => prefix st ++ word_out cs st 1 w) ws).
Proof.
  induction ws as [|w ws IH]; intros count H; [reflexivity|]. cbn [words_out map concat].
  rewrite (IH (count + 1)) by lia. apply N.ltb_lt in H. rewrite H. rewrite <- app_assoc. do 2 f_equal.
  - destruct w as [|c t]; [reflexivity|]. cbn [word_out]. destruct st; cbn [feed]; rewrite ?H; reflexivity.
Qed.

Lemma words_first cs st w ws :
  words_out cs st 0 (w :: ws) = word_out cs st 0 w ++ concat (map (fun w => prefix st ++ word_out cs st 1 w) ws).
Proof. cbn [words_out]. rewrite words_later by lia. reflexivity. Qed.

Lemma words_render cs st ws : st <> NIndex -> st <> NName -> words_out cs st 0 ws = render cs st ws.
Proof.
  intros H1 H2. destruct ws as [|w ws]; [destruct st; reflexivity|]. rewrite words_first.
  destruct st; try congruence; cbn [render prefix]; rewrite ?join_map; cbn [map concat]; f_equal;
    try (apply (f_equal (@concat N)), map_ext; intros x; try f_equal);
    try (destruct w as [|c t]; reflexivity); try (destruct x as [|c t]; reflexivity).
Qed.

(** ** Ordinary identifiers *)

Lemma letter_lower c : letter c -> to_lower ascii c = [c] /\ to_upper ascii c = [c - 32] /\ is_upper ascii c = false /\ c <> 95 /\ c <> 45.
Proof.
  intros [H1 H2]. cbn [ascii to_lower to_upper is_upper].
  replace (c <=? 90) with false by (symmetry; apply N.leb_gt; lia). rewrite andb_false_r.
  apply N.leb_le in H1 as E1. apply N.leb_le in H2 as E2. rewrite E1, E2. repeat split; lia.
Qed.

Lemma digit_lower c : digit c -> to_lower ascii c = [c] /\ to_upper ascii c = [c] /\ is_upper ascii c = false /\ c <> 95 /\ c <> 45.
Proof.
  intros [H1 H2]. cbn [ascii to_lower to_upper is_upper].
  replace (65 <=? c) with false by (symmetry; apply N.leb_gt; lia).
  replace (97 <=? c) with false by (symmetry; apply N.leb_gt; lia). cbn [andb]. repeat split; lia.
Qed.

Lemma capital_lower c : letter c -> to_lower ascii (c - 32) = [c] /\ to_upper ascii (c - 32) = [c - 32] /\ is_upper ascii (c - 32) = true /\ c - 32 <> 95 /\ c - 32 <> 45.
Proof.
  intros [H1 H2]. cbn [ascii to_lower to_upper is_upper].
  replace (65 <=? c - 32) with true by (symmetry; apply N.leb_le; lia).
  replace (c - 32 <=? 90) with true by (symmetry; apply N.leb_le; lia).
  replace (97 <=? c - 32) with false by (symmetry; apply N.leb_gt; lia). cbn [andb]. repeat split; try lia. f_equal. lia.
Qed.

Definition tail_ok (t : list N) := Forall (fun x => letter x \/ digit x) t.
Lemma tail_lower t : tail_ok t -> lower ascii t = t /\ inner ascii t.
Proof.
  intros H. induction H as [|x t Hx _ [IH1 IH2]]; [split; [reflexivity|constructor]|].
  assert (A : to_lower ascii x = [x] /\ is_upper ascii x = false /\ x <> 95).
  { destruct Hx as [Hx|Hx]; [apply letter_lower in Hx|apply digit_lower in Hx]; tauto. }
  destruct A as (A1 & A2 & A3). unfold lower in *. cbn [map concat]. rewrite A1, IH1. split; [reflexivity|]. constructor; auto.
Qed.

Lemma plain_facts w : plain w -> lower ascii w = w /\ (exists c t, w = c :: t /\ letter c /\ tail_ok t /\ capital ascii w = (c - 32) :: t).
Proof.
  destruct w as [|c t]; [intros []|]. intros [Hc Ht]. destruct (tail_lower t Ht) as [T1 T2]. destruct (letter_lower c Hc) as (L1 & L2 & _).
  split; [unfold lower in *; cbn [map concat]; now rewrite L1, T1|]. exists c, t. repeat split; auto; try apply Hc.
  cbn [capital]. rewrite L2, T1. reflexivity.
Qed.

(** Of a capitalised word nothing is lost. *)
Lemma capital_facts w : plain w -> lower ascii (capital ascii w) = w /\ upper ascii (capital ascii w) = upper ascii w /\
  capital ascii (capital ascii w) = capital ascii w.
Proof.
  intros H. destruct (plain_facts w H) as (_ & c & t & -> & Hc & Ht & ->). destruct (tail_lower t Ht) as [T1 T2].
  destruct (capital_lower c Hc) as (C1 & C2 & _). destruct (letter_lower c Hc) as (L1 & L2 & _).
  unfold lower, upper in *. cbn [map concat capital]. rewrite C1, C2, L2, T1. cbn [app]. repeat split; auto. unfold lower. now rewrite T1.
Qed.

Lemma lower_splits ws : Forall plain ws -> forall s, s = join [95] ws -> splits ascii s ws.
Proof.
  intros H. induction H as [|w ws Hw H IH]; intros s ->; [constructor|].
  destruct (plain_facts w Hw) as (_ & c & t & -> & Hc & Ht & _). destruct (tail_lower t Ht) as [T1 T2]. destruct (letter_lower c Hc) as (L1 & L2 & L3 & L4 & _).
  destruct ws as [|w2 ws].
  - cbn [join]. replace (c :: t) with (c :: t ++ []) at 1 by now rewrite app_nil_r.
    exact (splits_word ascii c t [] [] L4 T2 I (splits_nil ascii)).
  - change (splits ascii (c :: t ++ (95 :: join [95] (w2 :: ws))) ((c :: t) :: w2 :: ws)).
    apply (splits_word ascii c t (95 :: join [95] (w2 :: ws)) (w2 :: ws) L4 T2 (or_introl eq_refl)). constructor. now apply IH.
Qed.

Lemma capital_splits ws : Forall plain ws -> splits ascii (concat (map (capital ascii) ws)) (map (capital ascii) ws) /\
  boundary ascii (concat (map (capital ascii) ws)).
Proof.
  intros H. induction H as [|w ws Hw H [IH1 IH2]]; [split; constructor|]. cbn [map concat].
  destruct (plain_facts w Hw) as (_ & c & t & -> & Hc & Ht & ->). destruct (tail_lower t Ht) as [T1 T2]. destruct (capital_lower c Hc) as (L1 & L2 & L3 & L4 & _).
  split; [|now right]. cbn [app]. constructor; auto.
Qed.

Lemma camel_splits w ws : plain w -> Forall plain ws -> splits ascii (w ++ concat (map (capital ascii) ws)) (w :: map (capital ascii) ws).
Proof.
  intros Hw H. destruct (plain_facts w Hw) as (_ & c & t & -> & Hc & Ht & _). destruct (tail_lower t Ht) as [T1 T2]. destruct (letter_lower c Hc) as (L1 & L2 & L3 & L4 & _).
  destruct (capital_splits ws H). cbn [app]. constructor; auto.
Qed.

(** How the words of an identifier in some style are written. *)
Definition style (st : name_all) (ws : list (list N)) : list (list N) :=
  match st with
  | NPascal => map (capital ascii) ws
  | NCamel => match ws with [] => [] | w :: r => w :: map (capital ascii) r end
  | _ => ws
  end.

Lemma map_lower_plain ws : Forall plain ws -> map (lower ascii) ws = ws.
Proof. intros H. induction H as [|w ws Hw _ IH]; [reflexivity|]. cbn [map]. rewrite IH. f_equal. now apply plain_facts. Qed.

Lemma style_splits st ws : Forall plain ws -> st = NPascal \/ st = NCamel \/ st = NSnake -> splits ascii (render ascii st ws) (style st ws).
Proof.
  intros H [->|[->| ->]]; cbn [render style].
  - now apply capital_splits.
  - destruct ws as [|w ws]; [constructor|]. inversion H; subst. destruct (plain_facts w) as [-> _]; auto. now apply camel_splits.
  - apply lower_splits; auto. now rewrite map_lower_plain.
Qed.

Lemma map_same (f g : list N -> list N) (P : list N -> Prop) ws : Forall P ws -> (forall w, P w -> f w = g w) -> map f ws = map g ws.
Proof. intros H E. induction H as [|w ws Hw _ IH]; [reflexivity|]. cbn [map]. now rewrite IH, E. Qed.

Lemma render_style st st' ws : Forall plain ws -> render ascii st' (style st ws) = render ascii st' ws.
Proof.
  intros H.
  assert (G : forall ws, Forall plain ws -> map (lower ascii) (map (capital ascii) ws) = map (lower ascii) ws /\
    map (upper ascii) (map (capital ascii) ws) = map (upper ascii) ws /\ map (capital ascii) (map (capital ascii) ws) = map (capital ascii) ws).
  { clear. intros ws H. rewrite !map_map. repeat split; apply (map_same _ _ plain); auto; intros w Hw; destruct (capital_facts w Hw) as (A & B & C); auto.
    rewrite A. symmetry. now apply plain_facts. }
  destruct (G ws H) as (G1 & G2 & G3).
  destruct st; cbn [style]; try reflexivity.
  - destruct st'; cbn [render]; rewrite ?G1, ?G2, ?G3; try reflexivity. destruct ws as [|w ws]; [reflexivity|].
    inversion H as [|? ? Hw Hr]; subst. destruct (G ws Hr) as (_ & _ & R3). cbn [map]. rewrite R3. destruct (capital_facts w Hw) as (-> & _).
    destruct (plain_facts w Hw) as (-> & _). reflexivity.
  - destruct ws as [|w ws]; [reflexivity|]. inversion H as [|? ? Hw Hr]; subst. destruct (G ws Hr) as (R1 & R2 & R3).
    destruct st'; cbn [render map]; rewrite ?R1, ?R2, ?R3; reflexivity.
Qed.

Lemma apply_render cs st s ws : st <> NIndex -> st <> NName -> splits cs s ws -> apply cs st s = Some (render cs st ws).
Proof.
  intros H1 H2 H. rewrite <- words_render by assumption. rewrite <- (rename_words cs st s ws H). destruct st; try congruence; reflexivity.
Qed.

Lemma ident_render v ws : Forall plain ws -> ident v ws = render ascii (if v then NPascal else NSnake) ws.
Proof. intros H. destruct v; cbn [ident render]; [reflexivity|]. now rewrite map_lower_plain. Qed.

Lemma apply_ident v st ws : st <> NIndex -> st <> NName -> Forall plain ws -> apply ascii st (ident v ws) = Some (render ascii st ws).
Proof.
  intros H1 H2 H. rewrite ident_render by assumption.
  rewrite (apply_render ascii st _ (style (if v then NPascal else NSnake) ws)); auto.
  - now rewrite render_style.
  - apply style_splits; auto. destruct v; auto.
Qed.

(** ** Back to the words *)

Definition to_snake (c : N) : N := if c =? 45 then 95 else if (65 <=? c) && (c <=? 90) then c + 32 else c.

Lemma to_snake_letter c : letter c \/ digit c -> to_snake c = c /\ map to_snake (to_upper ascii c) = [c].
Proof.
  intros H. assert (E : letter c \/ digit c) by exact H. unfold letter, digit in H. unfold to_snake.
  replace (c =? 45) with false by (symmetry; apply N.eqb_neq; lia).
  assert (F : (65 <=? c) && (c <=? 90) = false) by (apply andb_false_iff; rewrite !N.leb_gt; lia). rewrite F. split; [reflexivity|].
  destruct E as [E|E].
  - destruct (letter_lower c E) as (_ & -> & _). cbn [map]. unfold to_snake, letter in *.
    replace (c - 32 =? 45) with false by (symmetry; apply N.eqb_neq; lia).
    replace (65 <=? c - 32) with true by (symmetry; apply N.leb_le; lia).
    replace (c - 32 <=? 90) with true by (symmetry; apply N.leb_le; lia). cbn [andb]. f_equal. lia.
  - destruct (digit_lower c E) as (_ & -> & _). cbn [map]. unfold to_snake. rewrite F.
    unfold digit in *. replace (c =? 45) with false by (symmetry; apply N.eqb_neq; lia). reflexivity.
Qed.

Lemma to_snake_word w : plain w -> map to_snake w = w /\ map to_snake (upper ascii w) = w.
Proof.
  destruct w as [|c t]; [intros []|]. intros [Hc Ht].
  assert (H : tail_ok (c :: t)) by (constructor; auto). clear Hc Ht. revert H. generalize (c :: t). clear. intros w H.
  induction H as [|x t Hx _ [IH1 IH2]]; [auto|]. destruct (to_snake_letter x Hx) as [A B]. unfold upper in *. cbn [map concat].
  rewrite map_app, A, B, IH1, IH2. auto.
Qed.

Lemma to_snake_join sep (f : list N -> list N) ws : map to_snake sep = [95] -> (forall w, plain w -> map to_snake (f w) = w) -> Forall plain ws ->
  map to_snake (join sep (map f ws)) = join [95] ws.
Proof.
  intros Hs Hf H. induction H as [|w ws Hw H IH]; [reflexivity|]. destruct ws as [|w2 ws]; [cbn; auto|].
  change (map to_snake (f w ++ sep ++ join sep (map f (w2 :: ws))) = w ++ [95] ++ join [95] (w2 :: ws)).
  rewrite !map_app, IH, Hs, Hf by assumption. reflexivity.
Qed.

Lemma join_inj ws ws' : Forall plain ws -> Forall plain ws' -> join [95] ws = join [95] ws' -> ws = ws'.
Proof.
  intros H H' E. eapply splits_unique; apply lower_splits; eauto.
Qed.

Lemma capital_inj ws : Forall plain ws -> forall ws', Forall plain ws' -> map (capital ascii) ws = map (capital ascii) ws' -> ws = ws'.
Proof.
  intros H. induction H as [|w ws Hw _ IH]; intros ws' H' E; destruct ws' as [|w' ws']; try discriminate; auto.
  inversion H'; subst. cbn [map] in E. inversion E as [[E1 E2]]. f_equal; [|now apply IH].
  destruct (capital_facts w Hw) as (A & _). destruct (capital_facts w') as (B & _); auto. now rewrite <- A, <- B, E1.
Qed.

Lemma render_inj st ws ws' : st <> NIndex -> st <> NName -> Forall plain ws -> Forall plain ws' ->
  render ascii st ws = render ascii st ws' -> ws = ws'.
Proof.
  intros H1 H2 H H' E. destruct st; try congruence.
  - apply capital_inj; auto. pose proof (style_splits NPascal ws H (or_introl eq_refl)) as A.
    pose proof (style_splits NPascal ws' H' (or_introl eq_refl)) as B. rewrite E in A. exact (splits_unique _ _ _ A _ B).
  - pose proof (style_splits NCamel ws H (or_intror (or_introl eq_refl))) as A.
    pose proof (style_splits NCamel ws' H' (or_intror (or_introl eq_refl))) as B. rewrite E in A.
    pose proof (splits_unique _ _ _ A _ B) as U. cbn [style] in U. destruct ws, ws'; try discriminate; auto. inversion U; subst. f_equal.
    inversion H; inversion H'; subst. now apply capital_inj.
  - cbn [render] in E. rewrite !map_lower_plain in E by assumption. now apply join_inj.
  - apply join_inj; auto. cbn [render] in E. rewrite <- (to_snake_join [95] (upper ascii) ws), <- (to_snake_join [95] (upper ascii) ws'); auto; try apply to_snake_word; now f_equal.
  - apply join_inj; auto. cbn [render] in E. rewrite !map_lower_plain in E by assumption.
    rewrite <- (to_snake_join [45] (fun w => w) ws), <- (to_snake_join [45] (fun w => w) ws'); auto; try apply to_snake_word. rewrite !map_id. now f_equal.
  - apply join_inj; auto. cbn [render] in E. rewrite <- (to_snake_join [45] (upper ascii) ws), <- (to_snake_join [45] (upper ascii) ws'); auto; try apply to_snake_word; now f_equal.
Qed.

Lemma name_is (st : name_all) : {st = NName} + {st <> NName}.
Proof. destruct st; (now left) || (right; discriminate). Qed.
Lemma index_is (st : name_all) : {st = NIndex} + {st <> NIndex}.
Proof. destruct st; (now left) || (right; discriminate). Qed.

(** Conventional identifiers are not raw. *)
Lemma conventional_trim v s : conventional v s -> trim_raw s = s.
Proof.
  intros (ws & Hne & H & ->). destruct ws as [|w ws]; [congruence|]. inversion H as [|? ? Hw Hr]; subst.
  destruct (plain_facts w Hw) as (_ & c & t & -> & Hc & Ht & Hcap).
  assert (G : forall c r, (forall b r', r = b :: r' -> b <> 35) -> trim_raw (c :: r) = c :: r).
  { clear. intros c [|b r'] Hb; [reflexivity|]. cbn [trim_raw]. assert (b =? 35 = false) as -> by (apply N.eqb_neq; eapply Hb; reflexivity).
    now rewrite andb_false_r. }
  assert (T : forall r, (forall b r', r = b :: r' -> b <> 35) -> forall b r', t ++ r = b :: r' -> b <> 35).
  { clear - Ht. intros r Hr b r' E. destruct t as [|x t]; [now apply (Hr b r')|]. cbn in E. inversion E; subst. inversion Ht; subst.
    unfold letter, digit in *. lia. }
  destruct v; cbn [ident].
  - cbn [map concat]. rewrite Hcap. cbn [app]. apply G. apply T. intros b r' E. destruct (capital_splits ws Hr) as [_ B]. rewrite E in B. cbn in B.
    intros ->. destruct B as [B|B]; discriminate.
  - destruct ws as [|w2 ws].
    + cbn [join]. apply G. rewrite <- (app_nil_r t). apply T. discriminate.
    + change (trim_raw (c :: t ++ ([95] ++ join [95] (w2 :: ws))) = c :: t ++ ([95] ++ join [95] (w2 :: ws))). apply G. apply T.
      cbn [app]. intros b r' E. inversion E. discriminate.
Qed.

Lemma expand_conventional v st m s : m_name m = None -> m_ident m = Some s -> conventional v s ->
  expand_name ascii st m = match apply ascii st s with Some n => VBytes n | None => VN (m_index m) end.
Proof. intros H1 H2 H3. unfold expand_name. rewrite H1, H2. now rewrite (conventional_trim v s H3). Qed.

Lemma distinct_nodup (l : list val) : NoDup l -> distinct l = true.
Proof.
  intros H. induction H as [|x l Hx _ IH]; [reflexivity|]. cbn [distinct]. rewrite IH, andb_true_r. apply negb_true_iff.
  destruct (existsb (val_eqb x) l) eqn:E; [|reflexivity]. apply existsb_exists in E. destruct E as (y & Hy & E).
  apply val_eqb_eq in E. subst y. contradiction.
Qed.
