(** Property C78: names of fields and variants. Specification used: [NamesSpec.v]. *)
From Coq Require Import String.
From Verif Require Import Base Options Int Utf8 Types Names NamesSpec BaseFacts TypesFacts NamesFacts.
From Coq Require Import Lia.
Local Open Scope N_scope.

(** A rename rule takes the identifier apart into words and writes them in its style, whatever the case of
    characters is. Every identifier has words, in only one way. *)
Theorem C78_words :
  forall cs st s, st <> NIndex -> st <> NName ->
    exists ws, splits cs s ws /\ (forall ws', splits cs s ws' -> ws' = ws) /\ apply cs st s = Some (render cs st ws).
Proof.
  intros cs st s H1 H2. destruct (splits_exist cs s) as (ws & H). exists ws. split; [exact H|]. split.
  - intros ws' H'. symmetry. exact (splits_unique cs s ws H ws' H').
  - now apply apply_render.
Qed.
Print Assumptions C78_words.

(** A conventional identifier of one kind, renamed to the style of the other, is the one of the same words; renamed to
    its own style it is what it was. *)
Theorem C78_convert :
  forall v v' ws, ws <> [] -> Forall plain ws ->
    apply ascii (if v' : bool then NPascal else NSnake) (ident v ws) = Some (ident v' ws).
Proof.
  intros v v' ws _ H. rewrite apply_ident; auto; try (destruct v'; discriminate). now rewrite ident_render.
Qed.
Print Assumptions C78_convert.

(** Different conventional identifiers get different names in every style. *)
Theorem C78_injective :
  forall v st a b, st <> NIndex -> conventional v a -> conventional v b ->
    apply ascii st a = apply ascii st b -> a = b.
Proof.
  intros v st a b H1 (wa & _ & Ha & ->) (wb & _ & Hb & ->) E.
  destruct (name_is st) as [->|H2]; [now inversion E|]. rewrite !apply_ident in E by assumption. inversion E as [E'].
  f_equal. now apply (render_inj st).
Qed.
Print Assumptions C78_injective.

(** So the names of the fields of a struct (or of the variants of an enum) are distinct, as the round trips of the
    formats need, under every rename rule. *)
Theorem C78_distinct :
  forall v st ms,
    Forall (fun m => m_name m = None /\ exists s, m_ident m = Some s /\ conventional v s) ms ->
    NoDup (map m_ident ms) -> NoDup (map m_index ms) ->
    distinct (map (expand_name ascii st) ms) = true.
Proof.
  intros v st ms H N1 N2. apply distinct_nodup. 
  induction ms as [|m ms IH]; [constructor|]. inversion H as [|? ? Hm Hms]; subst. cbn [map] in *. inversion N1; inversion N2; subst.
  constructor; [|now apply IH]. intros Hin. apply in_map_iff in Hin. destruct Hin as (m' & E & Hin).
  rewrite Forall_forall in Hms. destruct (Hms m' Hin) as (A' & s' & B' & C'). destruct Hm as (A & s & B & C).
  rewrite (expand_conventional v st m s A B C), (expand_conventional v st m' s' A' B' C') in E.
  destruct (index_is st) as [->|H1].
  - cbn [apply] in E. inversion E as [E']. match goal with H : ~ In (m_index m) _ |- _ => apply H end. apply in_map_iff. now exists m'.
  - destruct (apply ascii st s) eqn:Ea; [|destruct st; discriminate || congruence].
    destruct (apply ascii st s') eqn:Eb; [|destruct st; discriminate || congruence]. inversion E; subst.
    assert (s = s') by (apply (C78_injective v st); congruence). subst s'.
    match goal with H : ~ In (m_ident m) _ |- _ => apply H end. apply in_map_iff. exists m'. split; congruence || auto.
Qed.
Print Assumptions C78_distinct.

(** A raw identifier gets the name of the identifier that it stands for. *)
Theorem C78_raw :
  forall v st i s, conventional v s ->
    expand_name ascii st {| m_name := None; m_index := i; m_ident := Some ([114; 35] ++ s) |} =
    match apply ascii st s with Some n => VBytes n | None => VN i end.
Proof. intros v st i s H. unfold expand_name. cbn [m_name m_ident m_index app trim_raw N.eqb Pos.eqb andb]. now rewrite (conventional_trim v s H). Qed.
Print Assumptions C78_raw.

(** Rules that keep what separates words can be applied one after the other. *)
Theorem C78_compose :
  forall v st st' s s', st = NPascal \/ st = NCamel \/ st = NSnake -> st' <> NName -> conventional v s ->
    apply ascii st s = Some s' -> apply ascii st' s' = apply ascii st' s.
Proof.
  intros v st st' s s' H H' (ws & _ & Hw & ->) E. destruct (index_is st') as [->|H1]; [reflexivity|].
  assert (N : st <> NIndex /\ st <> NName) by (destruct H as [->|[->| ->]]; split; discriminate). destruct N as [N1 N2].
  rewrite apply_ident in E by assumption. inversion E as [E']. rewrite (apply_ident v st') by assumption.
  rewrite (apply_render ascii st' _ (style st ws)) by auto using style_splits. now rewrite render_style.
Qed.
Print Assumptions C78_compose.

(** The rules are told apart by what they are called in attributes. *)
Theorem C78_parse :
  forall s st, parse s = Some st <-> s = display st.
Proof.
  intros s st. split.
  - unfold parse. repeat (match goal with |- context [String.eqb s ?x] => destruct (String.eqb_spec s x); [intros E; inversion E; subst; reflexivity|] end).
    discriminate.
  - intros ->. destruct st; reflexivity.
Qed.
Print Assumptions C78_parse.

(** Not all valid identifiers stay apart: [a_b] and [aB] collide under every rule but "index" and "name". *)
Theorem C78_collide_refuted :
  exists a b, a <> b /\ forall st, st <> NIndex -> st <> NName -> apply ascii st a = apply ascii st b.
Proof.
  exists [97; 95; 98], [97; 66]. split; [discriminate|]. intros st H1 H2. destruct st; try congruence; reflexivity.
Qed.
Print Assumptions C78_collide_refuted.

(** Nor do identifiers with digits at the start of a word: [a_1] and [a1]. *)
Theorem C78_digit_refuted :
  exists a b, a <> b /\ apply ascii NPascal a = apply ascii NPascal b /\ apply ascii NCamel a = apply ascii NCamel b.
Proof. exists [97; 95; 49], [97; 49]. repeat split; discriminate || reflexivity. Qed.
Print Assumptions C78_digit_refuted.

(** An identifier that is in SCREAMING_SNAKE_CASE already is not left alone: [HI] becomes [H_I]. *)
Theorem C78_screaming_refuted :
  exists a, apply ascii NScreamingSnake a <> Some a /\ splits ascii a [[72]; [73]].
Proof.
  exists [72; 73]. split; [discriminate|]. apply (splits_word ascii 72 [] [73]); [discriminate|constructor|now right|].
  apply (splits_word ascii 73 [] []); [discriminate|constructor|exact I|constructor].
Qed.
Print Assumptions C78_screaming_refuted.

(** [hello_world2], its words and its names. *)
Definition ex_words : list (list N) := [[104; 105]; [119; 50]].
Example C78_nonvacuous :
  conventional false [104; 105; 95; 119; 50] /\ conventional true [72; 105; 87; 50] /\
  splits ascii [95; 104; 105; 95; 95; 119; 50] ex_words /\
  apply ascii NPascal [95; 104; 105; 95; 95; 119; 50] = Some [72; 105; 87; 50] /\
  apply ascii NCamel [104; 105; 95; 119; 50] = Some [104; 105; 87; 50] /\
  apply ascii NScreamingKebab [72; 105; 87; 50] = Some [72; 73; 45; 87; 50] /\
  expand_name ascii NKebab {| m_name := None; m_index := 3; m_ident := Some [114; 35; 104; 105; 95; 119] |} = VBytes [104; 105; 45; 119] /\
  expand_name ascii NIndex {| m_name := None; m_index := 3; m_ident := Some [104; 105] |} = VN 3 /\
  parse "kebab-case" = Some NKebab /\ parse "Kebab-Case" = None.
Proof.
  assert (P : Forall plain ex_words).
  { repeat constructor; unfold letter, digit; lia || (right; lia). }
  split. { exists ex_words. repeat split; auto. discriminate. }
  split. { exists ex_words. repeat split; auto. discriminate. }
  split. { constructor. apply (splits_word ascii 104 [105] [95; 95; 119; 50]); [discriminate| |now left|].
    - constructor; [split; [discriminate|reflexivity]|constructor].
    - do 2 constructor. apply (splits_word ascii 119 [50] []); [discriminate| |exact I|constructor].
      constructor; [split; [discriminate|reflexivity]|constructor]. }
  repeat split; reflexivity.
Qed.
