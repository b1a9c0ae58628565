(** Readers and writers: properties C07, C08 and C43. *)
From Verif Require Import Base BaseFacts Options Int PropsInt IO IOSpec IOFacts.
From Coq Require Import ZifyBool ZifyNat ZifyN.
Local Open Scope N_scope.

(** C07. Every history of calls on a reader over [inp], limited or not, is
    right for the input: see [IOSpec.right]. *)
Theorem C07_history_right :
  forall p mem inp r us pos h st,
    reads p mem r inp ->
    Forall (op_ok p) us ->
    rrun p mem us (r, pos) = (h, st) ->
    right inp 0 [] h.
Proof.
  intros p mem inp r us pos h st R O E.
  pose proof (rrun_right p mem inp us r pos 0 h st O (reads_at _ _ _ _ R) E) as (H&_&_).
  destruct r; [exact H|exact H|destruct R].
Qed.
Print Assumptions C07_history_right.

(** C07. What is delivered and skipped is, in order, an initial part of the input. *)
Theorem C07_delivers_prefix :
  forall p mem inp r us pos h st,
    reads p mem r inp ->
    Forall (op_ok p) us ->
    rrun p mem us (r, pos) = (h, st) ->
    consumed h <= lenN inp /\
    matches (delivered h) (firstn (N.to_nat (consumed h)) inp).
Proof.
  intros p mem inp r us pos h st R O E.
  exact (right_delivered inp 0 [] h (C07_history_right p mem inp r us pos h st R O E) (N.le_0_l _)).
Qed.
Print Assumptions C07_delivers_prefix.

(** C07. Whatever happened before, a program in the scope of a limit consumes at most the
    limit. *)
Theorem C07_limit_bounds :
  forall p mem inp r us1 n us2 pos h1 st1 h2 st2,
    reads p mem r inp ->
    Forall (op_ok p) (us1 ++ ULimit n :: us2) ->
    rrun p mem us1 (r, pos) = (h1, st1) ->
    rrun p mem us2 (RLimit n (fst st1), snd st1) = (h2, st2) ->
    inside 0 us2 = true ->
    consumed h2 <= n.
Proof.
  intros p mem inp r us1 n us2 pos h1 [r1 pos1] h2 st2 R O E1 E2 I.
  apply Forall_app in O as [O1 O2]. inversion O2 as [|? ? On O3]; subst.
  pose proof (rrun_right p mem inp us1 r pos 0 h1 _ O1 (reads_at _ _ _ _ R) E1) as (_&_&A).
  cbn [fst snd] in *.
  pose proof (rrun_right p mem inp us2 (RLimit n r1) pos1 _ h2 st2 O3 A E2) as (H&_&_).
  eapply (right_limit_bound _ _ _ _ H [] n); [reflexivity|].
  replace (map fst h2) with us2; [exact I|]. clear -E2. revert E2. generalize (RLimit n r1, pos1) as st.
  revert h2 st2. induction us2 as [|u us IH]; intros h2 st2 st E; cbn in E.
  - injection E as <- _. reflexivity.
  - destruct (rstep p mem u st). destruct (rrun p mem us p0) eqn:X. injection E as <- _.
    cbn. f_equal. eapply IH; eauto.
Qed.
Print Assumptions C07_limit_bounds.

(** A slice in memory at address 1000. *)
Definition ex_inp : bytes := [10; 20; 30; 40; 50].
Definition ex_mem (a : N) : N := nth (N.to_nat (a - 1000)) ex_inp 0.
Definition ex_ops : list rop :=
  [UPeek; UTake MReadByte 1; ULimit 3; UTake MReadArray 2; UTake MSkip 2; UEof; UTake MRead 1;
   UEof; UDrop; UTake MReadBytes (2 ^ 64 - 1); UTake MReadBytes 1; UEof].

Example C07_nonvacuous :
  reads ex_plat ex_mem (RSlice ex_inp) ex_inp /\
  reads ex_plat ex_mem (RPtr 1000 1005) ex_inp /\
  Forall (op_ok ex_plat) ex_ops /\
  map snd (fst (rrun ex_plat ex_mem ex_ops (RPtr 1000 1005, 0))) =
    [EPeek (Some 10); EBytes [10]; EDone; EBytes [20; 30]; EFail; EEof false; EBytes [40];
     EEof true; EDone; EFail; EBytes [50]; EEof true] /\
  map snd (fst (rrun ex_plat ex_mem ex_ops (RSlice ex_inp, 0))) =
    map snd (fst (rrun ex_plat ex_mem ex_ops (RPtr 1000 1005, 0))).
Proof.
  split; [reflexivity|]. split; [vm_compute; auto|].
  split; [repeat constructor|]. split; vm_compute; reflexivity.
Qed.

(** C07. A failed call delivers nothing, but it is not without effect: a limit whose inner reader
    fails has lost the allowance, so the following call, which fits the limit
    and the input, fails too. *)
Theorem C07_failure_keeps_limit_refuted :
  exists p mem inp us h st,
    reads p mem (RSlice inp) inp /\ Forall (op_ok p) us /\
    rrun p mem us (RSlice inp, 0) = (h, st) /\
    h = [(ULimit 4, EDone); (UTake MRead 3, EFail); (UTake MRead 2, EFail)] /\
    consumed h = 0 /\ lenN inp = 2.
Proof.
  exists ex_plat, (fun _ => 0), [1; 2], [ULimit 4; UTake MRead 3; UTake MRead 2].
  do 2 eexists. split; [reflexivity|]. split; [repeat constructor|].
  split; [vm_compute; reflexivity|]. vm_compute. auto.
Qed.
Print Assumptions C07_failure_keeps_limit_refuted.

(** C43. On slices the position the context reports is the number of bytes consumed. *)
Theorem C43_position_slice :
  forall p mem inp us h st,
    lenN inp < 2 ^ usize_bits p ->
    Forall (op_ok p) us ->
    rrun p mem us (RSlice inp, 0) = (h, st) ->
    snd st = consumed h.
Proof.
  intros p mem inp us h st L O E.
  pose proof (pow_gt1 p).
  rewrite (rrun_pos p mem inp us (RSlice inp) 0 0 h st O) ;
    [|cbn; split; [lia|reflexivity]|exact E|now left|lia].
  rewrite N.add_0_l. apply N.mod_small.
  pose proof (rrun_right p mem inp us (RSlice inp) 0 0 h st O) as (_&A&_);
    [cbn; split; [lia|reflexivity]|exact E|lia].
Qed.
Print Assumptions C43_position_slice.

(** C43. On every reader as long as no single byte and no array is read. *)
Theorem C43_position_partial :
  forall p mem inp r us h st,
    reads p mem r inp ->
    lenN inp < 2 ^ usize_bits p ->
    Forall (op_ok p) us ->
    forallb (fun u => match u with UTake MReadByte _ | UTake MReadArray _ => false | _ => true end) us
      = true ->
    rrun p mem us (r, 0) = (h, st) ->
    snd st = consumed h.
Proof.
  intros p mem inp r us h st R L O C E.
  pose proof (pow_gt1 p).
  rewrite (rrun_pos p mem inp us r 0 0 h st O (reads_at _ _ _ _ R) E); [|right|lia].
  - rewrite N.add_0_l. apply N.mod_small.
    pose proof (rrun_right p mem inp us r 0 0 h st O (reads_at _ _ _ _ R) E) as (_&A&_). lia.
  - rewrite forallb_forall in *. intros u I. specialize (C u I).
    destruct u as [[] ?| | | |]; auto.
Qed.
Print Assumptions C43_position_partial.

(** C43. Reading a byte from a [SliceReader] counts twice. *)
Theorem C43_position_refuted :
  exists p mem inp r us h st,
    reads p mem r inp /\ Forall (op_ok p) us /\
    rrun p mem us (r, 0) = (h, st) /\
    h = [(UTake MReadByte 1, EBytes [10])] /\ consumed h = 1 /\ snd st = 2.
Proof.
  exists ex_plat, ex_mem, ex_inp, (RPtr 1000 1005), [UTake MReadByte 1].
  do 2 eexists. split; [vm_compute; auto|]. split; [repeat constructor|].
  split; [vm_compute; reflexivity|]. vm_compute. auto.
Qed.
Print Assumptions C43_position_refuted.

Example C43_nonvacuous :
  snd (snd (rrun ex_plat ex_mem ex_ops (RSlice ex_inp, 0))) = 5 /\
  snd (snd (rrun ex_plat ex_mem [ULimit 3; UTake MRead 2; UTake MSkip 2; UTake MSkip 1]
              (RPtr 1000 1005, 0))) = 3.
Proof. vm_compute. auto. Qed.

(** C08. A vector holds the concatenation of everything written, and no write fails. *)
Theorem C08_vec :
  forall p us,
    exists h w, wrun p us (WVec []) = Some (h, w) /\
      h = map (fun u => (u, true)) us /\
      wseen w = concat (map wdata us) /\ wcount w = lenN (concat (map wdata us)).
Proof.
  intros p us. eexists _, _. split; [apply wrun_vec|]. repeat split; reflexivity.
Qed.
Print Assumptions C08_vec.

(** C08. A slice: no write overruns it; a write succeeds exactly when it fits; afterwards the
    slice holds the concatenation of the writes that succeeded, what lies behind is
    unchanged, and the reported count is that of the bytes written. *)
Theorem C08_slice :
  forall p base orig us,
    base + lenN orig < 2 ^ usize_bits p ->
    Forall (fun u => lenN (wdata u) < 2 ^ usize_bits p) us ->
    exists h w, wrun p us (wslice base orig) = Some (h, w) /\
      map fst h = us /\
      fits_all (lenN orig) 0 h /\
      lenN (written h) <= lenN orig /\
      wseen w = written h ++ skipn (length (written h)) orig /\
      wcount w = lenN (written h).
Proof.
  intros p base orig us B L.
  destruct (wrun_fixed p orig us [] (wslice base orig)) as (h&w&E&M&G&K&F); auto.
  { cbn. change (lenN (@nil N)) with 0. repeat split; auto; lia. }
  exists h, w. split; [exact E|]. split; [exact M|]. split; [exact G|].
  assert (X : match w with WSlice _ _ _ _ => True | _ => False end).
  { clear -E. revert E. unfold wslice. generalize base at 2. generalize orig at 1. revert h.
    generalize (base + lenN orig) as e.
    induction us as [|u us IH]; intros e h m s E; cbn in E; [injection E as <- <-; exact I|].
    destruct u as [bs|b|bs]; cbn in E;
    repeat match type of E with context [if ?c then _ else _] => destruct c end;
    repeat match type of E with context [match store ?a ?b ?c with _ => _ end] =>
      destruct (store a b c) end;
    try discriminate;
    match type of E with context [wrun p us ?W] => destruct (wrun p us W) as [[h' w']|] eqn:Q end;
    try discriminate; injection E as <- <-; eapply IH; exact Q. }
  destruct w as [|mem b s e|]; try easy. cbn in K.
  destruct K as (->&_&->&K&->). cbn [wseen wcount]. split; [exact K|]. split; [reflexivity|].
  rewrite lenN_app. replace (length (written h)) with (N.to_nat (lenN (written h))) by (unfold lenN; lia).
  rewrite lenN_skipn. lia.
Qed.
Print Assumptions C08_slice.

(** C08. Fixed bytes: the same, and the initialised part is exactly what was written. *)
Theorem C08_fixed_bytes :
  forall p data us,
    lenN data < 2 ^ usize_bits p ->
    Forall (fun u => lenN (wdata u) < 2 ^ usize_bits p) us ->
    exists h w, wrun p us (wfixed data) = Some (h, w) /\
      map fst h = us /\
      fits_all (lenN data) 0 h /\
      wseen w = written h /\
      wcount w = lenN (written h) /\
      (into_bytes w = if lenN (written h) =? lenN data then Some (written h) else None).
Proof.
  intros p data us B L.
  destruct (wrun_fixed p data us [] (wfixed data)) as (h&w&E&M&G&K&F); auto.
  { cbn. change (lenN (@nil N)) with 0. repeat split; auto; lia. }
  exists h, w. split; [exact E|]. split; [exact M|]. split; [exact G|].
  assert (X : match w with WFixed _ _ => True | _ => False end).
  { clear -E. revert E. unfold wfixed. generalize 0 as i. generalize data as m. revert h.
    induction us as [|u us IH]; intros h m s E; cbn in E; [injection E as <- <-; exact I|].
    destruct u as [bs|b|bs]; cbn in E;
    repeat match type of E with context [if ?c then _ else _] => destruct c end;
    repeat match type of E with context [match store ?a ?b ?c with _ => _ end] =>
      destruct (store a b c) end;
    try discriminate;
    match type of E with context [wrun p us ?W] => destruct (wrun p us W) as [[h' w']|] eqn:Q end;
    try discriminate; injection E as <- <-; eapply IH; exact Q. }
  destruct w as [| |d i]; try easy. cbn in K.
  destruct K as (_&->&K&->). cbn [wseen wcount into_bytes].
  replace (N.to_nat (lenN (written h))) with (length (written h)) by (unfold lenN; lia).
  rewrite firstn_app, firstn_all, Nat.sub_diag, firstn_O, app_nil_r.
  split; [reflexivity|]. split; [reflexivity|].
  rewrite lenN_app. replace (length (written h)) with (N.to_nat (lenN (written h))) by (unfold lenN; lia).
  rewrite lenN_skipn.
  replace (lenN (written h) + (lenN data - lenN (written h))) with (lenN data) by lia.
  destruct (N.eqb_spec (lenN (written h)) (lenN data)) as [Q|Q]; [|reflexivity].
  rewrite Q. replace (N.to_nat (lenN data)) with (length data) by (unfold lenN; lia).
  now rewrite skipn_all, app_nil_r.
Qed.
Print Assumptions C08_fixed_bytes.

Example C08_nonvacuous :
  wrun ex_plat [UWrite [1; 2]; UByte 3; UWrite [4; 5; 6]; UExtend [7; 8]; UByte 9]
    (wslice 1000 [91; 92; 93; 94; 95; 96])
  = Some ([(UWrite [1; 2], true); (UByte 3, true); (UWrite [4; 5; 6], true);
           (UExtend [7; 8], false); (UByte 9, false)],
          WSlice [1; 2; 3; 4; 5; 6] 1000 1006 1006) /\
  wrun ex_plat [UWrite [1; 2]; UWrite [4; 5; 6]; UByte 9] (wfixed [91; 92; 93; 94])
  = Some ([(UWrite [1; 2], true); (UWrite [4; 5; 6], false); (UByte 9, true)],
          WFixed [1; 2; 9; 94] 3).
Proof. vm_compute. auto. Qed.

(** C08. [with_capacity] refuses the capacity that the storage has. *)
Theorem C08_with_capacity_refuted :
  exists data capacity, capacity = lenN data /\ fixed_with_capacity data capacity = Panic.
Proof. exists [0; 0], 2. vm_compute. auto. Qed.
Print Assumptions C08_with_capacity_refuted.
